(** * SpecTiles: polygons side by side.

    Definitions only; no proof. *)

From Coq Require Import ZArith NArith List QArith.
From Verif Require Import Types Spec SpecDomain SpecWinding.
Import ListNotations.

(** Simple polygons, taken clockwise, that may have corners and whole sides in common, but neither
    overlap nor lie in one another.  A side that two polygons have in common is taken in opposite
    directions by them. *)
Record tiles (at_ : N -> point) (polys : list (list edge)) : Prop := {
  ti_polygon : forall P, In P polys -> simple_polygon at_ P;
  ti_clockwise : forall P, In P polys -> exists p, ~ on_constraint at_ P p /\ (0 < winding at_ P p)%Z;
  ti_sides : forall i j P Q e f s r, nth_error polys i = Some P -> nth_error polys j = Some Q -> i <> j ->
    In e P -> In f Q -> (0 < s < 1)%Q -> (0 <= r <= 1)%Q ->
    same_place (along (at_ (efrom e)) (at_ (eto e)) s) (along (at_ (efrom f)) (at_ (eto f)) r) ->
    same_place (at_ (efrom f)) (at_ (eto e)) /\ same_place (at_ (eto f)) (at_ (efrom e));
  ti_apart : forall i j P Q p, nth_error polys i = Some P -> nth_error polys j = Some Q -> i <> j ->
    ~ on_constraint at_ P p -> ~ on_constraint at_ Q p -> ~ (winding at_ P p = 1%Z /\ winding at_ Q p = 1%Z)
}.
