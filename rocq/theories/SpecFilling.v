(** * SpecFilling: the places of the vertices strictly inside a polygon. *)

From Coq Require Import ZArith NArith List QArith.
From Verif Require Import Types Spec SpecBox SpecDomain SpecWinding.
Import ListNotations.
Local Open Scope N_scope.

(** [inner] takes one vertex per place strictly inside the polygon [cs] that is the place of one of
    the vertices [0 .. n - 1]: strictly inside is off the sides and with winding number 1. *)
Record inside_vertices (at_ : N -> point) (n : N) (cs : list edge) (inner : list N) : Prop := {
  iv_inside : forall u, In u inner -> u < n /\ ~ on_constraint at_ cs (at_ u) /\ winding at_ cs (at_ u) = 1%Z;
  iv_places : ForallOrdPairs (fun u v => ~ same_place (at_ u) (at_ v)) inner;
  iv_all : forall v, v < n -> ~ on_constraint at_ cs (at_ v) -> winding at_ cs (at_ v) = 1%Z ->
    exists u, In u inner /\ same_place (at_ u) (at_ v)
}.
