(** * SpecAlone: a condition on the vertices inside a polygon.

    Definitions only; no proof. *)

From Coq Require Import ZArith NArith List QArith.
From Verif Require Import Types Spec SpecDomain SpecUnique SpecVisible SpecWinding.

(** All points inside the triangle of [a], [b], [c] are inside the polygon [P]. *)
Definition within (at_ : N -> point) (P : list edge) (a b c : N) : Prop :=
  forall p, strictly_inside (at_ a) (at_ b) (at_ c) p -> ~ on_constraint at_ P p /\ winding at_ P p = 1%Z.

(** A vertex on the circle of three others whose triangle is inside the polygon [P], and seen from
    inside this triangle: a vertex inside the circle is seen from there, too. *)
Definition no_circle_within (at_ : N -> point) (P : list edge) (n : N) : Prop :=
  forall a b c d p, (a < n)%N -> (b < n)%N -> (c < n)%N -> (d < n)%N ->
    clockwise (at_ a) (at_ b) (at_ c) -> within at_ P a b c -> strictly_inside (at_ a) (at_ b) (at_ c) p ->
    ~ same_place (at_ d) (at_ a) -> ~ same_place (at_ d) (at_ b) -> ~ same_place (at_ d) (at_ c) ->
    on_circumcircle (at_ a) (at_ b) (at_ c) (at_ d) -> sees at_ P p (at_ d) ->
    exists v q, (v < n)%N /\ strictly_inside (at_ a) (at_ b) (at_ c) q /\ sees at_ P q (at_ v) /\
      in_circumcircle (at_ a) (at_ b) (at_ c) (at_ v).
