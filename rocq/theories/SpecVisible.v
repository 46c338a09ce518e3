(** * SpecVisible: constrained Delaunay in terms of visibility.

    Definitions only; no proof. *)

From Coq Require Import NArith List QArith.
From Verif Require Import Types Spec SpecDomain SpecUnique.

Section Visible.
Variable at_ : N -> point.
Variable cs : list edge.

(** No constraint is between [p] and [q]. *)
Definition sees (p q : point) : Prop := forall s, (0 <= s < 1)%Q -> ~ on_constraint at_ cs (along p q s).

(** No vertex inside the circumcircle of a triangle is seen from a point inside the triangle. *)
Definition visibly_delaunay (n : N) (out : list (N * N * N)) : Prop :=
  forall a b c p v, In (a, b, c) out -> strictly_inside (at_ a) (at_ b) (at_ c) p -> (v < n)%N -> sees p (at_ v) ->
    ~ in_circumcircle (at_ a) (at_ b) (at_ c) (at_ v).

(** The triangle of the vertices [a], [b], [c] belongs to the constrained triangulation: its
    inside is in a domain and meets no constraint, and no vertex seen from there is inside its
    circumcircle. *)
Definition constrained_triangle (n a b c : N) : Prop :=
  forall p, strictly_inside (at_ a) (at_ b) (at_ c) p ->
    in_domain at_ cs p /\ ~ on_constraint at_ cs p /\
    forall v, (v < n)%N -> sees p (at_ v) -> ~ in_circumcircle (at_ a) (at_ b) (at_ c) (at_ v).

(** A vertex on the circle of three others that is seen from inside their triangle: a vertex
    inside the circle is seen from there, too. *)
Definition no_seen_circle_of_four (n : N) : Prop :=
  forall a b c d p, (a < n)%N -> (b < n)%N -> (c < n)%N -> (d < n)%N ->
    clockwise (at_ a) (at_ b) (at_ c) -> strictly_inside (at_ a) (at_ b) (at_ c) p ->
    ~ same_place (at_ d) (at_ a) -> ~ same_place (at_ d) (at_ b) -> ~ same_place (at_ d) (at_ c) ->
    on_circumcircle (at_ a) (at_ b) (at_ c) (at_ d) -> sees p (at_ d) ->
    exists v q, (v < n)%N /\ strictly_inside (at_ a) (at_ b) (at_ c) q /\ sees q (at_ v) /\
      in_circumcircle (at_ a) (at_ b) (at_ c) (at_ v).
End Visible.
