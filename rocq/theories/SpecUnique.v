(** * SpecUnique: comparing the triangulations of two inputs.

    Definitions only; no proof. *)

From Coq Require Import NArith List QArith.
From Verif Require Import Spec.
Import ListNotations.

(** [p] is on the circle through the (not collinear) points [a], [b], [c]. *)
Definition on_circumcircle (a b c p : point) : Prop :=
  exists o, (sqdist o a == sqdist o b /\ sqdist o b == sqdist o c /\ sqdist o p == sqdist o a)%Q.

(** No triangle has one of the vertices 0..n-1 in its circumcircle. *)
Definition delaunay (at_ : N -> point) (n : N) (out : list (N * N * N)) : Prop :=
  forall a b c v, In (a, b, c) out -> (v < n)%N -> ~ in_circumcircle (at_ a) (at_ b) (at_ c) (at_ v).

(** No four of the vertices 0..n-1, at four places, are on a circle with no vertex inside. *)
Definition no_empty_circle_of_four (at_ : N -> point) (n : N) : Prop :=
  forall a b c d, (a < n)%N -> (b < n)%N -> (c < n)%N -> (d < n)%N ->
    ~ (orient (at_ a) (at_ b) (at_ c) == 0)%Q ->
    ~ same_place (at_ d) (at_ a) -> ~ same_place (at_ d) (at_ b) -> ~ same_place (at_ d) (at_ c) ->
    on_circumcircle (at_ a) (at_ b) (at_ c) (at_ d) ->
    exists v, (v < n)%N /\ in_circumcircle (at_ a) (at_ b) (at_ c) (at_ v).

(** Two inputs, of [n1] vertices at [at1] and [n2] vertices at [at2]. *)
Section Two.
Variables at1 at2 : N -> point.

(** They hold the same points, perhaps in another order and not as often. *)
Definition same_points (n1 n2 : N) : Prop :=
  (forall v, (v < n1)%N -> exists w, (w < n2)%N /\ same_place (at1 v) (at2 w)) /\
  (forall w, (w < n2)%N -> exists v, (v < n1)%N /\ same_place (at1 v) (at2 w)).

(** The triangles [s] of the first input and [t] of the second one have the same corners, up to
    rotation. *)
Definition same_triangle (s t : N * N * N) : Prop :=
  let '(a, b, c) := s in let '(x, y, z) := t in
  (same_place (at1 a) (at2 x) /\ same_place (at1 b) (at2 y) /\ same_place (at1 c) (at2 z)) \/
  (same_place (at1 a) (at2 y) /\ same_place (at1 b) (at2 z) /\ same_place (at1 c) (at2 x)) \/
  (same_place (at1 a) (at2 z) /\ same_place (at1 b) (at2 x) /\ same_place (at1 c) (at2 y)).

(** The same triangles: each one of one list is one of the other list, and both are as long. *)
Definition same_triangles (out1 out2 : list (N * N * N)) : Prop :=
  (forall s, In s out1 -> exists t, In t out2 /\ same_triangle s t) /\
  (forall t, In t out2 -> exists s, In s out1 /\ same_triangle s t) /\
  length out1 = length out2.
End Two.

(** Four of the vertices 0..n-1 on a circle, the corners of the triangles [a b c] and [b a d] on
    both sides of [a b], always have another vertex, at another place, in one of these triangles. *)
Definition no_empty_quad_on_a_circle (at_ : N -> point) (n : N) : Prop :=
  forall a b c d, (a < n)%N -> (b < n)%N -> (c < n)%N -> (d < n)%N ->
    clockwise (at_ a) (at_ b) (at_ c) -> clockwise (at_ b) (at_ a) (at_ d) ->
    on_circumcircle (at_ a) (at_ b) (at_ c) (at_ d) ->
    exists v, (v < n)%N /\
      ~ same_place (at_ v) (at_ a) /\ ~ same_place (at_ v) (at_ b) /\ ~ same_place (at_ v) (at_ c) /\ ~ same_place (at_ v) (at_ d) /\
      (inside_or_on (at_ a) (at_ b) (at_ c) (at_ v) \/ inside_or_on (at_ b) (at_ a) (at_ d) (at_ v)).

(** The same triangles, of the same vertices: only their order and the first corner may differ. *)
Definition same_result (out1 out2 : list (N * N * N)) : Prop :=
  (forall a b c, is_tri out1 a b c <-> is_tri out2 a b c) /\ length out1 = length out2.

(** None of the vertices 0..n-1 is inside the circumcircle of the vertices [a], [b], [c]. *)
Definition empty_circle (at_ : N -> point) (n a b c : N) : Prop :=
  forall v, (v < n)%N -> ~ in_circumcircle (at_ a) (at_ b) (at_ c) (at_ v).

(** [out] has a triangle with its corners at [a], [b], [c], in this order up to rotation. *)
Definition triangle_at (at_ : N -> point) (out : list (N * N * N)) (a b c : N) : Prop :=
  exists t, In t out /\ same_triangle at_ at_ (a, b, c) t.

(** The point [x] after a rotation about the origin and a scaling, both given by the vector (p, q),
    and a translation by (s, t). *)
Definition turned (p q s t : Q) (x : point) : point :=
  (p * fst x - q * snd x + s, q * fst x + p * snd x + t)%Q.

(** The same after a reflection. *)
Definition mirrored (p q s t : Q) (x : point) : point :=
  (p * fst x + q * snd x + s, q * fst x - p * snd x + t)%Q.

(** The triangle with its corners in the opposite order. *)
Definition reversed (t : N * N * N) : N * N * N := let '(a, b, c) := t in (a, c, b).
