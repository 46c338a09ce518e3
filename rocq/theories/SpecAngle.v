(** * SpecAngle: the angles of triangles, edges, and inputs that differ by one vertex.

    Definitions only; no proof. *)

From Coq Require Import NArith List QArith Qreals Reals.
From Verif Require Import Spec.

(** The scalar product of the vectors from [q] to [p] and to [r]. *)
Definition scalar (p q r : point) : Q :=
  ((fst p - fst q) * (fst r - fst q) + (snd p - snd q) * (snd r - snd q))%Q.

(** The angle at [q] between [p] and [r], in radians. *)
Definition angle (p q r : point) : R :=
  acos (Q2R (scalar p q r) / (sqrt (Q2R (sqdist q p)) * sqrt (Q2R (sqdist q r)))).

(** All angles of the triangles are at least [k]. *)
Definition angles_at_least (at_ : N -> point) (out : list (N * N * N)) (k : R) : Prop :=
  forall a b c, is_tri out a b c -> (k <= angle (at_ a) (at_ b) (at_ c))%R.

(** An edge of a triangle joins the vertices [a] and [b] (or others at their places). *)
Definition joined (at_ : N -> point) (out : list (N * N * N)) (a b : N) : Prop :=
  exists x y z, is_tri out x y z /\
    (same_place (at_ x) (at_ a) /\ same_place (at_ y) (at_ b) \/ same_place (at_ x) (at_ b) /\ same_place (at_ y) (at_ a)).

(** A circle about [o] through the vertices [a] and [b]; the other ones of the vertices 0..n-1
    are outside. *)
Definition circle_of_two (at_ : N -> point) (n a b : N) (o : point) : Prop :=
  (sqdist o (at_ a) == sqdist o (at_ b))%Q /\
  forall v, (v < n)%N -> ~ same_place (at_ v) (at_ a) -> ~ same_place (at_ v) (at_ b) -> (sqdist o (at_ a) < sqdist o (at_ v))%Q.

(** The vertices 0..n-1 are split in two classes; [a] is in the one, [b] in the other, and no
    two vertices of different classes are closer to each other. *)
Definition closest_across (at_ : N -> point) (n : N) (class : N -> bool) (a b : N) : Prop :=
  class a = true /\ class b = false /\
  forall u v, (u < n)%N -> (v < n)%N -> class u = true -> class v = false -> (sqdist (at_ a) (at_ b) <= sqdist (at_ u) (at_ v))%Q.

(** The second input has the points of the first one and the point [w]. *)
Definition one_more_point (at1 at2 : N -> point) (n1 n2 : N) (w : point) : Prop :=
  (forall v, (v < n1)%N -> exists u, (u < n2)%N /\ same_place (at1 v) (at2 u)) /\
  (exists u, (u < n2)%N /\ same_place w (at2 u)) /\
  (forall u, (u < n2)%N -> same_place w (at2 u) \/ exists v, (v < n1)%N /\ same_place (at1 v) (at2 u)).

(** [T] triangulates the area of [out], too: clockwise triangles of the vertices 0..n-1, with no
    vertex in a triangle except at its corners, that cover it. *)
Record retriangulates (at_ : N -> point) (n : N) (out T : list (N * N * N)) : Prop := {
  rt_ids : forall a b c, In (a, b, c) T -> (a < n /\ b < n /\ c < n)%N;
  rt_clockwise : forall t, In t T -> tri_clockwise at_ t;
  rt_empty : forall t v, In t T -> (v < n)%N -> tri_inside_or_on at_ t (at_ v) ->
      exists c, tri_corner t c /\ same_place (at_ c) (at_ v);
  rt_covers : forall p, covered at_ out p -> covered at_ T p
}.
