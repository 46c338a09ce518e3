(** * SpecDomain: the area selected by directed constraints; constrained Delaunay.

    Definitions only; no proof. *)

From Coq Require Import NArith List QArith.
From Verif Require Import Types Spec.
Import ListNotations.

Section Domain.
Variable at_ : N -> point.
Variable cs : list edge.

(** The constraint [e] has two ends at different places. *)
Definition proper (e : edge) : Prop := ~ same_place (at_ (efrom e)) (at_ (eto e)).

(** [p] is on a constraint, ends included. *)
Definition on_constraint (p : point) : Prop :=
  exists e s, In e cs /\ proper e /\ (0 <= s <= 1)%Q /\ same_place p (along (at_ (efrom e)) (at_ (eto e)) s).

(** No constraint meets the closed segment from [p] to [q]. *)
Definition apart (p q : point) : Prop := forall s, (0 <= s <= 1)%Q -> ~ on_constraint (along p q s).

(** A path of straight segments leads from [p] to [q] without meeting a constraint. *)
Inductive linked (p : point) : point -> Prop :=
| linked_here : linked p p
| linked_next q r : linked p q -> apart q r -> linked p r.

(** [p] is on the right of some constraint, looking from its first vertex to its second one, and
    sees a point between its ends, with no constraint on the way. *)
Definition sees_right (p : point) : Prop :=
  exists e s, In e cs /\ (0 < s < 1)%Q /\
    (orient (at_ (efrom e)) (at_ (eto e)) p < 0)%Q /\
    forall t, (0 < t <= 1)%Q -> ~ on_constraint (along (along (at_ (efrom e)) (at_ (eto e)) s) p t).

(** [p] is in a domain: it is linked to the right hand side of a constraint. *)
Definition in_domain (p : point) : Prop := exists q, linked p q /\ sees_right q.

(** Only across a constraint may a triangle have in its circumcircle the opposite corner of its
    neighbor. *)
Definition constrained_delaunay (out : list (N * N * N)) : Prop :=
  forall a b c d, is_tri out a b c -> is_tri out b a d -> in_circumcircle (at_ a) (at_ b) (at_ c) (at_ d) ->
    exists e, In e cs /\
      ((same_place (at_ (efrom e)) (at_ a) /\ same_place (at_ (eto e)) (at_ b)) \/
       (same_place (at_ (efrom e)) (at_ b) /\ same_place (at_ (eto e)) (at_ a))).
End Domain.

(** ** Constraints and the triangles they cross *)
Section Crossed.
Variable at_ : N -> point.

(** The same segment, in the same direction or not. *)
Definition same_ends (e f : edge) : Prop :=
  (same_place (at_ (efrom e)) (at_ (efrom f)) /\ same_place (at_ (eto e)) (at_ (eto f))) \/
  (same_place (at_ (efrom e)) (at_ (eto f)) /\ same_place (at_ (eto e)) (at_ (efrom f))).

(** The segment [e] is an edge of a triangle of the list. *)
Definition edge_of (out : list (N * N * N)) (e : edge) : Prop :=
  exists a b c, is_tri out a b c /\ same_ends (Edge a b) e.

(** The segment [e] crosses at most [k] edges of the triangles of the list. *)
Definition crosses_at_most (out : list (N * N * N)) (k : nat) (e : edge) : Prop :=
  exists l, (length l <= k)%nat /\
    forall a b c, is_tri out a b c -> segments_cross (at_ a) (at_ b) (at_ (efrom e)) (at_ (eto e)) ->
      In (a, b) l \/ In (b, a) l.
End Crossed.
