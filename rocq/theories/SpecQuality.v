(** * SpecQuality: vocabulary for the circumcircle checker.  Definitions only. *)

From Coq Require Import NArith List QArith Reals Qreals.
From Verif Require Import Base Spec.
Import ListNotations.
Local Open Scope R_scope.

Definition rpoint : Type := (R * R)%type.
Definition rsqdist (a b : rpoint) : R :=
  (fst a - fst b) * (fst a - fst b) + (snd a - snd b) * (snd a - snd b).

(** Three points that are not on a line. *)
Definition not_flat (a b c : rpoint) : Prop :=
  (fst b - fst a) * (snd c - snd a) - (snd b - snd a) * (fst c - fst a) <> 0.

(** d is strictly inside the circle through a, b and c. *)
Definition in_rcircle (a b c d : rpoint) : Prop :=
  exists o, rsqdist o a = rsqdist o b /\ rsqdist o a = rsqdist o c /\ rsqdist o d < rsqdist o a.

Section Check.
Variable vs : list rpoint.
Variable ts : list (N * N * N).
Definition rat (v : N) : rpoint := nth (N.to_nat v) vs (0, 0).

(** The circumcircle of t contains a corner, other than its own, of one of the triangles. *)
Definition crowded (t : N * N * N) : Prop :=
  let '(a, b, c) := t in
  exists t' v, In t' ts /\ tri_corner t' v /\ ~ tri_corner t v /\ in_rcircle (rat a) (rat b) (rat c) (rat v).
End Check.

(** All the corners are indices of vertices. *)
Definition ids_in_range {A} (ts : list (N * N * N)) (vs : list A) : Prop :=
  forall t v, In t ts -> tri_corner t v -> (v < lenN vs)%N.

(** The real coordinates of the vertices of an input (positions at_, n vertices). *)
Definition rpt (p : point) : rpoint := (Q2R (fst p), Q2R (snd p)).
Definition real_positions (at_ : N -> point) (n : N) (vs : list rpoint) : Prop :=
  lenN vs = n /\ forall v, (v < n)%N -> rat vs v = rpt (at_ v).
