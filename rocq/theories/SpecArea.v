(** * SpecArea: areas of triangles and of polygons, independent of the model. *)

From Coq Require Import NArith List QArith.
From Verif Require Import Types Spec SpecCount.
Import ListNotations.
Local Open Scope Q_scope.

Section Areas.
Variable at_ : N -> point.

(** The area of a triangle, positive when its corners are in clockwise order. *)
Definition tri_area (t : N * N * N) : Q := let '(a, b, c) := t in (1#2) * - orient (at_ a) (at_ b) (at_ c).

(** The sum of the areas of the triangles. *)
Fixpoint total_area (out : list (N * N * N)) : Q :=
  match out with [] => 0 | t :: r => tri_area t + total_area r end.

(** The area enclosed by the closed loops [cs] (shoelace formula), positive for a clockwise polygon;
    the loops need not be listed in order. *)
Fixpoint enclosed_area (cs : list edge) : Q :=
  match cs with
  | [] => 0
  | e :: r => (1#2) * (fst (at_ (eto e)) * snd (at_ (efrom e)) - fst (at_ (efrom e)) * snd (at_ (eto e))) + enclosed_area r
  end.

(** The directed edge from [u] to [v] is, up to duplicate vertices, the constraint [e]. *)
Definition along_constraint (u v : N) (e : edge) : Prop :=
  same_place (at_ u) (at_ (efrom e)) /\ same_place (at_ v) (at_ (eto e)).

(** The border of the triangles consists of exactly the constraints, each one once and with the
    triangles on its right. *)
Definition border_is (out : list (N * N * N)) (cs : list edge) : Prop :=
  length (border_edges out) = length cs /\
  (forall u v, In (u, v) (border_edges out) -> exists e, In e cs /\ along_constraint u v e) /\
  forall e, In e cs -> exists u v, In (u, v) (border_edges out) /\ along_constraint u v e.
End Areas.

(** [p] is in the box with lower left corner [a] and upper right corner [c], not on its sides. *)
Definition in_open_box (a c p : point) : Prop := fst a < fst p < fst c /\ snd a < snd p < snd c.

(** The area of this box. *)
Definition box_area (a c : point) : Q := (fst c - fst a) * (snd c - snd a).
