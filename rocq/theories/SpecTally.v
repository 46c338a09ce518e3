(** * SpecTally: comparing the numbers of triangles of two results.

    Definitions only; no proof. *)

From Coq Require Import NArith List QArith.
From Verif Require Import Base Arith Types Spec SpecDomain Triangulation Constrained.
Import ListNotations.

(** [out] is the result of a call without constraints or with any constraints. *)
Definition returned {E : Env} (fuel : nat) (bins : N) (vs : list vertex) (out : list (N * N * N)) : Prop :=
  triangulation_from_2d_vertices fuel bins vs = Ret out \/
  exists cs, constrained_triangulation_from_2d_vertices fuel bins vs cs = Ret out.

(** [p] is inside a straight piece of the border of the area of the triangles: near [p] the area is
    what lies on one side of a line through [p]. *)
Definition on_straight_border (at_ : N -> point) (out : list (N * N * N)) (p : point) : Prop :=
  exists r dx dy, (0 < r)%Q /\ ~ (dx == 0 /\ dy == 0)%Q /\
    forall q, (- r <= fst q - fst p <= r)%Q -> (- r <= snd q - snd p <= r)%Q ->
      (covered at_ out q <-> (dx * (fst q - fst p) + dy * (snd q - snd p) <= 0)%Q).

Section Two.
Variables at1 at2 : N -> point.
Variables n1 n2 : N.

(** The second vertices [w] at the place of one of the first ones. *)
Definition old (w : N) : Prop := exists v, (v < n1)%N /\ same_place (at1 v) (at2 w).

(** The vertices [l] of the second input are at different places, where the first one has none. *)
Definition new_places (l : list N) : Prop :=
  (forall u, In u l -> (u < n2)%N /\ ~ old u) /\ ForallOrdPairs (fun u v => ~ same_place (at2 u) (at2 v)) l.

(** Each constraint of one list is, up to duplicate vertices, one of the other list. *)
Definition same_constraints (cs1 cs2 : list edge) : Prop :=
  (forall e, In e cs1 -> exists f, In f cs2 /\ same_place (at1 (efrom e)) (at2 (efrom f)) /\ same_place (at1 (eto e)) (at2 (eto f))) /\
  (forall f, In f cs2 -> exists e, In e cs1 /\ same_place (at1 (efrom e)) (at2 (efrom f)) /\ same_place (at1 (eto e)) (at2 (eto f))).
End Two.

(** [p] is in the box with lower left corner [a] and upper right corner [c], not on its sides. *)
Definition within_box (a c p : point) : Prop := (fst a < fst p < fst c /\ snd a < snd p < snd c)%Q.
