(** * UniqueGrid: two Delaunay results on the same points are the same, for the inputs of
    [InputSpec.v]. *)

From Coq Require Import ZArith NArith List Bool Lia QArith Lqa Permutation.
From Verif Require Import Base BaseFacts Arith Types Utils Infinite Triangulation AnyDT Spec DTOut GridSpec InputSpec GridApi
  SpecBox BoxGrid SpecUnique Unique.
Import ListNotations.
Local Open Scope N_scope.

Section Inputs.
Variables E1 E2 : Env.
Variables (vs1 : list (@vertex E1)) (vs2 : list (@vertex E2)) (at1 at2 : N -> point) (bound1 bound2 : Z).
Hypothesis G1 : exact_input (E := E1) vs1 at1 bound1.
Hypothesis G2 : exact_input (E := E2) vs2 at2 bound2.
Hypothesis Hid1 : 2 * lenN vs1 + 2 <= @idmax E1.
Hypothesis Hid2 : 2 * lenN vs2 + 2 <= @idmax E2.
Variables (fuel1 fuel2 : nat) (bins1 bins2 : N).
Hypothesis Hf1 : (4 * length vs1 + 12 <= fuel1)%nat.
Hypothesis Hf2 : (4 * length vs2 + 12 <= fuel2)%nat.
Hypothesis Sp : same_points at1 at2 (lenN vs1) (lenN vs2).

Lemma grid_same_circle out1 out2 a b c x y z p :
  triangulation_from_2d_vertices (E := E1) fuel1 bins1 vs1 = Ret out1 ->
  triangulation_from_2d_vertices (E := E2) fuel2 bins2 vs2 = Ret out2 ->
  delaunay at1 (lenN vs1) out1 -> delaunay at2 (lenN vs2) out2 ->
  In (a, b, c) out1 -> In (x, y, z) out2 ->
  strictly_inside (at1 a) (at1 b) (at1 c) p -> inside_or_on (at2 x) (at2 y) (at2 z) p ->
  on_circumcircle (at2 x) (at2 y) (at2 z) (at1 a) /\ on_circumcircle (at2 x) (at2 y) (at2 z) (at1 b) /\
  on_circumcircle (at2 x) (at2 y) (at2 z) (at1 c).
Proof.
  intros R1 R2 D1 D2.
  destruct (grid_valid vs1 at1 bound1 G1 Hid1 fuel1 bins1 out1 Hf1 R1) as (V1 & _).
  destruct (grid_valid vs2 at2 bound2 G2 Hid2 fuel2 bins2 out2 Hf2 R2) as (V2 & _).
  apply (overlap_same_circle at1 at2 (lenN vs1) (lenN vs2) out1 out2 Sp D1 D2 (vm_clockwise _ _ _ V1) (vm_clockwise _ _ _ V2)).
  - apply (proj1 (dt_ids (E := E1) fuel1 bins1 vs1 out1 ltac:(lia) R1)).
  - apply (proj1 (dt_ids (E := E2) fuel2 bins2 vs2 out2 ltac:(lia) R2)).
Qed.

Hypothesis Gp : no_empty_circle_of_four at1 (lenN vs1).

Lemma grid_unique out1 out2 :
  triangulation_from_2d_vertices (E := E1) fuel1 bins1 vs1 = Ret out1 ->
  triangulation_from_2d_vertices (E := E2) fuel2 bins2 vs2 = Ret out2 ->
  delaunay at1 (lenN vs1) out1 -> delaunay at2 (lenN vs2) out2 ->
  (forall p, covered at1 out1 p <-> covered at2 out2 p) ->
  same_triangles at1 at2 out1 out2.
Proof.
  intros R1 R2 D1 D2.
  destruct (grid_valid vs1 at1 bound1 G1 Hid1 fuel1 bins1 out1 Hf1 R1) as (V1 & _).
  destruct (grid_valid vs2 at2 bound2 G2 Hid2 fuel2 bins2 out2 Hf2 R2) as (V2 & _).
  apply (delaunay_unique at1 at2 (lenN vs1) (lenN vs2) out1 out2 Sp Gp (valid_tiles _ _ _ V1) (valid_tiles _ _ _ V2)); auto.
  - apply (proj1 (dt_ids (E := E1) fuel1 bins1 vs1 out1 ltac:(lia) R1)).
  - apply (proj1 (dt_ids (E := E2) fuel2 bins2 vs2 out2 ltac:(lia) R2)).
Qed.
End Inputs.

(** Two boxes around the same points are the same. *)
Lemma same_box at1 at2 n1 n2 a b c d a' b' c' d' : same_points at1 at2 n1 n2 ->
  a < n1 -> b < n1 -> c < n1 -> d < n1 -> a' < n2 -> b' < n2 -> c' < n2 -> d' < n2 ->
  (forall v, v < n1 -> in_box (at1 a) (at1 c) (at1 v)) -> (forall v, v < n2 -> in_box (at2 a') (at2 c') (at2 v)) ->
  same_place (at1 a) (at2 a') /\ same_place (at1 c) (at2 c').
Proof.
  intros (S1 & S2) La Lb Lc Ld La' Lb' Lc' Ld' B1 B2.
  assert (K1 : forall v, v < n1 -> in_box (at2 a') (at2 c') (at1 v)).
  { intros v Hv. destruct (S1 v Hv) as (w & Hw & Q1 & Q2). pose proof (B2 w Hw) as K. unfold in_box in *. now rewrite Q1, Q2. }
  assert (K2 : forall v, v < n2 -> in_box (at1 a) (at1 c) (at2 v)).
  { intros v Hv. destruct (S2 v Hv) as (w & Hw & Q1 & Q2). pose proof (B1 w Hw) as K. unfold in_box in *. now rewrite <- Q1, <- Q2. }
  pose proof (K1 a La) as A1. pose proof (K1 c Lc) as A2. pose proof (K2 a' La') as A3. pose proof (K2 c' Lc') as A4.
  unfold in_box, same_place in *. repeat split; lra.
Qed.

Lemma in_box_same a c a' c' p : same_place a a' -> same_place c c' -> in_box a c p <-> in_box a' c' p.
Proof. intros (A & B) (C & F). unfold in_box. now rewrite A, B, C, F. Qed.

Lemma box_all (at_ : N -> point) n a b c d : Permutation [a; b; c; d] [n; n + 1; n + 2; n + 3] ->
  box_corners (at_ a) (at_ b) (at_ c) (at_ d) -> (forall v, v < n -> in_box (at_ a) (at_ c) (at_ v)) ->
  (a < n + 4 /\ b < n + 4 /\ c < n + 4 /\ d < n + 4) /\ forall v, v < n + 4 -> in_box (at_ a) (at_ c) (at_ v).
Proof.
  intros P (B1 & B2 & B3 & B4 & B5 & B6) H.
  assert (K : forall v, In v [a; b; c; d] <-> In v [n; n + 1; n + 2; n + 3]).
  { intros v. split; intros I; [apply (Permutation_in _ P I)|apply (Permutation_in _ (Permutation_sym P) I)]. }
  split.
  - assert (L : forall v, In v [a; b; c; d] -> v < n + 4).
    { intros v Hv. apply K in Hv. cbn [In] in Hv. lia. }
    repeat split; apply L; cbn [In]; tauto.
  - intros v Hv. destruct (N.ltb_spec v n) as [Lv|Lv]; [now apply H|].
    assert (I : In v [a; b; c; d]) by (apply K; cbn [In]; lia).
    cbn [In] in I. unfold in_box. destruct I as [<-|[<-|[<-|[<-|[]]]]]; repeat split; lra.
Qed.

(** The corners of a box last, one bin. *)
Lemma grid_box_unique (E1 E2 : Env) (vs1 : list (@vertex E1)) (vs2 : list (@vertex E2)) at1 at2 bound1 bound2 fuel1 fuel2
    n1 n2 a b c d a' b' c' d' :
  exact_input (E := E1) vs1 at1 bound1 -> exact_input (E := E2) vs2 at2 bound2 ->
  2 * lenN vs1 + 2 <= @idmax E1 -> 2 * lenN vs2 + 2 <= @idmax E2 ->
  (4 * length vs1 + 12 <= fuel1)%nat -> (4 * length vs2 + 12 <= fuel2)%nat -> (1 <= bound1)%Z -> (1 <= bound2)%Z ->
  lenN vs1 = n1 + 4 -> Permutation [a; b; c; d] [n1; n1 + 1; n1 + 2; n1 + 3] ->
  box_corners (at1 a) (at1 b) (at1 c) (at1 d) -> (forall v, v < n1 -> in_box (at1 a) (at1 c) (at1 v)) ->
  lenN vs2 = n2 + 4 -> Permutation [a'; b'; c'; d'] [n2; n2 + 1; n2 + 2; n2 + 3] ->
  box_corners (at2 a') (at2 b') (at2 c') (at2 d') -> (forall v, v < n2 -> in_box (at2 a') (at2 c') (at2 v)) ->
  same_points at1 at2 (lenN vs1) (lenN vs2) -> no_empty_circle_of_four at1 (lenN vs1) ->
  exists out1 out2, triangulation_from_2d_vertices (E := E1) fuel1 1 vs1 = Ret out1 /\
    triangulation_from_2d_vertices (E := E2) fuel2 1 vs2 = Ret out2 /\ same_triangles at1 at2 out1 out2.
Proof.
  intros G1 G2 Hi1 Hi2 Hf1 Hf2 Hb1 Hb2 L1 P1 B1 N1 L2 P2 B2 N2 Sp Gp.
  assert (X1 : exists out, triangulation_from_2d_vertices (E := E1) fuel1 1 vs1 = Ret out /\
    (forall p, covered at1 out p <-> in_box (at1 a) (at1 c) p) /\
    forall x y z v, is_tri out x y z -> v < lenN vs1 -> ~ in_circumcircle (at1 x) (at1 y) (at1 z) (at1 v)).
  { clear - G1 Hi1 Hf1 Hb1 L1 P1 B1 N1. pair_input G1.
    exact (grid_box_last vs1 _ _ bound1 G1 Hi1 fuel1 n1 a b c d Hf1 Hb1 L1 P1 B1 N1). }
  assert (X2 : exists out, triangulation_from_2d_vertices (E := E2) fuel2 1 vs2 = Ret out /\
    (forall p, covered at2 out p <-> in_box (at2 a') (at2 c') p) /\
    forall x y z v, is_tri out x y z -> v < lenN vs2 -> ~ in_circumcircle (at2 x) (at2 y) (at2 z) (at2 v)).
  { clear - G2 Hi2 Hf2 Hb2 L2 P2 B2 N2. pair_input G2.
    exact (grid_box_last vs2 _ _ bound2 G2 Hi2 fuel2 n2 a' b' c' d' Hf2 Hb2 L2 P2 B2 N2). }
  destruct X1 as (out1 & R1 & C1 & D1). destruct X2 as (out2 & R2 & C2 & D2).
  exists out1, out2. split; [exact R1|split; [exact R2|]].
  destruct (box_all at1 n1 a b c d P1 B1 N1) as ((La & Lb & Lc & Ld) & A1).
  destruct (box_all at2 n2 a' b' c' d' P2 B2 N2) as ((La' & Lb' & Lc' & Ld') & A2).
  rewrite <- L1 in *. rewrite <- L2 in *.
  destruct (same_box at1 at2 (lenN vs1) (lenN vs2) a b c d a' b' c' d' Sp La Lb Lc Ld La' Lb' Lc' Ld' A1 A2) as (Qa & Qc).
  apply (grid_unique E1 E2 vs1 vs2 at1 at2 bound1 bound2 G1 G2 Hi1 Hi2 fuel1 fuel2 1 1 Hf1 Hf2 Sp Gp out1 out2 R1 R2).
  - intros x y z v Ht Hv. apply D1; [now left|exact Hv].
  - intros x y z v Ht Hv. apply D2; [now left|exact Hv].
  - intros p. rewrite C1, C2. exact (in_box_same _ _ _ _ p Qa Qc).
Qed.
