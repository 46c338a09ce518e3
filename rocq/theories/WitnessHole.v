(** * WitnessHole: a square with a square hole, in binary64. *)

From Coq Require Import ZArith NArith List Bool QArith SpecFloat Lia Lqa Permutation.
From Verif Require Import Base Arith Types Utils Infinite Triangulation Constrained F64 Exact Spec DTOut GridSpec GridNum InputSpec GridApi GridCdt
  ApiProps Refuted Witness SpecBox SpecDomain.
Import ListNotations.
Local Open Scope N_scope.

(** The corners of the hole, then those of the square.  The square is clockwise, the hole is
    counter-clockwise. *)
Definition lhole : list (Z * Z) := [(4,4); (4,8); (8,8); (8,4); (0,0); (16,0); (16,16); (0,16)]%Z.
Definition cs_hole : list edge := [Edge 0 3; Edge 3 2; Edge 2 1; Edge 1 0; Edge 4 7; Edge 7 6; Edge 6 5; Edge 5 4].
Definition out_hole : list (N * N * N) :=
  [(2,5,3); (3,5,4); (0,3,4); (0,4,1); (1,4,7); (1,7,2); (2,7,6); (2,6,5)].

Lemma lhole_grid64 : on_grid (E := env64) (pts lhole) lhole (2 ^ 40).
Proof.
  exists (sf_is 53 1024), (2 ^ 4)%Z, 0%Z, 0%Z.
  split; [apply (Grid_f64 u32_max 4); lia|]. split; [|split].
  - apply f2_map. intros p Hp. simpl in Hp.
    decompose [or] Hp; try contradiction; subst; vm_compute; repeat split; reflexivity.
  - unfold fits, lhole. repeat split.
    1-4: simpl in H; intuition (subst; simpl; lia).
    + exists (0, 0)%Z. simpl. auto 12.
    + exists (0, 0)%Z. simpl. auto 12.
    + exists (16, 16)%Z. simpl. auto 12.
  - intros p Hp. simpl in Hp. decompose [or] Hp; try contradiction; subst; vm_compute; split; discriminate.
Qed.

Lemma lhole_ids : 2 * lenN (pts lhole) + 2 <= @idmax env64.
Proof. vm_compute. discriminate. Qed.

Lemma lhole_fuel : (400 >= (2 * length (pts lhole) + 4) * (2 * length (pts lhole) + 4))%nat.
Proof. apply Nat.leb_le. reflexivity. Qed.

Lemma lhole_fuel_small : (400 >= 4 * length (pts lhole) + 12)%nat.
Proof. apply Nat.leb_le. reflexivity. Qed.

Lemma lhole_cdt : constrained_triangulation_from_2d_vertices (E := env64) 400 1 (pts lhole) cs_hole = Ret out_hole.
Proof. vm_compute. reflexivity. Qed.

Lemma lhole_points :
  zpoint lhole 0 = (4, 4)%Q /\ zpoint lhole 1 = (4, 8)%Q /\ zpoint lhole 2 = (8, 8)%Q /\ zpoint lhole 3 = (8, 4)%Q /\
  zpoint lhole 4 = (0, 0)%Q /\ zpoint lhole 5 = (16, 0)%Q /\ zpoint lhole 6 = (16, 16)%Q /\ zpoint lhole 7 = (0, 16)%Q.
Proof. repeat split. Qed.

Lemma lhole_corners : Permutation [4; 5; 6; 7] [4; 4 + 1; 4 + 2; 4 + 3] /\
  box_corners (zpoint lhole 4) (zpoint lhole 5) (zpoint lhole 6) (zpoint lhole 7) /\
  forall v, v < 4 -> in_box (zpoint lhole 4) (zpoint lhole 6) (zpoint lhole v).
Proof.
  split; [apply Permutation_refl|]. split; [vm_compute; repeat split; try reflexivity; discriminate|].
  intros v H. assert (K : v = 0 \/ v = 1 \/ v = 2 \/ v = 3) by lia.
  destruct lhole_points as (P0 & P1 & P2 & P3 & P4 & P5 & P6 & P7).
  decompose [or] K; subst v; rewrite ?P0, ?P1, ?P2, ?P3, ?P4, ?P6; unfold in_box; cbn [fst snd]; split; split; lra.
Qed.

Lemma lhole_clear e : In e cs_hole -> efrom e < 8 /\ eto e < 8 /\
  (proper (zpoint lhole) e -> clear_between (zpoint lhole) 8 (efrom e) (eto e)).
Proof.
  destruct lhole_points as (P0 & P1 & P2 & P3 & P4 & P5 & P6 & P7).
  intros He. cbn [cs_hole In] in He.
  decompose [or] He; try contradiction; subst e; cbn [efrom eto]; (split; [lia|]; split; [lia|]).
  all: intros _ v s Hv Hs;
    assert (Hv' : v = 0 \/ v = 1 \/ v = 2 \/ v = 3 \/ v = 4 \/ v = 5 \/ v = 6 \/ v = 7) by lia;
    decompose [or] Hv'; subst v; rewrite ?P0, ?P1, ?P2, ?P3, ?P4, ?P5, ?P6, ?P7;
    intros (Q1 & Q2); unfold along in Q1, Q2; cbn [fst snd] in Q1, Q2; lra.
Qed.

Lemma lhole_noncrossing : noncrossing (zpoint lhole) cs_hole.
Proof. apply noncrossing_b; vm_compute; reflexivity. Qed.

(** A point between the square and the hole, and one in the hole. *)
Lemma ring_free t : (0 < t <= 1)%Q -> ~ on_constraint (zpoint lhole) cs_hole (along (along (zpoint lhole 4) (zpoint lhole 7) (3 # 8)) (2, 6)%Q t).
Proof.
  destruct lhole_points as (P0 & P1 & P2 & P3 & P4 & P5 & P6 & P7).
  intros Ht (e & s & He & _ & Hs & (X & Y)). cbn [cs_hole In] in He.
  decompose [or] He; try contradiction; subst e; cbn [efrom eto] in *;
    rewrite ?P0, ?P1, ?P2, ?P3, ?P4, ?P5, ?P6, ?P7 in *; unfold along in X, Y; cbn [fst snd] in X, Y; lra.
Qed.

Lemma free_point p : (0 < fst p < 4 \/ 4 < fst p < 8)%Q -> (4 < snd p < 8)%Q -> ~ on_constraint (zpoint lhole) cs_hole p.
Proof.
  destruct lhole_points as (P0 & P1 & P2 & P3 & P4 & P5 & P6 & P7).
  intros Hx Hy (e & s & He & _ & Hs & (X & Y)). cbn [cs_hole In] in He.
  decompose [or] He; try contradiction; subst e; cbn [efrom eto] in *;
    rewrite ?P0, ?P1, ?P2, ?P3, ?P4, ?P5, ?P6, ?P7 in *; unfold along in X, Y; cbn [fst snd] in X, Y; destruct Hx; lra.
Qed.

Lemma ring_domain : in_domain (zpoint lhole) cs_hole (2, 6)%Q.
Proof.
  exists (2, 6)%Q. split; [apply linked_here|]. exists (Edge 4 7), (3 # 8)%Q.
  split; [cbn; auto 12|]. split; [split; reflexivity|]. split; [reflexivity|]. exact ring_free.
Qed.

Lemma ring_point : ~ on_constraint (zpoint lhole) cs_hole (2, 6)%Q /\ in_box (zpoint lhole 4) (zpoint lhole 6) (2, 6)%Q.
Proof.
  split; [apply free_point; cbn [fst snd]; [left|]; split; reflexivity|].
  vm_compute. repeat split; discriminate.
Qed.

Lemma hole_point : ~ on_constraint (zpoint lhole) cs_hole (6, 6)%Q /\ in_box (zpoint lhole 4) (zpoint lhole 6) (6, 6)%Q /\
  ~ covered (zpoint lhole) out_hole (6, 6)%Q.
Proof.
  split; [apply free_point; cbn [fst snd]; [right|]; split; reflexivity|].
  split; [vm_compute; repeat split; discriminate|].
  intros (((a, b), c) & Ht & (A & B & C)). cbn [out_hole In] in Ht.
  destruct lhole_points as (P0 & P1 & P2 & P3 & P4 & P5 & P6 & P7).
  decompose [or] Ht; try contradiction;
    match goal with H : _ = _ |- _ => injection H as <- <- <- end;
    rewrite ?P0, ?P1, ?P2, ?P3, ?P4, ?P5, ?P6, ?P7 in *; unfold orient in A, B, C; cbn [fst snd] in A, B, C; lra.
Qed.
