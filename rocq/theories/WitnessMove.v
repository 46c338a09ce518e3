(** * WitnessMove: the points of [lbox] rotated, scaled and reflected. *)

From Coq Require Import ZArith NArith List Bool QArith SpecFloat Lia Lqa Permutation.
From Verif Require Import Base BaseFacts Arith Types Utils Infinite Triangulation F64 Exact Spec DTOut GridSpec GridNum InputSpec GridApi
  GridCdt ApiProps Refuted Witness SpecBox WitnessBox SpecUnique Unique WitnessUnique.
Import ListNotations.
Local Open Scope N_scope.

(** Rotated by a quarter turn and scaled by two, in another order. *)
Definition lturn : list (Z * Z) := [(32,34); (8,10); (14,40); (24,6); (0,0); (32,64); (32,0); (0,64)]%Z.

Lemma lturn_grid64 : on_grid (E := env64) (pts lturn) lturn (2 ^ 40).
Proof.
  exists (sf_is 53 1024), (2 ^ 6)%Z, 0%Z, 0%Z.
  split; [apply (Grid_f64 u32_max 6); lia|]. split; [|split].
  - apply f2_map. intros p Hp. simpl in Hp.
    decompose [or] Hp; try contradiction; subst; vm_compute; repeat split; reflexivity.
  - unfold fits, lturn. repeat split.
    1-4: simpl in H; intuition (subst; simpl; lia).
    + exists (0, 0)%Z. simpl. auto 12.
    + exists (0, 0)%Z. simpl. auto 12.
    + exists (32, 64)%Z. simpl. auto 12.
  - intros p Hp. simpl in Hp. decompose [or] Hp; try contradiction; subst; vm_compute; split; discriminate.
Qed.

Lemma lturn_ids : 2 * lenN (pts lturn) + 2 <= @idmax env64.
Proof. vm_compute. discriminate. Qed.

Lemma lturn_corners : Permutation [4; 6; 5; 7] [4; 4 + 1; 4 + 2; 4 + 3] /\
  box_corners (zpoint lturn 4) (zpoint lturn 6) (zpoint lturn 5) (zpoint lturn 7).
Proof.
  split; [|vm_compute; repeat split; try reflexivity; discriminate].
  apply (NoDup_Permutation_bis); [|reflexivity|intros x; cbn [In]; lia].
  repeat constructor; cbn [In]; lia.
Qed.

Lemma lturn_inside v : v < 4 -> in_box (zpoint lturn 4) (zpoint lturn 5) (zpoint lturn v).
Proof.
  intros H. assert (K : v = 0 \/ v = 1 \/ v = 2 \/ v = 3) by lia.
  decompose [or] K; subst v; vm_compute; repeat split; discriminate.
Qed.

Lemma lturn_same : same_points (fun v => turned 0 2 32 0 (zpoint lbox v)) (zpoint lturn) 10 8.
Proof.
  split.
  - intros v H. assert (K : v = 0 \/ v = 1 \/ v = 2 \/ v = 3 \/ v = 4 \/ v = 5 \/ v = 6 \/ v = 7 \/ v = 8 \/ v = 9) by lia.
    decompose [or] K; subst v; [exists 3|exists 7|exists 1|exists 3|exists 2|exists 0|exists 7|exists 6|exists 4|exists 5];
      (split; [lia|vm_compute; split; reflexivity]).
  - intros v H. assert (K : v = 0 \/ v = 1 \/ v = 2 \/ v = 3 \/ v = 4 \/ v = 5 \/ v = 6 \/ v = 7) by lia.
    decompose [or] K; subst v; [exists 5|exists 2|exists 4|exists 0|exists 8|exists 9|exists 7|exists 6];
      (split; [lia|vm_compute; split; reflexivity]).
Qed.

(** Reflected: the coordinates exchanged, in binary32. *)
Definition lswap : list (Z * Z) := [(0,17); (12,5); (9,20); (4,3); (16,0); (0,32); (0,0); (16,32)]%Z.

Lemma lswap_grid32 : on_grid (E := env32) (pts32 lswap) lswap (2 ^ 13).
Proof.
  exists (sf_is 24 128), (2 ^ 5)%Z, 0%Z, 0%Z.
  split; [apply (Grid_f32 u32_max 5); lia|]. split; [|split].
  - apply f2_map. intros p Hp. simpl in Hp.
    decompose [or] Hp; try contradiction; subst; vm_compute; repeat split; reflexivity.
  - unfold fits, lswap. repeat split.
    1-4: simpl in H; intuition (subst; simpl; lia).
    + exists (0, 0)%Z. simpl. auto 12.
    + exists (0, 0)%Z. simpl. auto 12.
    + exists (16, 32)%Z. simpl. auto 12.
  - intros p Hp. simpl in Hp. decompose [or] Hp; try contradiction; subst; vm_compute; split; discriminate.
Qed.

Lemma lswap_ids : 2 * lenN (pts32 lswap) + 2 <= @idmax env32.
Proof. vm_compute. discriminate. Qed.

Lemma lswap_corners : Permutation [6; 4; 7; 5] [4; 4 + 1; 4 + 2; 4 + 3] /\
  box_corners (zpoint lswap 6) (zpoint lswap 4) (zpoint lswap 7) (zpoint lswap 5).
Proof.
  split; [|vm_compute; repeat split; try reflexivity; discriminate].
  apply (NoDup_Permutation_bis); [|reflexivity|intros x; cbn [In]; lia].
  repeat constructor; cbn [In]; lia.
Qed.

Lemma lswap_inside v : v < 4 -> in_box (zpoint lswap 6) (zpoint lswap 7) (zpoint lswap v).
Proof.
  intros H. assert (K : v = 0 \/ v = 1 \/ v = 2 \/ v = 3) by lia.
  decompose [or] K; subst v; vm_compute; repeat split; discriminate.
Qed.

Lemma lswap_same : same_points (fun v => mirrored 0 1 0 0 (zpoint lbox v)) (zpoint lswap) 10 8.
Proof.
  split.
  - intros v H. assert (K : v = 0 \/ v = 1 \/ v = 2 \/ v = 3 \/ v = 4 \/ v = 5 \/ v = 6 \/ v = 7 \/ v = 8 \/ v = 9) by lia.
    decompose [or] K; subst v; [exists 3|exists 7|exists 1|exists 3|exists 2|exists 0|exists 7|exists 6|exists 4|exists 5];
      (split; [lia|vm_compute; split; reflexivity]).
  - intros v H. assert (K : v = 0 \/ v = 1 \/ v = 2 \/ v = 3 \/ v = 4 \/ v = 5 \/ v = 6 \/ v = 7) by lia.
    decompose [or] K; subst v; [exists 5|exists 2|exists 4|exists 0|exists 8|exists 9|exists 7|exists 6];
      (split; [lia|vm_compute; split; reflexivity]).
Qed.

(** Three vertices, and the same turned by an eighth: one triangle, no triangle. *)
Definition ltri1 : list (Z * Z) := [(0,0); (4,4); (1,2)]%Z.
Definition ltri2 : list (Z * Z) := [(1,0); (1,8); (0,3)]%Z.

Lemma ltri1_grid : on_grid (E := env64) (pts ltri1) ltri1 (2 ^ 40).
Proof.
  exists (sf_is 53 1024), (2 ^ 2)%Z, 0%Z, 0%Z.
  split; [apply (Grid_f64 u32_max 2); lia|]. split; [|split].
  - apply f2_map. intros p Hp. simpl in Hp.
    decompose [or] Hp; try contradiction; subst; vm_compute; repeat split; reflexivity.
  - unfold fits, ltri1. repeat split.
    1-4: simpl in H; intuition (subst; simpl; lia).
    + exists (0, 0)%Z. simpl. auto 12.
    + exists (0, 0)%Z. simpl. auto 12.
    + exists (4, 4)%Z. simpl. auto 12.
  - intros p Hp. simpl in Hp. decompose [or] Hp; try contradiction; subst; vm_compute; split; discriminate.
Qed.

Lemma ltri2_grid : on_grid (E := env64) (pts ltri2) ltri2 (2 ^ 40).
Proof.
  exists (sf_is 53 1024), (2 ^ 3)%Z, 0%Z, 0%Z.
  split; [apply (Grid_f64 u32_max 3); lia|]. split; [|split].
  - apply f2_map. intros p Hp. simpl in Hp.
    decompose [or] Hp; try contradiction; subst; vm_compute; repeat split; reflexivity.
  - unfold fits, ltri2. repeat split.
    1-4: simpl in H; intuition (subst; simpl; lia).
    + exists (0, 3)%Z. simpl. auto 12.
    + exists (1, 0)%Z. simpl. auto 12.
    + exists (1, 8)%Z. simpl. auto 12.
  - intros p Hp. simpl in Hp. decompose [or] Hp; try contradiction; subst; vm_compute; split; discriminate.
Qed.

Lemma ltri_moved v : v < 3 -> same_place (zpoint ltri2 v) (turned 1 1 1 0 (zpoint ltri1 v)).
Proof.
  intros H. assert (K : v = 0 \/ v = 1 \/ v = 2) by lia. decompose [or] K; subst v; vm_compute; split; reflexivity.
Qed.

Lemma ltri_dt : dt64 100 1 ltri1 = Ret [] /\ dt64 100 1 ltri2 = Ret [(0, 2, 1)].
Proof. split; vm_compute; reflexivity. Qed.
