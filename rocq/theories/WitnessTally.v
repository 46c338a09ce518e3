(** * WitnessTally: the square with a hole of [WitnessHole] with one more vertex in the domain and one in the hole, in binary32. *)

From Coq Require Import ZArith NArith List Bool QArith SpecFloat Lia Lqa Permutation.
From Verif Require Import Base Arith Types Utils Infinite Triangulation Constrained F64 Exact Spec DTOut GridSpec GridNum InputSpec GridApi GridCdt
  ApiProps Refuted Witness SpecBox SpecDomain SpecTally WitnessBox WitnessHole WitnessUnique TallyGrid.
Import ListNotations.
Local Open Scope N_scope.

Definition lring : list (Z * Z) := [(4,4); (2,6); (8,8); (8,4); (4,8); (6,6); (16,16); (0,16); (0,0); (16,0)]%Z.
Definition cs_ring2 : list edge :=
  [Edge 9 8; Edge 2 4; Edge 8 7; Edge 0 3; Edge 6 9; Edge 4 0; Edge 7 6; Edge 3 2; Edge 2 4].

Lemma lring_grid32 : on_grid (E := env32) (pts32 lring) lring (2 ^ 13).
Proof.
  exists (sf_is 24 128), (2 ^ 4)%Z, 0%Z, 0%Z.
  split; [apply (Grid_f32 u32_max 4); lia|]. split; [|split].
  - apply f2_map. intros p Hp. simpl in Hp.
    decompose [or] Hp; try contradiction; subst; vm_compute; repeat split; reflexivity.
  - unfold fits, lring. repeat split.
    1-4: simpl in H; intuition (subst; simpl; lia).
    + exists (0, 0)%Z. simpl. auto 14.
    + exists (0, 0)%Z. simpl. auto 14.
    + exists (16, 16)%Z. simpl. auto 14.
  - intros p Hp. simpl in Hp. decompose [or] Hp; try contradiction; subst; vm_compute; split; discriminate.
Qed.

Lemma lring_ids : 2 * lenN (pts32 lring) + 2 <= @idmax env32.
Proof. vm_compute. discriminate. Qed.
Lemma lring_fuel : (600 >= (2 * length (pts32 lring) + 4) * (2 * length (pts32 lring) + 4))%nat.
Proof. apply Nat.leb_le. reflexivity. Qed.

Lemma lring_points :
  zpoint lring 0 = (4, 4)%Q /\ zpoint lring 1 = (2, 6)%Q /\ zpoint lring 2 = (8, 8)%Q /\ zpoint lring 3 = (8, 4)%Q /\
  zpoint lring 4 = (4, 8)%Q /\ zpoint lring 5 = (6, 6)%Q /\ zpoint lring 6 = (16, 16)%Q /\ zpoint lring 7 = (0, 16)%Q /\
  zpoint lring 8 = (0, 0)%Q /\ zpoint lring 9 = (16, 0)%Q.
Proof. repeat split. Qed.

Lemma lring_corners : Permutation [8; 9; 6; 7] [6; 6 + 1; 6 + 2; 6 + 3] /\
  box_corners (zpoint lring 8) (zpoint lring 9) (zpoint lring 6) (zpoint lring 7) /\
  forall v, v < 6 -> in_box (zpoint lring 8) (zpoint lring 6) (zpoint lring v).
Proof.
  split. { cbn. apply (Permutation_app_comm [8; 9] [6; 7]). }
  split; [vm_compute; repeat split; try reflexivity; discriminate|].
  intros v H. assert (K : v = 0 \/ v = 1 \/ v = 2 \/ v = 3 \/ v = 4 \/ v = 5) by lia.
  destruct lring_points as (P0 & P1 & P2 & P3 & P4 & P5 & P6 & P7 & P8 & P9).
  decompose [or] K; subst v; rewrite ?P0, ?P1, ?P2, ?P3, ?P4, ?P5, ?P6, ?P8; unfold in_box; cbn [fst snd]; split; split; lra.
Qed.

Lemma lring_clear e : In e cs_ring2 -> efrom e < 10 /\ eto e < 10 /\
  (proper (zpoint lring) e -> clear_between (zpoint lring) 10 (efrom e) (eto e)).
Proof.
  destruct lring_points as (P0 & P1 & P2 & P3 & P4 & P5 & P6 & P7 & P8 & P9).
  intros He. cbn [cs_ring2 In] in He.
  decompose [or] He; try contradiction; subst e; cbn [efrom eto]; (split; [lia|]; split; [lia|]).
  all: intros _ v s Hv Hs;
    assert (Hv' : v = 0 \/ v = 1 \/ v = 2 \/ v = 3 \/ v = 4 \/ v = 5 \/ v = 6 \/ v = 7 \/ v = 8 \/ v = 9) by lia;
    decompose [or] Hv'; subst v; rewrite ?P0, ?P1, ?P2, ?P3, ?P4, ?P5, ?P6, ?P7, ?P8, ?P9;
    intros (Q1 & Q2); unfold along in Q1, Q2; cbn [fst snd] in Q1, Q2; lra.
Qed.

Lemma lring_noncrossing : noncrossing (zpoint lring) cs_ring2.
Proof. apply noncrossing_b; vm_compute; reflexivity. Qed.

Lemma lring_same : same_constraints (zpoint lhole) (zpoint lring) cs_hole cs_ring2.
Proof.
  assert (R : forall i j, zpoint lhole i = zpoint lring j -> same_place (zpoint lhole i) (zpoint lring j)) by (intros i j ->; split; reflexivity).
  split; intros e He; cbn [cs_hole cs_ring2 In] in He.
  - decompose [or] He; try contradiction; subst e; cbn [efrom eto];
      [exists (Edge 0 3)|exists (Edge 3 2)|exists (Edge 2 4)|exists (Edge 4 0)|exists (Edge 8 7)|exists (Edge 7 6)|exists (Edge 6 9)|exists (Edge 9 8)];
      (split; [cbn; auto 14|]; split; apply R; reflexivity).
  - decompose [or] He; try contradiction; subst e; cbn [efrom eto];
      [exists (Edge 5 4)|exists (Edge 2 1)|exists (Edge 4 7)|exists (Edge 0 3)|exists (Edge 6 5)|exists (Edge 1 0)|exists (Edge 7 6)|exists (Edge 3 2)|exists (Edge 2 1)];
      (split; [cbn; auto 14|]; split; apply R; reflexivity).
Qed.

Lemma lring_box : same_place (zpoint lhole 4) (zpoint lring 8) /\ same_place (zpoint lhole 6) (zpoint lring 6).
Proof. repeat split; reflexivity. Qed.

Lemma lring_all v : v < 8 -> exists w, w < 10 /\ same_place (zpoint lhole v) (zpoint lring w).
Proof.
  intros H. assert (K : v = 0 \/ v = 1 \/ v = 2 \/ v = 3 \/ v = 4 \/ v = 5 \/ v = 6 \/ v = 7) by lia.
  decompose [or] K; subst v; [exists 0|exists 4|exists 2|exists 3|exists 8|exists 9|exists 6|exists 7]; (split; [lia|repeat split; reflexivity]).
Qed.

Lemma lring_old w : w < 10 -> w <> 1 -> w <> 5 -> old (zpoint lhole) (zpoint lring) 8 w.
Proof.
  intros H A B. assert (K : w = 0 \/ w = 2 \/ w = 3 \/ w = 4 \/ w = 6 \/ w = 7 \/ w = 8 \/ w = 9) by lia.
  decompose [or] K; subst w; [exists 0|exists 2|exists 3|exists 1|exists 6|exists 7|exists 4|exists 5]; (split; [lia|repeat split; reflexivity]).
Qed.

Lemma lring_new : new_places (zpoint lhole) (zpoint lring) 8 10 [1].
Proof.
  split; [|repeat constructor]. intros u [<-|[]]. split; [lia|]. intros (v & V & P).
  assert (K : v = 0 \/ v = 1 \/ v = 2 \/ v = 3 \/ v = 4 \/ v = 5 \/ v = 6 \/ v = 7) by lia.
  decompose [or] K; subst v; destruct P as (P & _); vm_compute in P; discriminate P.
Qed.

Lemma lring_inside : in_domain (zpoint lring) cs_ring2 (zpoint lring 1) /\ within_box (zpoint lring 8) (zpoint lring 6) (zpoint lring 1).
Proof.
  split; [|vm_compute; repeat split; reflexivity]. apply (in_domain_same _ _ _ _ lring_same). exact ring_domain.
Qed.

(** The corners of the box of [WitnessBox] alone. *)
Definition lfour : list (Z * Z) := [(32,16); (0,0); (0,16); (32,0)]%Z.

Lemma lfour_grid64 : on_grid (E := env64) (pts lfour) lfour (2 ^ 40).
Proof.
  exists (sf_is 53 1024), (2 ^ 5)%Z, 0%Z, 0%Z.
  split; [apply (Grid_f64 u32_max 5); lia|]. split; [|split].
  - apply f2_map. intros p Hp. simpl in Hp.
    decompose [or] Hp; try contradiction; subst; vm_compute; repeat split; reflexivity.
  - unfold fits, lfour. repeat split.
    1-4: simpl in H; intuition (subst; simpl; lia).
    + exists (0, 0)%Z. simpl. auto 12.
    + exists (0, 0)%Z. simpl. auto 12.
    + exists (32, 16)%Z. simpl. auto 12.
  - intros p Hp. simpl in Hp. decompose [or] Hp; try contradiction; subst; vm_compute; split; discriminate.
Qed.

Lemma lfour_ids : 2 * lenN (pts lfour) + 2 <= @idmax env64.
Proof. vm_compute. discriminate. Qed.

Lemma lfour_corners : Permutation [1; 3; 0; 2] [0; 0 + 1; 0 + 2; 0 + 3] /\
  box_corners (zpoint lfour 1) (zpoint lfour 3) (zpoint lfour 0) (zpoint lfour 2).
Proof.
  split; [|vm_compute; repeat split; try reflexivity; discriminate].
  apply (NoDup_Permutation_bis); [|reflexivity|intros x; cbn [In]; lia].
  repeat constructor; cbn [In]; lia.
Qed.

Lemma lbox_all v : v < 4 -> exists w, w < 10 /\ same_place (zpoint lfour v) (zpoint lbox w).
Proof.
  intros H. assert (K : v = 0 \/ v = 1 \/ v = 2 \/ v = 3) by lia.
  decompose [or] K; subst v; [exists 6|exists 7|exists 8|exists 9]; (split; [lia|repeat split; reflexivity]).
Qed.

Lemma lbox_old w : w < 10 ->
  old (zpoint lfour) (zpoint lbox) 4 w \/ exists u, In u [0; 2; 4; 5] /\ same_place (zpoint lbox u) (zpoint lbox w).
Proof.
  intros H. assert (K : w = 0 \/ w = 1 \/ w = 2 \/ w = 3 \/ w = 4 \/ w = 5 \/ w = 6 \/ w = 7 \/ w = 8 \/ w = 9) by lia.
  decompose [or] K; subst w;
    first [right; exists 0; split; [cbn; now auto|split; reflexivity] | right; exists 2; split; [cbn; now auto|split; reflexivity]
          |right; exists 4; split; [cbn; now auto|split; reflexivity] | right; exists 5; split; [cbn; now auto 6|split; reflexivity]
          |left; exists 0; split; [lia|split; reflexivity] | left; exists 1; split; [lia|split; reflexivity]
          |left; exists 2; split; [lia|split; reflexivity] | left; exists 3; split; [lia|split; reflexivity]].
Qed.

Lemma lbox_new : new_places (zpoint lfour) (zpoint lbox) 4 10 [0; 2; 4; 5].
Proof.
  split.
  - intros u Hu. split; [cbn in Hu; decompose [or] Hu; try contradiction; subst u; lia|]. intros (v & V & P).
    assert (K : v = 0 \/ v = 1 \/ v = 2 \/ v = 3) by lia. cbn [In] in Hu.
    decompose [or] K; decompose [or] Hu; try contradiction; subst u v; destruct P as (P1 & P2); vm_compute in P1, P2; first [discriminate P1|discriminate P2].
  - repeat constructor; intros (P1 & P2); vm_compute in P1, P2; first [discriminate P1|discriminate P2].
Qed.

Lemma lbox_inner out u : (forall p, covered (zpoint lbox) out p <-> in_box (zpoint lbox 7) (zpoint lbox 6) p) ->
  In u [0; 2; 4] -> surrounded (zpoint lbox) out (zpoint lbox u).
Proof.
  intros C Hu. exists 1%Q. split; [reflexivity|]. intros q Q1 Q2. apply C. clear C.
  destruct lbox_points as (P0 & P1 & P2 & P3 & P4 & P5 & P6 & P7 & P8 & P9).
  cbn [In] in Hu. decompose [or] Hu; try contradiction; subst u; rewrite ?P0, ?P2, ?P4 in Q1, Q2; rewrite P6, P7; unfold in_box; cbn [fst snd] in *;
    split; split; lra.
Qed.

Lemma lbox_rim out u : (forall p, covered (zpoint lbox) out p <-> in_box (zpoint lbox 7) (zpoint lbox 6) p) ->
  In u [5] -> on_straight_border (zpoint lbox) out (zpoint lbox u).
Proof.
  intros C [<-|[]]. exists 1%Q, 0%Q, (-1)%Q. split; [reflexivity|]. split; [intros (_ & K); discriminate K|].
  intros q Q1 Q2. rewrite C. clear C.
  destruct lbox_points as (P0 & P1 & P2 & P3 & P4 & P5 & P6 & P7 & P8 & P9).
  rewrite P5 in *. rewrite P6, P7. unfold in_box. cbn [fst snd] in *. split; [intros ((A & B) & (C & D)); lra|intros K; split; split; lra].
Qed.
