(** * WitnessFrame: a square with a square hole that does not touch the box around it, in binary64. *)

From Coq Require Import ZArith NArith List Bool QArith SpecFloat Lia Lqa Permutation.
From Verif Require Import Base Arith Types Utils Infinite Triangulation Constrained F64 Exact Spec DTOut GridSpec GridNum InputSpec GridApi GridCdt
  ApiProps Refuted Witness SpecBox SpecDomain SpecWinding SpecFilling SpecArea Winding WitnessWinding WitnessPolygon.
Import ListNotations.
Local Open Scope N_scope.

(** The corners of the hole, of the square and of the box. *)
Definition lframe : list (Z * Z) := [(4,4); (4,10); (10,10); (10,4); (2,2); (14,2); (14,14); (2,14); (0,0); (16,0); (16,16); (0,16)]%Z.
Definition cs_frame : list edge := [Edge 0 3; Edge 3 2; Edge 2 1; Edge 1 0; Edge 4 7; Edge 7 6; Edge 6 5; Edge 5 4].

Lemma lframe_grid64 : on_grid (E := env64) (pts lframe) lframe (2 ^ 40).
Proof.
  exists (sf_is 53 1024), (2 ^ 4)%Z, 0%Z, 0%Z.
  split; [apply (Grid_f64 u32_max 4); lia|]. split; [|split].
  - apply f2_map. intros p Hp. simpl in Hp.
    decompose [or] Hp; try contradiction; subst; vm_compute; repeat split; reflexivity.
  - unfold fits, lframe. repeat split.
    1-4: simpl in H; intuition (subst; simpl; lia).
    + exists (0, 0)%Z. simpl. auto 16.
    + exists (0, 0)%Z. simpl. auto 16.
    + exists (16, 16)%Z. simpl. auto 16.
  - intros p Hp. simpl in Hp. decompose [or] Hp; try contradiction; subst; vm_compute; split; discriminate.
Qed.

Lemma lframe_ids : 2 * lenN (pts lframe) + 2 <= @idmax env64.
Proof. vm_compute. discriminate. Qed.
Lemma lframe_fuel : (800 >= (2 * length (pts lframe) + 4) * (2 * length (pts lframe) + 4))%nat.
Proof. apply Nat.leb_le. reflexivity. Qed.

Lemma lframe_points :
  zpoint lframe 0 = (4, 4)%Q /\ zpoint lframe 1 = (4, 10)%Q /\ zpoint lframe 2 = (10, 10)%Q /\ zpoint lframe 3 = (10, 4)%Q /\ zpoint lframe 4 = (2, 2)%Q /\ zpoint lframe 5 = (14, 2)%Q /\ zpoint lframe 6 = (14, 14)%Q /\ zpoint lframe 7 = (2, 14)%Q /\ zpoint lframe 8 = (0, 0)%Q /\ zpoint lframe 9 = (16, 0)%Q /\ zpoint lframe 10 = (16, 16)%Q /\ zpoint lframe 11 = (0, 16)%Q.
Proof. repeat split. Qed.

Lemma lframe_corners : Permutation [8; 9; 10; 11] [8; 8 + 1; 8 + 2; 8 + 3] /\
  box_corners (zpoint lframe 8) (zpoint lframe 9) (zpoint lframe 10) (zpoint lframe 11) /\
  forall v, v < 8 -> in_box (zpoint lframe 8) (zpoint lframe 10) (zpoint lframe v).
Proof.
  split; [apply Permutation_refl|]. split; [vm_compute; repeat split; try reflexivity; discriminate|].
  intros v H. assert (K : v = 0 \/ v = 1 \/ v = 2 \/ v = 3 \/ v = 4 \/ v = 5 \/ v = 6 \/ v = 7) by lia.
  destruct lframe_points as (P0 & P1 & P2 & P3 & P4 & P5 & P6 & P7 & P8 & P9 & P10 & P11).
  decompose [or] K; subst v; rewrite ?P0, ?P1, ?P2, ?P3, ?P4, ?P5, ?P6, ?P7, ?P8, ?P9, ?P10, ?P11; unfold in_box; cbn [fst snd]; split; split; lra.
Qed.

Lemma lframe_clear e : In e cs_frame -> efrom e < 12 /\ eto e < 12 /\ clear_between (zpoint lframe) 12 (efrom e) (eto e).
Proof.
  destruct lframe_points as (P0 & P1 & P2 & P3 & P4 & P5 & P6 & P7 & P8 & P9 & P10 & P11).
  intros He. cbn [cs_frame In] in He.
  decompose [or] He; try contradiction; subst e; cbn [efrom eto]; (split; [lia|]; split; [lia|]).
  all: intros v s Hv Hs;
    assert (Hv' : v = 0 \/ v = 1 \/ v = 2 \/ v = 3 \/ v = 4 \/ v = 5 \/ v = 6 \/ v = 7 \/ v = 8 \/ v = 9 \/ v = 10 \/ v = 11) by lia;
    decompose [or] Hv'; subst v; rewrite ?P0, ?P1, ?P2, ?P3, ?P4, ?P5, ?P6, ?P7, ?P8, ?P9, ?P10, ?P11;
    intros (Q1 & Q2); unfold along in Q1, Q2; cbn [fst snd] in Q1, Q2; lra.
Qed.

Lemma lframe_open e : In e cs_frame -> in_open_box (zpoint lframe 8) (zpoint lframe 10) (zpoint lframe (efrom e)) /\
  in_open_box (zpoint lframe 8) (zpoint lframe 10) (zpoint lframe (eto e)).
Proof.
  intros He. cbn [cs_frame In] in He. decompose [or] He; try contradiction; subst e; vm_compute; repeat split; reflexivity.
Qed.

Lemma lpoly_open e : In e cs_poly -> in_open_box (zpoint lpoly 6) (zpoint lpoly 8) (zpoint lpoly (efrom e)) /\
  in_open_box (zpoint lpoly 6) (zpoint lpoly 8) (zpoint lpoly (eto e)).
Proof.
  intros He. cbn [cs_poly In] in He. decompose [or] He; try contradiction; subst e; vm_compute; repeat split; reflexivity.
Qed.

Lemma lframe_loops : simple_loops (zpoint lframe) cs_frame.
Proof.
  destruct lframe_points as (P0 & P1 & P2 & P3 & P4 & P5 & P6 & P7 & P8 & P9 & P10 & P11). constructor.
  - unfold cs_frame. repeat constructor; cbn [In]; intuition discriminate.
  - intros e I (K1 & K2). cbn [cs_frame In] in I. decompose [or] I; try contradiction; subst e; vm_compute in K1, K2; first [discriminate K1|discriminate K2].
  - intros e I. cbn [cs_frame In] in I. decompose [or] I; try contradiction; subst e; let l := eval unfold cs_frame in cs_frame in pick l.
  - intros e I. cbn [cs_frame In] in I. decompose [or] I; try contradiction; subst e; let l := eval unfold cs_frame in cs_frame in pick l.
  - intros e f I J (K1 & K2). cbn [cs_frame In] in I, J. decompose [or] I; try contradiction; subst e; decompose [or] J; try contradiction; subst f;
      first [reflexivity|vm_compute in K1, K2; first [discriminate K1|discriminate K2]].
  - intros e f I J (K1 & K2). cbn [cs_frame In] in I, J. decompose [or] I; try contradiction; subst e; decompose [or] J; try contradiction; subst f;
      first [reflexivity|vm_compute in K1, K2; first [discriminate K1|discriminate K2]].
  - intros e f s r I J S R (K1 & K2). cbn [cs_frame In] in I, J.
    decompose [or] I; try contradiction; subst e; decompose [or] J; try contradiction; subst f; cbn [efrom eto] in K1, K2;
      rewrite ?P0, ?P1, ?P2, ?P3, ?P4, ?P5, ?P6, ?P7, ?P8, ?P9, ?P10, ?P11 in K1, K2; unfold along in K1, K2; cbn [fst snd] in K1, K2; ends_meet.
Qed.

Lemma lframe_tests e : In e cs_frame -> exists f q, same_loop (zpoint lframe) cs_frame e f /\ sees_side (zpoint lframe) cs_frame q f /\
  (orient (zpoint lframe (efrom f)) (zpoint lframe (eto f)) q < 0)%Q /\ winding (zpoint lframe) cs_frame q = 1%Z.
Proof.
  destruct lframe_points as (P0 & P1 & P2 & P3 & P4 & P5 & P6 & P7 & P8 & P9 & P10 & P11).
  assert (N : forall f g, In f cs_frame -> In g cs_frame -> same_place (zpoint lframe (eto f)) (zpoint lframe (efrom g)) ->
    forall e, same_loop (zpoint lframe) cs_frame e f -> same_loop (zpoint lframe) cs_frame e g).
  { intros f g _ J V e' L. exact (loop_next _ _ _ _ _ L J V). }
  pose proof (N (Edge 0 3) (Edge 3 2) ltac:(cbn; tauto) ltac:(cbn; tauto) ltac:(split; reflexivity)) as N1.
  pose proof (N (Edge 3 2) (Edge 2 1) ltac:(cbn; tauto) ltac:(cbn; tauto) ltac:(split; reflexivity)) as N2.
  pose proof (N (Edge 2 1) (Edge 1 0) ltac:(cbn; tauto) ltac:(cbn; tauto) ltac:(split; reflexivity)) as N3.
  pose proof (N (Edge 4 7) (Edge 7 6) ltac:(cbn; tauto) ltac:(cbn; tauto) ltac:(split; reflexivity)) as N4.
  pose proof (N (Edge 7 6) (Edge 6 5) ltac:(cbn; tauto) ltac:(cbn; tauto) ltac:(split; reflexivity)) as N5.
  pose proof (N (Edge 6 5) (Edge 5 4) ltac:(cbn; tauto) ltac:(cbn; tauto) ltac:(split; reflexivity)) as N6.
  pose proof (N (Edge 5 4) (Edge 4 7) ltac:(cbn; tauto) ltac:(cbn; tauto) ltac:(split; reflexivity)) as N7.
  assert (Sh : sees_side (zpoint lframe) cs_frame (3, 7)%Q (Edge 1 0) /\ sees_side (zpoint lframe) cs_frame (3, 7)%Q (Edge 4 7)).
  { split; [exists (1#2)%Q|exists (5#12)%Q]; (split; [split; reflexivity|]); intros t T (e' & s & I & _ & S & K1 & K2); cbn [cs_frame In] in I;
      decompose [or] I; try contradiction; subst e'; cbn [efrom eto] in K1, K2; rewrite ?P0, ?P1, ?P2, ?P3, ?P4, ?P5, ?P6, ?P7, ?P8, ?P9, ?P10, ?P11 in K1, K2;
      unfold along in K1, K2; cbn [fst snd] in K1, K2; lra. }
  destruct Sh as (Sh & So). intros I. cbn [cs_frame In] in I.
  decompose [or] I; try contradiction; subst e;
    first [exists (Edge 1 0), (3, 7)%Q; split; [solve [auto 8 using loop_here]|]; split; [exact Sh|]; split; [reflexivity|vm_compute; reflexivity]
          |exists (Edge 4 7), (3, 7)%Q; split; [solve [auto 8 using loop_here]|]; split; [exact So|]; split; [reflexivity|vm_compute; reflexivity]].
Qed.
