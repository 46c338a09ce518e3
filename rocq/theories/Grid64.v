(** * Grid64: the shipped float types are instances of [Rep]; integer grids.

    f64: integer coordinates up to 2^40, extent 2^k with k <= 12.
    f32: integer coordinates up to 2^13, extent 2^k with k <= 5. *)

From Coq Require Import ZArith NArith List Bool Lia QArith Qabs Qround Lqa SpecFloat.
From Flocq Require Import Core.Core IEEE754.BinarySingleNaN.
From Verif Require Import Base Arith Rep F64 SFRep.
Local Open Scope Z_scope.

Local Instance p53 : Prec_gt_0 53 := eq_refl.
Local Instance e1024 : Prec_lt_emax 53 1024 := eq_refl.
Local Instance p24 : Prec_gt_0 24 := eq_refl.
Local Instance e128 : Prec_lt_emax 24 128 := eq_refl.

Lemma sf_rep prec emax (P : Prec_gt_0 prec) (L : Prec_lt_emax prec emax) maxid pb ep :
  24 <= prec -> 128 <= emax -> 20 <= pb <= 50 -> pb < prec ->
  (0 < ep <= 1 # 16)%Q ->
  repF prec emax (@feps (sf_env prec emax maxid)) ep ->
  (exists d, repF prec emax (@fMAX (sf_env prec emax maxid)) d /\ (big <= d)%Q) ->
  (exists d, repF prec emax (@fMIN (sf_env prec emax maxid)) d /\ (d <= - big)%Q) ->
  @Rep (sf_env prec emax maxid) (repF prec emax) (reprF prec emax) pb ep.
Proof.
  intros Hp He Hpb Hpp Hep Reps RMAX RMIN.
  assert (Pp : 2 ^ pb < 2 ^ prec) by (apply Z.pow_lt_mono_r; lia).
  assert (P10 : 2 ^ (pb - 10) <= 2 ^ pb) by (apply Z.pow_le_mono_r; lia).
  assert (P40 : 2 ^ (pb - 10) <= 2 ^ 40) by (apply Z.pow_le_mono_r; lia).
  constructor; auto.
  - exact (rep_compat prec emax).
  - intros a b H K. unfold reprF in *. now rewrite <- (Qreals.Qeq_eqR _ _ K).
  - exact (rep_add prec emax P L Hp He).
  - exact (rep_sub prec emax P L Hp He).
  - exact (rep_mul prec emax P L Hp He).
  - exact (rep_div prec emax P L Hp He).
  - exact (rep_neg prec emax).
  - exact (rep_abs prec emax).
  - exact (rep_lt prec emax).
  - exact (rep_le prec emax).
  - exact (rep_eq prec emax).
  - exact (rep_max prec emax).
  - exact (rep_min prec emax).
  - exact (rep_0 prec emax).
  - destruct (rep_quot prec emax P L Hp He 142 100 362 366) as (d & D1 & D2 & D3); try lia; try discriminate.
    exists d. split; [exact D1|]. split; [refine (Qle_trans _ _ _ _ D2)|refine (Qle_trans _ _ _ D3 _)]; discriminate.
  - destruct (rep_quot prec emax P L Hp He 99 100 251 254) as (d & D1 & D2 & D3); try lia; try discriminate.
    exists d. split; [exact D1|]. split; [refine (Qle_trans _ _ _ _ D2)|refine (Qle_trans _ _ _ D3 _)]; discriminate.
  - intros n Hn. apply (rep_of_Z prec emax P L Hp He); lia.
  - intros x a A H0 H1. apply (rep_to_N prec emax _ _ A H0). eapply Qle_trans; [exact H1|]. rewrite <- Zle_Qle. lia.
  - intros z Hz. change 128%Q with (inject_Z (2 ^ 7)). apply (repr_frac prec emax Hp He); lia.
  - exact (rep_sub_mono prec emax P L Hp He).
  - exact (rep_gap prec emax Hp).
  - exact (rep_nan prec emax).
Qed.

Definition eps64 : Q := 1 # 4503599627370496.
Definition eps32 : Q := 1 # 8388608.

Lemma f64_rep maxid : @Rep (sf_env 53 1024 maxid) (repF 53 1024) (reprF 53 1024) 50 eps64.
Proof.
  apply (sf_rep 53 1024 p53 e1024); try lia.
  - split; [reflexivity|discriminate].
  - eapply (rep_compat 53 1024); [apply (rep_finite 53 1024); vm_compute; reflexivity|]. reflexivity.
  - eexists. split; [apply (rep_finite 53 1024); vm_compute; reflexivity|]. vm_compute; discriminate.
  - eexists. split; [apply (rep_finite 53 1024); vm_compute; reflexivity|]. vm_compute; discriminate.
Qed.

Lemma f32_rep maxid : @Rep (sf_env 24 128 maxid) (repF 24 128) (reprF 24 128) 23 eps32.
Proof.
  apply (sf_rep 24 128 p24 e128); try lia.
  - split; [reflexivity|discriminate].
  - eapply (rep_compat 24 128); [apply (rep_finite 24 128); vm_compute; reflexivity|]. reflexivity.
  - eexists. split; [apply (rep_finite 24 128); vm_compute; reflexivity|]. vm_compute; discriminate.
  - eexists. split; [apply (rep_finite 24 128); vm_compute; reflexivity|]. vm_compute; discriminate.
Qed.

Section Pow.
Variables prec emax : Z.
Context (P : Prec_gt_0 prec) (L : Prec_lt_emax prec emax).
Hypothesis Hp : 24 <= prec.
Hypothesis He : 128 <= emax.
Variable k : Z.
Hypothesis Hk : 0 <= k <= 15.
Hypothesis Hk4 : 4 * k + 3 < prec.
Hypothesis Hk2 : 2 * k + 6 < prec.

Lemma pow_repr n b q c : 0 <= c -> Z.of_nat b <= 2 ^ c -> Z.of_nat n * k + c < prec -> Z.of_nat n * k <= 60 -> G (2 ^ k) n b q -> reprF prec emax q.
Proof.
  intros Hc Hb Hn Hn' (z & A & B).
  assert (Ep : (2 ^ k) ^ Z.of_nat n = 2 ^ (Z.of_nat n * k)) by (rewrite <- Z.pow_mul_r by lia; f_equal; lia).
  rewrite Ep in A, B.
  assert (P0 : 0 < 2 ^ (Z.of_nat n * k)) by (apply Z.pow_pos_nonneg; lia).
  assert (E0 : (q == inject_Z z / inject_Z (2 ^ (Z.of_nat n * k)))%Q).
  { rewrite <- B. field. intros K. unfold Qeq in K; cbn [Qnum Qden inject_Z] in K; lia. }
  unfold reprF. rewrite (Qreals.Qeq_eqR _ _ E0). apply (repr_frac prec emax Hp He); [lia|].
  apply Z.le_lt_trans with (2 ^ (Z.of_nat n * k + c)); [|apply Z.pow_lt_mono_r; lia].
  rewrite Z.pow_add_r by lia. nia.
Qed.

Lemma pow_repr4 q : G (2 ^ k) 4 8 q -> reprF prec emax q.
Proof. apply (pow_repr 4 8 q 3); try lia. Qed.

Lemma pow_repr2 q : G (2 ^ k) 2 64 (8 * q) -> reprF prec emax q.
Proof.
  intros (z & A & B). change (Z.of_nat 2) with 2 in *. change (Z.of_nat 64) with 64 in A.
  assert (Ep : (2 ^ k) ^ 2 = 2 ^ (2 * k)) by (rewrite <- Z.pow_mul_r by lia; f_equal; lia).
  rewrite Ep in A, B.
  assert (P0 : 0 < 2 ^ (2 * k)) by (apply Z.pow_pos_nonneg; lia).
  assert (E3 : 2 ^ (2 * k + 3) = 8 * 2 ^ (2 * k)) by (rewrite Z.pow_add_r by lia; lia).
  assert (E0 : (q == inject_Z z / inject_Z (2 ^ (2 * k + 3)))%Q).
  { rewrite E3, inject_Z_mult, <- B. change (inject_Z 8) with 8%Q. field. intros K. unfold Qeq in K; cbn [Qnum Qden inject_Z] in K; lia. }
  unfold reprF. rewrite (Qreals.Qeq_eqR _ _ E0). apply (repr_frac prec emax Hp He); [lia|].
  apply Z.le_lt_trans with (2 ^ (2 * k + 6)); [|apply Z.pow_lt_mono_r; lia].
  rewrite Z.pow_add_r by lia. change (2 ^ 6) with 64. lia.
Qed.
End Pow.

Lemma f64_repr4 k q : 0 <= k <= 12 -> G (2 ^ k) 4 8 q -> reprF 53 1024 q.
Proof. intros H. apply (pow_repr4 53 1024); lia. Qed.
Lemma f64_repr2 k q : 0 <= k <= 12 -> G (2 ^ k) 2 64 (8 * q) -> reprF 53 1024 q.
Proof. intros H. apply (pow_repr2 53 1024); lia. Qed.
Lemma f32_repr4 k q : 0 <= k <= 5 -> G (2 ^ k) 4 8 q -> reprF 24 128 q.
Proof. intros H. apply (pow_repr4 24 128); lia. Qed.
Lemma f32_repr2 k q : 0 <= k <= 5 -> G (2 ^ k) 2 64 (8 * q) -> reprF 24 128 q.
Proof. intros H. apply (pow_repr2 24 128); lia. Qed.

Lemma eps_pow n k (ep : Q) : 0 <= 2 * k <= n -> (ep == / inject_Z (2 ^ n))%Q -> (ep <= / inject_Z ((2 ^ k) ^ 2))%Q.
Proof.
  intros H ->. assert (Ep : (2 ^ k) ^ 2 = 2 ^ (2 * k)) by (rewrite <- Z.pow_mul_r by lia; f_equal; lia).
  rewrite Ep. assert (P0 : 0 < 2 ^ (2 * k)) by (apply Z.pow_pos_nonneg; lia).
  assert (L : 2 ^ (2 * k) <= 2 ^ n) by (apply Z.pow_le_mono_r; lia).
  assert (Q0 : (0 < inject_Z (2 ^ (2 * k)))%Q) by (change 0%Q with (inject_Z 0); rewrite <- Zlt_Qlt; auto).
  rewrite Zle_Qle in L. apply Qle_shift_inv_l; auto. rewrite Qmult_comm. apply Qle_shift_div_r; [Lqa.lra|]. Lqa.lra.
Qed.

(** An integer is a binary64 (binary32) number. *)
Lemma f64_int z : Z.abs z <= 2 ^ 40 -> repF 53 1024 (sf_of_Z 53 1024 z) (inject_Z z).
Proof. intros H. apply (rep_of_Z 53 1024 p53 e1024); lia. Qed.
Lemma f32_int z : Z.abs z <= 2 ^ 13 -> repF 24 128 (sf_of_Z 24 128 z) (inject_Z z).
Proof. intros H. apply (rep_of_Z 24 128 p24 e128); lia. Qed.
