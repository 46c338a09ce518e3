(** * Near: arithmetics that round to a nearby number.

    [Near rep rnd u]: every operation returns a number [q] with [rnd e q], where [e] is the
    exact result; [rnd] is monotone and odd, keeps representable numbers, and moves a number
    of size at most B >= 1 by at most u * B.  Differences have relative error [u].  The exact
    rationals, IEEE binary64 (u = 2^-53) and binary32 (u = 2^-24) are instances. *)

From Coq Require Import ZArith NArith List Bool Lia QArith Qabs Lqa Qreals Reals Lra SpecFloat.
From Flocq Require Import Core.Core Plus_error Relative IEEE754.BinarySingleNaN.
From Verif Require Import Base Arith Rep F64 SFRep Grid64 QEnv QExact.
Local Open Scope Q_scope.

Record Near {E : Env} (rep : F -> Q -> Prop) (rnd : Q -> Q -> Prop) (u : Q) : Prop := {
  nr_u : 0 < u <= 1 # 16777216;
  nr_add : forall x y a b, rep x a -> rep y b -> Qabs (a + b) <= big ->
    exists q, rep (fadd x y) q /\ rnd (a + b) q;
  nr_sub : forall x y a b, rep x a -> rep y b -> Qabs (a - b) <= big ->
    exists q, rep (fsub x y) q /\ rnd (a - b) q /\ Qabs (q - (a - b)) <= u * Qabs (a - b);
  nr_mul : forall x y a b, rep x a -> rep y b -> Qabs (a * b) <= big ->
    exists q, rep (fmul x y) q /\ rnd (a * b) q;
  nr_div : forall x y a b, rep x a -> rep y b -> 0 < b -> Qabs (a / b) <= big ->
    exists q, rep (fdiv x y) q /\ rnd (a / b) q;
  nr_mono : forall e e' q q', e <= e' -> rnd e q -> rnd e' q' -> q <= q';
  nr_opp : forall e q, rnd e q -> rnd (- e) (- q);
  nr_fix : forall x a, rep x a -> rnd a a;
  nr_err : forall e q B, rnd e q -> 1 <= B -> Qabs e <= B -> Qabs (q - e) <= u * B
}.

Section SF.
Variables prec emax : Z.
Context (P : Prec_gt_0 prec) (L : Prec_lt_emax prec emax).
Hypothesis Hp : (24 <= prec)%Z.
Hypothesis He : (128 <= emax)%Z.
Variable maxid : N.
Notation fexp := (fexp prec emax).
Notation emin := (emin prec emax).
Notation rnd := (round radix2 fexp (round_mode mode_NE)).
Local Instance fexp_ok' : Valid_exp fexp := fexp_correct prec emax P.

Definition rndF (e q : Q) : Prop := Q2R q = rnd (Q2R e).

Lemma op_rnd (b : binary_float prec emax) e : BinarySingleNaN.is_finite b = true -> B2R b = rnd (Q2R e) ->
  exists q, repF prec emax (B2SF b) q /\ rndF e q.
Proof.
  intros F H. destruct (fin_rep prec emax b F) as (q & Hq & Eq). exists q. split; auto. unfold rndF. congruence.
Qed.

Definition u_of : Q := dyadic 1 (- prec).

Lemma u_R : Q2R u_of = u_ro radix2 prec.
Proof.
  unfold u_of. rewrite dyadic_R. unfold F2R, u_ro; cbn [Fnum Fexp].
  replace (- prec + 1)%Z with (1 + - prec)%Z by lia. rewrite bpow_plus. change (bpow radix2 1) with 2%R. Lra.lra.
Qed.

Lemma near_add x y a b : repF prec emax x a -> repF prec emax y b -> Qabs (a + b) <= big ->
  exists q, repF prec emax (SFadd prec emax x y) q /\ rndF (a + b) q.
Proof.
  intros (bx & <- & Fx & Rx) (by_ & <- & Fy & Ry) H. rewrite (add_equiv prec emax P L).
  pose proof (Bplus_correct prec emax P L mode_NE bx by_ Fx Fy) as C.
  apply abs_big_R in H. rewrite Q2R_plus in H. rewrite Rx, Ry in C. rewrite (no_overflow prec emax P Hp He _ H) in C.
  destruct C as (C1 & C2 & _). apply op_rnd; auto. now rewrite Q2R_plus.
Qed.

Lemma u_pos : (0 < u_ro radix2 prec)%R.
Proof. unfold u_ro. pose proof (bpow_gt_0 radix2 (- prec + 1)). Lra.lra. Qed.

Lemma u_frac : (u_ro radix2 prec / (1 + u_ro radix2 prec) <= u_ro radix2 prec)%R.
Proof.
  pose proof u_pos. apply Rmult_le_reg_r with (1 + u_ro radix2 prec)%R; [Lra.lra|].
  unfold Rdiv. rewrite Rmult_assoc, Rinv_l by Lra.lra. nra.
Qed.

Lemma near_sub x y a b : repF prec emax x a -> repF prec emax y b -> Qabs (a - b) <= big ->
  exists q, repF prec emax (SFsub prec emax x y) q /\ rndF (a - b) q /\ Qabs (q - (a - b)) <= u_of * Qabs (a - b).
Proof.
  intros A B H. destruct (sub_val prec emax P L Hp He _ _ _ _ A B H) as (d & <- & F & V).
  destruct (op_rnd d (a - b) F V) as (q & Hq & Rq). exists q. split; auto. split; auto.
  destruct A as (bx & _ & _ & Rx), B as (by_ & _ & _ & Ry).
  destruct (FLT_plus_error_N_ex radix2 emin prec (fun z => negb (Z.even z)) (Q2R a) (- Q2R b)) as (eps & E1 & E2).
  { rewrite <- Rx. apply generic_format_B2R. }
  { apply generic_format_opp. rewrite <- Ry. apply generic_format_B2R. }
  unfold rndF in Rq. apply Rle_Qle. rewrite Q2R_mult, !abs_Q2R, u_R.
  assert (K : Q2R q = ((Q2R a + - Q2R b) * (1 + eps))%R).
  { rewrite Rq, Q2R_minus. exact E2. }
  assert (K2 : Q2R (q - (a - b)) = (eps * Q2R (a - b))%R) by (rewrite !Q2R_minus, K; ring).
  rewrite K2, Rabs_mult. apply Rmult_le_compat_r; [apply Rabs_pos|]. eapply Rle_trans; [exact E1|]. exact u_frac.
Qed.

Lemma near_mul x y a b : repF prec emax x a -> repF prec emax y b -> Qabs (a * b) <= big ->
  exists q, repF prec emax (SFmul prec emax x y) q /\ rndF (a * b) q.
Proof.
  intros (bx & <- & Fx & Rx) (by_ & <- & Fy & Ry) H. rewrite (mul_equiv prec emax P L).
  pose proof (Bmult_correct prec emax P L mode_NE bx by_) as C.
  apply abs_big_R in H. rewrite Q2R_mult in H. rewrite Rx, Ry in C. rewrite (no_overflow prec emax P Hp He _ H) in C.
  destruct C as (C1 & C2 & _). rewrite Fx, Fy in C2. apply op_rnd; auto. now rewrite Q2R_mult.
Qed.

Lemma near_div x y a b : repF prec emax x a -> repF prec emax y b -> 0 < b -> Qabs (a / b) <= big ->
  exists q, repF prec emax (SFdiv prec emax x y) q /\ rndF (a / b) q.
Proof.
  intros (bx & <- & Fx & Rx) (by_ & <- & Fy & Ry) Pb H. rewrite (div_equiv prec emax P L).
  assert (Nz : ~ b == 0) by Lqa.lra.
  assert (Nr : B2R by_ <> 0%R).
  { rewrite Ry. apply Qlt_Rlt in Pb. rewrite RMicromega.Q2R_0 in Pb. Lra.lra. }
  pose proof (Bdiv_correct prec emax P L mode_NE bx by_ Nr) as C.
  apply abs_big_R in H. rewrite Q2R_div in H by auto. rewrite Rx, Ry in C. rewrite (no_overflow prec emax P Hp He _ H) in C.
  destruct C as (C1 & C2 & _). rewrite Fx in C2. apply op_rnd; auto. now rewrite Q2R_div.
Qed.

Lemma near_err e q B : rndF e q -> 1 <= B -> Qabs e <= B -> Qabs (q - e) <= u_of * B.
Proof.
  intros H B1 Be. unfold rndF in H.
  destruct (error_N_FLT radix2 emin prec ltac:(lia) (fun z => negb (Z.even z)) (Q2R e)) as (eps & eta & E1 & E2 & E3 & E4).
  apply Rle_Qle. rewrite Q2R_mult, abs_Q2R, u_R. apply Qle_Rle in B1, Be. rewrite RMicromega.Q2R_1 in B1. rewrite abs_Q2R in Be.
  assert (K : Q2R q = (Q2R e * (1 + eps) + eta)%R) by (rewrite H; exact E4).
  assert (K2 : Q2R (q - e) = (Q2R e * eps + eta)%R) by (rewrite Q2R_minus, K; ring). rewrite K2.
  pose proof u_pos as Up. fold (u_ro radix2 prec) in E1.
  apply Rmult_integral in E3. destruct E3 as [-> | ->].
  - rewrite Rmult_0_r, Rplus_0_l. eapply Rle_trans; [exact E2|]. apply Rle_trans with (u_ro radix2 prec * 1)%R.
    + unfold u_ro. rewrite Rmult_1_r. apply Rmult_le_compat_l; [Lra.lra|]. apply bpow_le. unfold SpecFloat.emin. 
      assert (prec < emax)%Z by exact L. lia.
    + apply Rmult_le_compat_l; Lra.lra.
  - rewrite Rplus_0_r, Rabs_mult, Rmult_comm. apply Rmult_le_compat; auto using Rabs_pos.
Qed.

Lemma sf_near : @Near (sf_env prec emax maxid) (repF prec emax) rndF u_of.
Proof.
  constructor.
  - split.
    + apply Rlt_Qlt. rewrite u_R, RMicromega.Q2R_0. exact u_pos.
    + apply Rle_Qle. rewrite u_R. unfold u_ro.
      apply Rle_trans with (/ 2 * bpow radix2 (- 23))%R.
      * apply Rmult_le_compat_l; [Lra.lra|]. apply bpow_le. lia.
      * unfold Q2R. simpl. Lra.lra.
  - exact near_add.
  - exact near_sub.
  - exact near_mul.
  - exact near_div.
  - intros e e' q q' H A B. apply Rle_Qle. rewrite A, B. apply round_le; auto with typeclass_instances. now apply Qle_Rle.
  - intros e q H. unfold rndF in *. rewrite !Q2R_opp. rewrite (round_NE_opp radix2 fexp). now rewrite H.
  - intros x a (b & _ & _ & Rb). unfold rndF. symmetry. apply round_generic; auto with typeclass_instances. rewrite <- Rb. apply generic_format_B2R.
  - exact near_err.
Qed.
End SF.

Local Instance p53' : Prec_gt_0 53 := eq_refl.
Local Instance e1024' : Prec_lt_emax 53 1024 := eq_refl.
Local Instance p24' : Prec_gt_0 24 := eq_refl.
Local Instance e128' : Prec_lt_emax 24 128 := eq_refl.

Lemma f64_near maxid : @Near (sf_env 53 1024 maxid) (repF 53 1024) (rndF 53 1024) (1 # 9007199254740992).
Proof. apply (sf_near 53 1024); try easy; lia. Qed.

Lemma f32_near maxid : @Near (sf_env 24 128 maxid) (repF 24 128) (rndF 24 128) (1 # 16777216).
Proof. apply (sf_near 24 128); try easy; lia. Qed.

Lemma Q_near maxid : @Near (envQ maxid) Qeq Qeq (1 # 9007199254740992).
Proof.
  constructor; cbn [F fadd fsub fmul fdiv envQ].
  - split; [reflexivity|discriminate].
  - intros x y a b A B _. eexists. split; [reflexivity|]. rewrite Qred_correct, A, B. reflexivity.
  - intros x y a b A B _. eexists. split; [reflexivity|]. rewrite Qred_correct, A, B. split; [reflexivity|].
    setoid_replace (a - b - (a - b)) with 0 by ring. change (Qabs 0) with 0. apply Qmult_le_0_compat; [discriminate|apply Qabs_nonneg].
  - intros x y a b A B _. eexists. split; [reflexivity|]. rewrite Qred_correct, A, B. reflexivity.
  - intros x y a b A B _ _. eexists. split; [reflexivity|]. rewrite Qred_correct, A, B. reflexivity.
  - intros e e' q q' H A B. Lqa.lra.
  - intros e q H. now rewrite H.
  - reflexivity.
  - intros e q B H B1 _. rewrite H. setoid_replace (q - q) with 0 by ring. change (Qabs 0) with 0.
    apply Qmult_le_0_compat; [discriminate|Lqa.lra].
Qed.
