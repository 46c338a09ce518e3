(** * Round3d: the plane coordinates of 3d input in f64 and f32 are near the exact ones. *)

From Coq Require Import ZArith NArith List Bool Lia QArith Qabs Qreals Lqa Reals Lra SpecFloat.
From Flocq Require Import Core.Core Relative IEEE754.BinarySingleNaN.
From Verif Require Import Base Arith Rep F64 SFRep Grid64 GridNum Spec GridSpec Space3d Spec3d Space3dFacts SpecRound3d.
Import ListNotations.
Local Open Scope R_scope.

Section SF.
Variables prec emax : Z.
Context (P : Prec_gt_0 prec) (L : Prec_lt_emax prec emax).
Hypothesis Hp : (24 <= prec <= 53)%Z.
Hypothesis He : (128 <= emax)%Z.
Notation fexp := (fexp prec emax).
Notation emin := (emin prec emax).
Notation rnd := (round radix2 fexp (round_mode mode_NE)).
Notation bf := (binary_float prec emax).
Local Instance fexp_ok3 : Valid_exp fexp := fexp_correct prec emax P.
Notation u := (roundoff prec).
Notation eta := (/ IZR (2 ^ 149)).

Lemma u_eq : u = u_ro radix2 prec.
Proof.
  unfold roundoff, u_ro. rewrite bpow_plus. change (bpow radix2 1) with 2. rewrite bpow_opp.
  rewrite <- (IZR_Zpower radix2) by lia. change (radix_val radix2) with 2%Z.
  assert (IZR (2 ^ prec) <> 0) by (apply IZR_neq; assert (0 < 2 ^ prec)%Z by (apply Z.pow_pos_nonneg; lia); lia). field. auto.
Qed.

Lemma u_pos3 : 0 < u.
Proof. unfold roundoff. apply Rinv_0_lt_compat, IZR_lt. apply Z.pow_pos_nonneg; lia. Qed.

Lemma u_small : u <= / 16777216.
Proof.
  unfold roundoff. apply Rinv_le; [lra|]. apply IZR_le. change 16777216%Z with (2 ^ 24)%Z. apply Z.pow_le_mono_r; lia.
Qed.

Lemma u_big : / IZR (2 ^ 53) <= u.
Proof.
  unfold roundoff. apply Rinv_le; [apply IZR_lt; apply Z.pow_pos_nonneg; lia|]. apply IZR_le. apply Z.pow_le_mono_r; lia.
Qed.

Lemma rnd_err x X : Rabs x <= X -> Rabs (rnd x - x) <= u * X + eta.
Proof.
  intros H.
  destruct (error_N_FLT radix2 emin prec ltac:(lia) (fun z => negb (Z.even z)) x) as (eps & et & E1 & E2 & E3 & E4).
  change (rnd x) with (round radix2 (FLT_exp emin prec) (Znearest (fun z => negb (Z.even z))) x). rewrite E4.
  replace (x * (1 + eps) + et - x) with (x * eps + et) by ring.
  eapply Rle_trans; [apply Rabs_triang|]. apply Rplus_le_compat.
  - rewrite Rabs_mult, Rmult_comm. apply Rmult_le_compat; auto using Rabs_pos. rewrite u_eq. exact E1.
  - eapply Rle_trans; [exact E2|].
    change (/ IZR (2 ^ 149)) with (bpow radix2 (-149)).
    pose proof (bpow_gt_0 radix2 emin).
    apply Rle_trans with (bpow radix2 emin); [lra|]. apply bpow_le. unfold SpecFloat.emin. lia.
Qed.

Definition repR (x : spec_float) (r : R) : Prop := exists b : bf, B2SF b = x /\ BinarySingleNaN.is_finite b = true /\ B2R b = r.

Notation lim := (bpow radix2 100).

Lemma no_overflow_R (x : R) : Rabs x <= lim -> Rlt_bool (Rabs (rnd x)) (bpow radix2 emax) = true.
Proof.
  intros H. apply Rlt_bool_true. apply Rle_lt_trans with lim.
  - apply abs_round_le_generic; auto with typeclass_instances.
    replace lim with (F2R (Float radix2 1 100)) by (unfold F2R; simpl Fnum; simpl Fexp; lra).
    apply repr_dyadic; [pose proof (prec_pow prec ltac:(lia)); lia|unfold SpecFloat.emin; lia].
  - apply bpow_lt. lia.
Qed.

Lemma op_add x y a b : repR x a -> repR y b -> Rabs (a + b) <= lim -> repR (SFadd prec emax x y) (rnd (a + b)).
Proof.
  intros (bx & <- & Fx & Rx) (by_ & <- & Fy & Ry) H. rewrite (add_equiv prec emax P L).
  pose proof (Bplus_correct prec emax P L mode_NE bx by_ Fx Fy) as C. rewrite Rx, Ry in C.
  rewrite (no_overflow_R _ H) in C. destruct C as (C1 & C2 & _). eexists. split; [reflexivity|]. auto.
Qed.

Lemma op_sub x y a b : repR x a -> repR y b -> Rabs (a - b) <= lim -> repR (SFsub prec emax x y) (rnd (a - b)).
Proof.
  intros (bx & <- & Fx & Rx) (by_ & <- & Fy & Ry) H. rewrite (sub_equiv prec emax P L).
  pose proof (Bminus_correct prec emax P L mode_NE bx by_ Fx Fy) as C. rewrite Rx, Ry in C.
  rewrite (no_overflow_R _ H) in C. destruct C as (C1 & C2 & _). eexists. split; [reflexivity|]. auto.
Qed.

Lemma op_mul x y a b : repR x a -> repR y b -> Rabs (a * b) <= lim -> repR (SFmul prec emax x y) (rnd (a * b)).
Proof.
  intros (bx & <- & Fx & Rx) (by_ & <- & Fy & Ry) H. rewrite (mul_equiv prec emax P L).
  pose proof (Bmult_correct prec emax P L mode_NE bx by_) as C. rewrite Rx, Ry in C.
  rewrite (no_overflow_R _ H) in C. destruct C as (C1 & C2 & _). rewrite Fx, Fy in C2.
  eexists. split; [reflexivity|]. auto.
Qed.

Lemma op_div x y a b : repR x a -> repR y b -> b <> 0 -> Rabs (a / b) <= lim -> repR (SFdiv prec emax x y) (rnd (a / b)).
Proof.
  intros (bx & <- & Fx & Rx) (by_ & <- & Fy & Ry) Nb H. rewrite (div_equiv prec emax P L).
  pose proof (Bdiv_correct prec emax P L mode_NE bx by_ ltac:(congruence)) as C. rewrite Rx, Ry in C.
  rewrite (no_overflow_R _ H) in C. destruct C as (C1 & C2 & _). rewrite Fx in C2.
  eexists. split; [reflexivity|]. auto.
Qed.

Lemma op_neg x a : repR x a -> repR (SFopp x) (- a).
Proof. intros (b & <- & F & V). exists (Bopp b). split; [now destruct b|]. rewrite is_finite_Bopp, B2R_Bopp, V. auto. Qed.

Lemma op_sqrt x a : repR x a -> 0 <= a -> repR (SFsqrt prec emax x) (rnd (sqrt a)).
Proof.
  intros (f & <- & Ff & Rf) Ha. exists (Bsqrt mode_NE f). rewrite (sqrt_equiv prec emax P L). split; [reflexivity|].
  destruct (Bsqrt_correct prec emax P L mode_NE f) as (R1 & R2 & _). rewrite Rf in R1. split; [|exact R1].
  rewrite R2. destruct f as [s|s| |s m e Hb]; try reflexivity; try discriminate Ff. destruct s; [exfalso|reflexivity].
  simpl in Rf. assert (F2R (Float radix2 (Z.neg m) e) < 0) by (apply F2R_lt_0; simpl; lia). simpl in *. lra.
Qed.

(** Relative error of a difference. *)
Lemma sub_err x y a b : repR x a -> repR y b -> Rabs (rnd (a - b) - (a - b)) <= u * Rabs (a - b).
Proof.
  intros (bx & _ & _ & Rx) (by_ & _ & _ & Ry).
  destruct (Plus_error.FLT_plus_error_N_ex radix2 emin prec (fun z => negb (Z.even z)) a (- b)) as (eps & E1 & E2).
  { rewrite <- Rx. apply generic_format_B2R. }
  { apply generic_format_opp. rewrite <- Ry. apply generic_format_B2R. }
  change (rnd (a - b)) with (round radix2 (FLT_exp emin prec) (Znearest (fun z => negb (Z.even z))) (a + - b)). rewrite E2.
  replace ((a + - b) * (1 + eps) - (a - b)) with (eps * (a - b)) by ring. rewrite Rabs_mult.
  apply Rmult_le_compat_r; [apply Rabs_pos|]. eapply Rle_trans; [exact E1|]. rewrite u_eq.
  pose proof u_pos3 as U. rewrite u_eq in U. apply Rmult_le_reg_r with (1 + u_ro radix2 prec); [lra|].
  unfold Rdiv. rewrite Rmult_assoc, Rinv_l by lra. nra.
Qed.

(** ** Values near exact ones *)
(** The float [x] is a number at most [e] away from [r], which is at most [X] in size. *)
Definition rn (x : spec_float) (e r X : R) : Prop := exists r', repR x r' /\ Rabs (r' - r) <= e /\ Rabs r <= X.

Lemma rn_weaken x e e' r X : rn x e r X -> e <= e' -> rn x e' r X.
Proof. intros (r' & A & B & C) H. exists r'. repeat split; auto. lra. Qed.

Lemma rn_size x e r X : rn x e r X -> 0 <= e /\ 0 <= X.
Proof. intros (r' & A & B & C). pose proof (Rabs_pos (r' - r)). pose proof (Rabs_pos r). lra. Qed.

Lemma abs_near r' r e X : Rabs (r' - r) <= e -> Rabs r <= X -> Rabs r' <= X + e.
Proof. intros A B. replace r' with (r' - r + r) by ring. eapply Rle_trans; [apply Rabs_triang|]. lra. Qed.

Lemma rn_round x r0 r e X B : repR x (rnd r0) -> Rabs (r0 - r) <= e -> Rabs r <= X -> Rabs r0 <= B -> rn x (e + u * B + eta) r X.
Proof.
  intros H A C D. exists (rnd r0). split; auto. split; auto. pose proof (rnd_err r0 B D).
  replace (rnd r0 - r) with ((rnd r0 - r0) + (r0 - r)) by ring. eapply Rle_trans; [apply Rabs_triang|]. lra.
Qed.

Lemma rn_add x y e f r s X Y : rn x e r X -> rn y f s Y -> X + e + (Y + f) <= lim ->
  rn (SFadd prec emax x y) (e + f + u * (X + e + (Y + f)) + eta) (r + s) (X + Y).
Proof.
  intros (r' & A & B & C) (s' & A' & B' & C') H.
  pose proof (abs_near _ _ _ _ B C). pose proof (abs_near _ _ _ _ B' C').
  assert (K : Rabs (r' + s') <= X + e + (Y + f)) by (eapply Rle_trans; [apply Rabs_triang|]; lra).
  apply (rn_round _ (r' + s')); auto.
  - apply op_add; auto. lra.
  - replace (r' + s' - (r + s)) with ((r' - r) + (s' - s)) by ring. eapply Rle_trans; [apply Rabs_triang|]. lra.
  - eapply Rle_trans; [apply Rabs_triang|]. lra.
Qed.

Lemma rn_sub x y e f r s X Y : rn x e r X -> rn y f s Y -> X + e + (Y + f) <= lim ->
  rn (SFsub prec emax x y) (e + f + u * (X + e + (Y + f)) + eta) (r - s) (X + Y).
Proof.
  intros (r' & A & B & C) (s' & A' & B' & C') H.
  pose proof (abs_near _ _ _ _ B C). pose proof (abs_near _ _ _ _ B' C').
  assert (K : Rabs (r' - s') <= X + e + (Y + f)).
  { unfold Rminus. eapply Rle_trans; [apply Rabs_triang|]. rewrite Rabs_Ropp. lra. }
  apply (rn_round _ (r' - s')); auto.
  - apply op_sub; auto. lra.
  - replace (r' - s' - (r - s)) with ((r' - r) + - (s' - s)) by ring. eapply Rle_trans; [apply Rabs_triang|]. rewrite Rabs_Ropp. lra.
  - unfold Rminus. eapply Rle_trans; [apply Rabs_triang|]. rewrite Rabs_Ropp. lra.
Qed.

Lemma rn_scale x y a A e r X : repR x a -> Rabs a <= A -> rn y e r X -> A * (X + e) <= lim ->
  rn (SFmul prec emax x y) (A * e + u * (A * (X + e)) + eta) (a * r) (A * X) /\
  rn (SFmul prec emax y x) (A * e + u * (A * (X + e)) + eta) (r * a) (A * X).
Proof.
  intros Hx Ha (r' & B & C & D) H. pose proof (abs_near _ _ _ _ C D) as K. pose proof (Rabs_pos a). pose proof (Rabs_pos r).
  pose proof (Rabs_pos r'). pose proof (Rabs_pos (r' - r)).
  assert (K1 : Rabs (a * r') <= A * (X + e)) by (rewrite Rabs_mult; apply Rmult_le_compat; auto).
  assert (K2 : Rabs (a * r' - a * r) <= A * e).
  { replace (a * r' - a * r) with (a * (r' - r)) by ring. rewrite Rabs_mult; apply Rmult_le_compat; auto. }
  assert (K3 : Rabs (a * r) <= A * X) by (rewrite Rabs_mult; apply Rmult_le_compat; auto).
  split; [|rewrite (Rmult_comm r a)]; apply (rn_round _ (a * r')); auto.
  - apply op_mul; auto. lra.
  - rewrite (Rmult_comm a r'). apply op_mul; auto. rewrite Rmult_comm. lra.
Qed.

(** ** The first basis vector *)
Lemma lim_val : lim = 1267650600228229401496703205376.
Proof. change lim with (IZR (2 ^ 100)). reflexivity. Qed.

Lemma eta_pos : 0 < eta.
Proof. apply Rinv_0_lt_compat, IZR_lt. reflexivity. Qed.

Lemma eta_u c : / IZR (2 ^ 90) <= c -> 64 * eta <= u * c.
Proof.
  intros H. apply Rle_trans with (/ IZR (2 ^ 53) * / IZR (2 ^ 90)).
  - rewrite <- Rinv_mult. rewrite <- mult_IZR.
    change (2 ^ 149)%Z with (64 * (2 ^ 53 * 2 ^ 90))%Z. rewrite (mult_IZR 64).
    rewrite Rinv_mult. rewrite <- Rmult_assoc, Rinv_r by lra. lra.
  - apply Rmult_le_compat; auto using u_big; left; apply Rinv_0_lt_compat, IZR_lt; reflexivity.
Qed.

Lemma square_err d d' : Rabs (d' - d) <= u * Rabs d -> Rabs (d' * d' - d * d) <= 3 * u * (d * d).
Proof.
  intros H. pose proof u_pos3 as U. pose proof u_small as U'.
  replace (d' * d' - d * d) with ((d' - d) * ((d' - d) + 2 * d)) by ring.
  replace (d * d) with (Rabs d * Rabs d) by (rewrite <- Rabs_mult; apply Rabs_pos_eq; nra).
  rewrite Rabs_mult. pose proof (Rabs_pos d). pose proof (Rabs_pos (d' - d)).
  assert (K : Rabs (d' - d + 2 * d) <= 3 * Rabs d).
  { eapply Rle_trans; [apply Rabs_triang|]. rewrite (Rabs_mult 2), (Rabs_pos_eq 2) by lra. nra. }
  apply Rle_trans with ((u * Rabs d) * (3 * Rabs d)); [|lra]. apply Rmult_le_compat; auto using Rabs_pos.
Qed.

Lemma rn_square x d d' : repR x d' -> Rabs (d' - d) <= u * Rabs d -> d * d <= IZR (2 ^ 58) ->
  rn (SFmul prec emax x x) (5 * u * (d * d) + eta) (d * d) (d * d).
Proof.
  intros Hx H B. pose proof (square_err d d' H) as K. pose proof u_pos3 as U. pose proof u_small as U'.
  assert (Q0 : 0 <= d * d) by nra. assert (A : Rabs (d * d) = d * d) by now apply Rabs_pos_eq.
  assert (K' : Rabs (d' * d') <= 2 * (d * d)).
  { eapply Rle_trans; [apply (abs_near _ _ _ (d * d) K); lra|]. nra. }
  eapply rn_weaken.
  - apply (rn_round _ (d' * d') (d * d) (3 * u * (d * d)) (d * d) (2 * (d * d))); auto; try lra.
    apply op_mul; auto. rewrite lim_val. change (IZR (2 ^ 58)) with 288230376151711744 in B. lra.
  - lra.
Qed.

(** A vector [d] of which the floats [v] are components with relative error [u]. *)
Section Norm.
Variables x y z : spec_float.
Variables a b c a' b' c' : R.
Hypotheses (Hx : repR x a') (Hy : repR y b') (Hz : repR z c').
Hypotheses (Ea : Rabs (a' - a) <= u * Rabs a) (Eb : Rabs (b' - b) <= u * Rabs b) (Ec : Rabs (c' - c) <= u * Rabs c).
Notation D := (a * a + b * b + c * c).
Hypothesis D1 : / IZR (2 ^ 80) <= D.
Hypothesis D2 : D <= IZR (2 ^ 58).

Lemma D_u : 64 * eta <= u * D.
Proof. apply eta_u. eapply Rle_trans; [|exact D1]. apply Rinv_le; [apply IZR_lt; reflexivity|]. apply IZR_le. discriminate. Qed.

Lemma D_pos : 0 < D.
Proof. eapply Rlt_le_trans; [|exact D1]. apply Rinv_0_lt_compat, IZR_lt. reflexivity. Qed.

Lemma norm_dot : rn (SFadd prec emax (SFadd prec emax (SFmul prec emax x x) (SFmul prec emax y y)) (SFmul prec emax z z)) (10 * u * D) D D.
Proof.
  pose proof u_pos3 as U. pose proof u_small as U'. pose proof eta_pos as T. pose proof D_u as Du.
  assert (A0 : 0 <= a * a) by nra. assert (B0 : 0 <= b * b) by nra. assert (C0 : 0 <= c * c) by nra.
  pose proof D2 as D2'. change (IZR (2 ^ 58)) with 288230376151711744 in D2'.
  pose proof (rn_square x a a' Hx Ea ltac:(change (IZR (2 ^ 58)) with 288230376151711744; lra)) as Sa.
  pose proof (rn_square y b b' Hy Eb ltac:(change (IZR (2 ^ 58)) with 288230376151711744; lra)) as Sb.
  pose proof (rn_square z c c' Hz Ec ltac:(change (IZR (2 ^ 58)) with 288230376151711744; lra)) as Sc.
  set (A := a * a) in *. set (B := b * b) in *. set (C := c * c) in *.
  assert (UA : u * A <= / 16777216 * A) by (apply Rmult_le_compat_r; lra).
  assert (UB : u * B <= / 16777216 * B) by (apply Rmult_le_compat_r; lra).
  assert (UC : u * C <= / 16777216 * C) by (apply Rmult_le_compat_r; lra).
  assert (eta <= 1) by (rewrite <- Rinv_1; apply Rinv_le; [lra|]; apply IZR_le; discriminate).
  assert (UT : u * eta <= eta * / 16777216) by (rewrite Rmult_comm; apply Rmult_le_compat_l; lra).
  assert (UA0 : 0 <= u * A) by (apply Rmult_le_pos; lra). assert (UB0 : 0 <= u * B) by (apply Rmult_le_pos; lra).
  assert (UC0 : 0 <= u * C) by (apply Rmult_le_pos; lra).
  assert (UU : forall q, 0 <= q -> u * (u * q) <= / 16777216 * (u * q)) by (intros q Hq; apply Rmult_le_compat_r; [apply Rmult_le_pos|]; lra).
  pose proof (UU A A0). pose proof (UU B B0). pose proof (UU C C0).
  pose proof (rn_add _ _ _ _ _ _ _ _ Sa Sb ltac:(rewrite lim_val; lra)) as S1.
  apply (rn_weaken _ _ (7 * u * (A + B) + 4 * eta)) in S1; [|lra].
  pose proof (rn_add _ _ _ _ _ _ _ _ S1 Sc ltac:(rewrite lim_val; lra)) as S2.
  eapply rn_weaken; [exact S2|]. lra.
Qed.

Notation r := (sqrt D).
Lemma r_pos : 0 < r.
Proof. apply sqrt_lt_R0. exact D_pos. Qed.

Lemma r_sq : r * r = D.
Proof. apply sqrt_sqrt. left. exact D_pos. Qed.

Lemma r_low : / IZR (2 ^ 40) <= r.
Proof.
  rewrite <- (sqrt_square (/ IZR (2 ^ 40))) by (left; apply Rinv_0_lt_compat, IZR_lt; reflexivity).
  apply sqrt_le_1_alt. rewrite <- Rinv_mult, <- mult_IZR. exact D1.
Qed.

Lemma r_high : r <= IZR (2 ^ 29).
Proof.
  rewrite <- (sqrt_square (IZR (2 ^ 29))) by (apply IZR_le; discriminate). apply sqrt_le_1_alt. rewrite <- mult_IZR. exact D2.
Qed.

Lemma norm_sqrt : rn (SFsqrt prec emax (SFadd prec emax (SFadd prec emax (SFmul prec emax x x) (SFmul prec emax y y)) (SFmul prec emax z z)))
  (13 * u * r) r r.
Proof.
  pose proof u_pos3 as U. pose proof u_small as U'. pose proof D_pos as Dp. pose proof r_pos as Rp. pose proof r_sq as Rs.
  destruct norm_dot as (D' & HD & ED & _).
  assert (UD : u * D <= / 16777216 * D) by (apply Rmult_le_compat_r; lra).
  apply Rabs_le_inv in ED. assert (D'p : 0 < D') by lra.
  assert (K : Rabs (sqrt D' - r) <= 10 * u * r).
  { pose proof (sqrt_lt_R0 _ D'p) as Rp'. pose proof (sqrt_sqrt D' ltac:(lra)) as Rs'.
    apply Rmult_le_reg_r with r; auto.
    apply Rle_trans with (Rabs (sqrt D' - r) * (sqrt D' + r)).
    - apply Rmult_le_compat_l; [apply Rabs_pos|lra].
    - rewrite <- (Rabs_pos_eq (sqrt D' + r)) by lra. rewrite <- Rabs_mult.
      replace ((sqrt D' - r) * (sqrt D' + r)) with (sqrt D' * sqrt D' - r * r) by ring. rewrite Rs', Rs.
      replace (10 * u * r * r) with (10 * u * (r * r)) by ring. rewrite Rs. apply Rabs_le. lra. }
  assert (Ur : u * r <= / 16777216 * r) by (apply Rmult_le_compat_r; lra).
  assert (Er : 64 * eta <= u * r).
  { apply eta_u. eapply Rle_trans; [|exact r_low]. apply Rinv_le; [apply IZR_lt; reflexivity|]. apply IZR_le. discriminate. }
  pose proof eta_pos.
  assert (Ar : Rabs r <= r) by (rewrite Rabs_pos_eq; lra).
  eapply rn_weaken.
  - apply (rn_round _ (sqrt D') r (10 * u * r) r (2 * r)); auto.
    + apply op_sqrt; auto. now apply Rlt_le.
    + eapply Rle_trans; [apply (abs_near _ _ _ r K Ar)|]. lra.
  - lra.
Qed.

Variable one : spec_float.
Hypothesis H1 : repR one 1.

Notation inv_ := (SFdiv prec emax one
  (SFsqrt prec emax (SFadd prec emax (SFadd prec emax (SFmul prec emax x x) (SFmul prec emax y y)) (SFmul prec emax z z)))).

Lemma norm_inv : rn inv_ (17 * u * (1 / r)) (1 / r) (1 / r).
Proof.
  pose proof u_pos3 as U. pose proof u_small as U'. pose proof r_pos as Rp.
  destruct norm_sqrt as (r' & Hr & Er & _). 
  assert (Ur : u * r <= / 16777216 * r) by (apply Rmult_le_compat_r; lra).
  apply Rabs_le_inv in Er. assert (Rp' : 0 < r') by lra.
  set (w := 1 / r). assert (Wp : 0 < w) by (unfold w; apply Rdiv_lt_0_compat; lra).
  assert (Wr : w * r = 1) by (unfold w; field; lra).
  set (w' := 1 / r'). assert (Wp' : 0 < w') by (unfold w'; apply Rdiv_lt_0_compat; lra).
  assert (Wr' : w' * r' = 1) by (unfold w'; field; lra).
  assert (Uw : 0 <= u * w) by (apply Rmult_le_pos; lra).
  assert (Uw' : u * w <= / 16777216 * w) by (apply Rmult_le_compat_r; lra).
  assert (K : Rabs (w' - w) <= 14 * u * w).
  { assert (E : w' - w = w * (w' * (r - r'))).
    { replace (w * (w' * (r - r'))) with (w' * (w * r) - w * (w' * r')) by ring. rewrite Wr, Wr'. ring. }
    rewrite E, Rabs_mult, (Rabs_pos_eq w) by lra. rewrite (Rmult_comm _ w). apply Rmult_le_compat_l; [lra|].
    assert (W2 : w' * r <= 14 / 13).
    { apply Rmult_le_reg_r with r'; auto. replace (w' * r * r') with (r * (w' * r')) by ring. rewrite Wr'. lra. }
    rewrite Rabs_mult, (Rabs_pos_eq w') by lra.
    apply Rle_trans with (w' * (13 * u * r)).
    - apply Rmult_le_compat_l; [lra|]. apply Rabs_le. lra.
    - replace (w' * (13 * u * r)) with (13 * u * (w' * r)) by ring.
      apply Rle_trans with (13 * u * (14 / 13)); [apply Rmult_le_compat_l; lra|lra]. }
  assert (Aw : Rabs w <= w) by (rewrite Rabs_pos_eq; lra).
  assert (W0 : / IZR (2 ^ 29) <= w).
  { apply Rmult_le_reg_r with r; auto. rewrite Wr. apply Rle_trans with (/ IZR (2 ^ 29) * IZR (2 ^ 29)).
    - apply Rmult_le_compat_l; [left; apply Rinv_0_lt_compat, IZR_lt; reflexivity|exact r_high].
    - rewrite Rinv_l; [lra|]. apply IZR_neq. discriminate. }
  assert (W1 : w <= IZR (2 ^ 40)).
  { apply Rmult_le_reg_r with r; auto. rewrite Wr. pose proof r_low as Q0.
    apply Rle_trans with (IZR (2 ^ 40) * / IZR (2 ^ 40)).
    - rewrite Rinv_r; [lra|]. apply IZR_neq. discriminate.
    - apply Rmult_le_compat_l; [apply IZR_le; discriminate|exact Q0]. }
  change (IZR (2 ^ 40)) with 1099511627776 in W1.
  assert (Ew : 64 * eta <= u * w).
  { apply eta_u. eapply Rle_trans; [|exact W0]. apply Rinv_le; [apply IZR_lt; reflexivity|]. apply IZR_le. discriminate. }
  pose proof eta_pos.
  assert (K' : Rabs w' <= 2 * w) by (eapply Rle_trans; [apply (abs_near _ _ _ w K Aw)|]; lra).
  eapply rn_weaken.
  - apply (rn_round _ w' w (14 * u * w) w (2 * w)); auto.
    apply op_div; auto; [lra|]. fold w'. rewrite lim_val. lra.
  - lra.
Qed.

(** A component of the unit vector. *)
Lemma norm_component t e e' : repR t e' -> Rabs (e' - e) <= u * Rabs e -> e * e <= D ->
  rn (SFmul prec emax t inv_) (22 * u) (e * (1 / r)) 1.
Proof.
  intros Ht Ee Le. pose proof u_pos3 as U. pose proof u_small as U'. pose proof r_pos as Rp.
  destruct norm_inv as (w' & Hw & Ew & Aw). set (w := 1 / r) in *.
  assert (Wp : 0 < w) by (unfold w; apply Rdiv_lt_0_compat; lra).
  assert (Wr : w * r = 1) by (unfold w; field; lra).
  assert (Ae : Rabs e <= r).
  { rewrite <- (sqrt_Rsqr_abs e). apply sqrt_le_1_alt. exact Le. }
  pose proof (Rabs_pos e) as E0.
  assert (A1 : Rabs e * w <= 1).
  { rewrite <- Wr, (Rmult_comm w r). apply Rmult_le_compat_r; lra. }
  assert (A0 : 0 <= Rabs e * w) by (apply Rmult_le_pos; lra).
  assert (Uw' : u * w <= / 16777216 * w) by (apply Rmult_le_compat_r; lra).
  assert (Aw' : Rabs w' <= 2 * w) by (eapply Rle_trans; [apply (abs_near _ _ _ _ Ew Aw)|]; lra).
  assert (K : Rabs (e' * w' - e * w) <= 19 * u).
  { replace (e' * w' - e * w) with ((e' - e) * w' + e * (w' - w)) by ring. eapply Rle_trans; [apply Rabs_triang|]. rewrite !Rabs_mult.
    apply Rle_trans with ((u * Rabs e) * (2 * w) + Rabs e * (17 * u * w)).
    - apply Rplus_le_compat; apply Rmult_le_compat; auto using Rabs_pos; lra.
    - replace (u * Rabs e * (2 * w) + Rabs e * (17 * u * w)) with (19 * u * (Rabs e * w)) by ring.
      apply Rle_trans with (19 * u * 1); [apply Rmult_le_compat_l; lra|lra]. }
  assert (A2 : Rabs (e * w) <= 1) by (rewrite Rabs_mult, (Rabs_pos_eq w) by lra; exact A1).
  assert (K' : Rabs (e' * w') <= 2) by (eapply Rle_trans; [apply (abs_near _ _ _ _ K A2)|]; lra).
  pose proof (eta_u 1 ltac:(rewrite <- Rinv_1; apply Rinv_le; [lra|apply IZR_le; discriminate])) as T. pose proof eta_pos.
  eapply rn_weaken.
  - apply (rn_round _ (e' * w') (e * w) (19 * u) 1 2); auto. apply op_mul; auto. rewrite lim_val. lra.
  - lra.
Qed.
End Norm.

(** ** The second basis vector, the coordinates *)
Lemma rn_grow x e r X Y : rn x e r X -> X <= Y -> rn x e r Y.
Proof. intros (r' & A & B & C) H. exists r'. repeat split; auto. lra. Qed.

Lemma eta_1 : 64 * eta <= u.
Proof. pose proof (eta_u 1 ltac:(rewrite <- Rinv_1; apply Rinv_le; [lra|apply IZR_le; discriminate])). lra. Qed.

Lemma cross_component p q n1 n2 a b m1 m2 : rn p (22 * u) a 1 -> rn q (22 * u) b 1 -> repR n1 m1 -> repR n2 m2 ->
  Rabs m1 <= 2 -> Rabs m2 <= 2 -> rn (SFsub prec emax (SFmul prec emax p n2) (SFmul prec emax n1 q)) (100 * u) (a * m2 - m1 * b) 4.
Proof.
  intros Hp' Hq H1 H2 M1 M2. pose proof u_pos3 as U. pose proof u_small as U'. pose proof eta_1 as T. pose proof eta_pos as T0.
  assert (UU : u * u <= / 16777216 * u) by (apply Rmult_le_compat_r; lra).
  destruct (rn_scale n2 p m2 2 _ _ _ H2 M2 Hp' ltac:(rewrite lim_val; lra)) as (_ & A).
  destruct (rn_scale n1 q m1 2 _ _ _ H1 M1 Hq ltac:(rewrite lim_val; lra)) as (B & _).
  apply (rn_weaken _ _ (47 * u)) in A; [|lra]. apply (rn_weaken _ _ (47 * u)) in B; [|lra].
  pose proof (rn_sub _ _ _ _ _ _ _ _ A B ltac:(rewrite lim_val; lra)) as C.
  apply (rn_grow _ _ _ _ 4) in C; [|lra]. eapply rn_weaken; [exact C|]. lra.
Qed.

Lemma dot_component v1 v2 v3 b1 b2 b3 a1 a2 a3 c1 c2 c3 M :
  repR v1 a1 -> repR v2 a2 -> repR v3 a3 -> Rabs a1 <= M -> Rabs a2 <= M -> Rabs a3 <= M -> M <= IZR (2 ^ 27) -> 64 * eta <= u * M ->
  rn b1 (100 * u) c1 4 -> rn b2 (100 * u) c2 4 -> rn b3 (100 * u) c3 4 ->
  rn (SFadd prec emax (SFadd prec emax (SFmul prec emax v1 b1) (SFmul prec emax v2 b2)) (SFmul prec emax v3 b3))
    (512 * u * M) (a1 * c1 + a2 * c2 + a3 * c3) (12 * M).
Proof.
  intros H1 H2 H3 M1 M2 M3 HM T B1 B2 B3. pose proof u_pos3 as U. pose proof u_small as U'. pose proof eta_pos as T0.
  pose proof (Rabs_pos a1). assert (M0 : 0 <= M) by lra. change (IZR (2 ^ 27)) with 134217728 in HM.
  assert (UM0 : 0 <= u * M) by (apply Rmult_le_pos; lra).
  assert (UM : u * M <= / 16777216 * M) by (apply Rmult_le_compat_r; lra).
  assert (UUM : u * (u * M) <= / 16777216 * (u * M)) by (apply Rmult_le_compat_r; lra).
  destruct (rn_scale v1 b1 a1 M _ _ _ H1 M1 B1 ltac:(rewrite lim_val; lra)) as (A1 & _).
  destruct (rn_scale v2 b2 a2 M _ _ _ H2 M2 B2 ltac:(rewrite lim_val; lra)) as (A2 & _).
  destruct (rn_scale v3 b3 a3 M _ _ _ H3 M3 B3 ltac:(rewrite lim_val; lra)) as (A3 & _).
  apply (rn_weaken _ _ (106 * (u * M))) in A1; [|lra]. apply (rn_weaken _ _ (106 * (u * M))) in A2; [|lra].
  apply (rn_weaken _ _ (106 * (u * M))) in A3; [|lra].
  pose proof (rn_add _ _ _ _ _ _ _ _ A1 A2 ltac:(rewrite lim_val; lra)) as S1.
  apply (rn_weaken _ _ (230 * (u * M))) in S1; [|lra].
  pose proof (rn_add _ _ _ _ _ _ _ _ S1 A3 ltac:(rewrite lim_val; lra)) as S2.
  apply (rn_grow _ _ _ _ (12 * M)) in S2; [|lra]. eapply rn_weaken; [exact S2|]. lra.
Qed.

(** ** The transformation *)
Variable maxid : N.
Notation EV := (sf_env prec emax maxid).

Lemma sf_is_R x q : sf_is prec emax x q -> repR x (Q2R q).
Proof. intros H. apply sf_is_rep in H. exact H. Qed.

Lemma R_sf_is x r : repR x r -> exists q, sf_is prec emax x q /\ Q2R q = r.
Proof.
  intros (b & <- & F & V). destruct (fin_rep prec emax b F) as (q & Hq & Eq). exists q. split; [now apply sf_is_rep|congruence].
Qed.

Lemma one_R : repR (sf_one prec emax) 1.
Proof.
  pose proof (rep_of_Z prec emax P L ltac:(lia) He 1 ltac:(pose proof (prec_pow prec ltac:(lia)); lia) ltac:(lia)) as H. unfold sf_one.
  destruct H as (b & A & F & V). exists b. split; auto. split; auto. rewrite V. unfold Q2R. simpl. field.
Qed.

(** A coordinate close to the exact one. *)
Lemma rn_point x y e f r s X Y d : rn x e r X -> rn y f s Y -> e <= d -> f <= d ->
  exists p : point, vertex_is (E := EV) (sf_is prec emax) (x, y) p /\ rclose d p (r, s).
Proof.
  intros (r' & A & B & _) (s' & A' & B' & _) H H'. destruct (R_sf_is _ _ A) as (p & P1 & P2). destruct (R_sf_is _ _ A') as (q & Q1 & Q2).
  exists (p, q). split; [split; assumption|]. unfold rclose; cbn [fst snd]. rewrite P2, Q2. lra.
Qed.

Notation VF := (env_vec3 (E := EV) (sf_sqrt prec emax) (sf_one prec emax)).

Lemma transform_close vs nv l n M : Forall2 (vec_is prec emax) vs l -> vec_is prec emax nv n -> moderate3 l n M ->
  exists vs2 pl ideal, transform_to_2d (V := VF) vs nv = Ret vs2 /\ Forall2 (vertex_is (E := EV) (sf_is prec emax)) vs2 pl /\
    transform_to_2d (V := r_vec3) (map rvec_of l) (rvec_of n) = Ret ideal /\ Forall2 (rclose (512 * u * M)) pl ideal.
Proof.
  intros Hv Hn [HM Hc Hm (p0 & p1 & rest & El & Hd)].
  assert (F2 := Hv). rewrite El in Hv. inversion Hv as [|v0 ? vs0 ? V0 Hv0 E1 E2]; subst. inversion Hv0 as [|v1 ? vs1 ? V1 Hv1 E1 E2]; subst.
  clear Hv Hv0 Hv1. set (l := p0 :: p1 :: rest) in *. set (vs := v0 :: v1 :: vs1) in *.
  destruct nv as ((nx, ny), nz), n as ((mx, my), mz). destruct Hn as (N1 & N2 & N3). unfold rdot, rvec_of in Hm.
  assert (M1 : Rabs (Q2R mx) <= 2) by (apply Rabs_le; nra). assert (M2 : Rabs (Q2R my) <= 2) by (apply Rabs_le; nra).
  assert (M3 : Rabs (Q2R mz) <= 2) by (apply Rabs_le; nra).
  destruct v0 as ((x0, y0), z0), p0 as ((a0, b0), c0). destruct V0 as (X0 & Y0 & Z0).
  destruct v1 as ((x1, y1), z1), p1 as ((a1, b1), c1). destruct V1 as (X1 & Y1 & Z1).
  apply sf_is_R in N1, N2, N3, X0, Y0, Z0, X1, Y1, Z1.
  pose proof (Hc a0 b0 c0 (or_introl eq_refl)) as (Ca0 & Cb0 & Cc0).
  pose proof (Hc a1 b1 c1 (or_intror (or_introl eq_refl))) as (Ca1 & Cb1 & Cc1).
  unfold rdist3, rdot, rminus, rvec_of in Hd.
  set (A := Q2R a0 - Q2R a1) in *. set (B := Q2R b0 - Q2R b1) in *. set (C := Q2R c0 - Q2R c1) in *.
  assert (DA : Rabs A <= 2 * M) by (unfold A, Rminus; eapply Rle_trans; [apply Rabs_triang|]; rewrite Rabs_Ropp; lra).
  assert (DB : Rabs B <= 2 * M) by (unfold B, Rminus; eapply Rle_trans; [apply Rabs_triang|]; rewrite Rabs_Ropp; lra).
  assert (DC : Rabs C <= 2 * M) by (unfold C, Rminus; eapply Rle_trans; [apply Rabs_triang|]; rewrite Rabs_Ropp; lra).
  assert (M0 : 0 <= M) by (pose proof (Rabs_pos (Q2R a0)); lra).
  assert (SQ : forall t, Rabs t <= 2 * M -> t * t <= 4 * (M * M)).
  { intros t Ht. replace (t * t) with (Rabs t * Rabs t) by (rewrite <- Rabs_mult; apply Rabs_pos_eq; nra).
    replace (4 * (M * M)) with ((2 * M) * (2 * M)) by ring. apply Rmult_le_compat; auto using Rabs_pos. }
  pose proof (SQ A DA) as QA. pose proof (SQ B DB) as QB. pose proof (SQ C DC) as QC.
  assert (D2 : A * A + B * B + C * C <= IZR (2 ^ 58)).
  { assert (H : M * M <= IZR (2 ^ 27) * IZR (2 ^ 27)) by (apply Rmult_le_compat; auto). rewrite <- mult_IZR in H.
    change (IZR (2 ^ 27 * 2 ^ 27)) with 18014398509481984 in H. change (IZR (2 ^ 58)) with 288230376151711744. lra. }
  assert (ML : / IZR (2 ^ 42) <= M).
  { destruct (Rle_or_lt (/ IZR (2 ^ 42)) M) as [H|H]; auto. exfalso.
    assert (K : M * M <= / IZR (2 ^ 42) * / IZR (2 ^ 42)) by (apply Rmult_le_compat; lra).
    rewrite <- Rinv_mult, <- mult_IZR in K. change (2 ^ 42 * 2 ^ 42)%Z with (16 * 2 ^ 80)%Z in K. rewrite mult_IZR, Rinv_mult in K.
    assert (0 < / IZR (2 ^ 80)) by (apply Rinv_0_lt_compat, IZR_lt; reflexivity). lra. }
  assert (EM : 64 * eta <= u * M).
  { apply eta_u. eapply Rle_trans; [|exact ML]. apply Rinv_le; [apply IZR_lt; reflexivity|]. apply IZR_le. discriminate. }
  assert (DL : forall t, Rabs t <= 2 * M -> Rabs t <= lim).
  { intros t Ht. rewrite lim_val. change (IZR (2 ^ 27)) with 134217728 in HM. lra. }
  pose proof (op_sub _ _ _ _ X0 X1 (DL _ DA)) as RA. pose proof (sub_err _ _ _ _ X0 X1) as EA. fold A in RA, EA.
  pose proof (op_sub _ _ _ _ Y0 Y1 (DL _ DB)) as RB. pose proof (sub_err _ _ _ _ Y0 Y1) as EB. fold B in RB, EB.
  pose proof (op_sub _ _ _ _ Z0 Z1 (DL _ DC)) as RC. pose proof (sub_err _ _ _ _ Z0 Z1) as EC. fold C in RC, EC.
  pose proof (norm_component _ _ _ A B C _ _ _ RA RB RC EA EB EC Hd D2 _ one_R) as NC.
  assert (A0 : 0 <= A * A) by nra. assert (B0 : 0 <= B * B) by nra. assert (C0 : 0 <= C * C) by nra.
  pose proof (NC _ A _ RA EA ltac:(lra)) as BX. pose proof (NC _ B _ RB EB ltac:(lra)) as BY. pose proof (NC _ C _ RC EC ltac:(lra)) as BZ.
  clear NC. set (r := sqrt (A * A + B * B + C * C)) in *.
  pose proof (op_neg _ _ N1) as O1. pose proof (op_neg _ _ N2) as O2. pose proof (op_neg _ _ N3) as O3.
  assert (Q1 : Rabs (- Q2R mx) <= 2) by (rewrite Rabs_Ropp; exact M1). assert (Q2' : Rabs (- Q2R my) <= 2) by (rewrite Rabs_Ropp; exact M2).
  assert (Q3 : Rabs (- Q2R mz) <= 2) by (rewrite Rabs_Ropp; exact M3).
  pose proof (cross_component _ _ _ _ _ _ _ _ BY BZ O2 O3 Q2' Q3) as CX.
  pose proof (cross_component _ _ _ _ _ _ _ _ BZ BX O3 O1 Q3 Q1) as CY.
  pose proof (cross_component _ _ _ _ _ _ _ _ BX BY O1 O2 Q1 Q2') as CZ.
  pose proof u_pos3 as U.
  apply (rn_weaken _ _ (100 * u)) in BX, BY, BZ; try lra. apply (rn_grow _ _ _ _ 4) in BX, BY, BZ; try lra.
  assert (Each : forall v p, vec_is prec emax v p -> In p l ->
    exists q : point, vertex_is (E := EV) (sf_is prec emax) (v3_dot (Vertex3d := VF) v (v3_normalize (Vertex3d := VF) (v3_sub (Vertex3d := VF) (x0, y0, z0) (x1, y1, z1))),
        v3_dot (Vertex3d := VF) v (v3_cross (Vertex3d := VF) (v3_normalize (Vertex3d := VF) (v3_sub (Vertex3d := VF) (x0, y0, z0) (x1, y1, z1))) (v3_neg (Vertex3d := VF) (nx, ny, nz)))) q /\
      rclose (512 * u * M) q (v3_dot (Vertex3d := r_vec3) (rvec_of p) (v3_normalize (Vertex3d := r_vec3) (v3_sub (Vertex3d := r_vec3) (rvec_of (a0, b0, c0)) (rvec_of (a1, b1, c1)))),
        v3_dot (Vertex3d := r_vec3) (rvec_of p) (v3_cross (Vertex3d := r_vec3) (v3_normalize (Vertex3d := r_vec3) (v3_sub (Vertex3d := r_vec3) (rvec_of (a0, b0, c0)) (rvec_of (a1, b1, c1)))) (v3_neg (Vertex3d := r_vec3) (rvec_of (mx, my, mz)))))).
  { intros ((x, y), z) ((a, b), c) (X & Y & Z) Hin. apply sf_is_R in X, Y, Z. destruct (Hc _ _ _ Hin) as (Ca & Cb & Cc).
    pose proof (dot_component _ _ _ _ _ _ _ _ _ _ _ _ M X Y Z Ca Cb Cc HM EM BX BY BZ) as F1.
    pose proof (dot_component _ _ _ _ _ _ _ _ _ _ _ _ M X Y Z Ca Cb Cc HM EM CX CY CZ) as F2'.
    eapply rn_point; [exact F1|exact F2'|lra|lra]. }
  assert (All : forall vs' l', Forall2 (vec_is prec emax) vs' l' -> (forall p, In p l' -> In p l) ->
    exists pl, Forall2 (vertex_is (E := EV) (sf_is prec emax)) (map (fun v => (v3_dot (Vertex3d := VF) v (v3_normalize (Vertex3d := VF) (v3_sub (Vertex3d := VF) (x0, y0, z0) (x1, y1, z1))),
        v3_dot (Vertex3d := VF) v (v3_cross (Vertex3d := VF) (v3_normalize (Vertex3d := VF) (v3_sub (Vertex3d := VF) (x0, y0, z0) (x1, y1, z1))) (v3_neg (Vertex3d := VF) (nx, ny, nz))))) vs') pl /\
      Forall2 (rclose (512 * u * M)) pl (map (fun p => (v3_dot (Vertex3d := r_vec3) p (v3_normalize (Vertex3d := r_vec3) (v3_sub (Vertex3d := r_vec3) (rvec_of (a0, b0, c0)) (rvec_of (a1, b1, c1)))),
        v3_dot (Vertex3d := r_vec3) p (v3_cross (Vertex3d := r_vec3) (v3_normalize (Vertex3d := r_vec3) (v3_sub (Vertex3d := r_vec3) (rvec_of (a0, b0, c0)) (rvec_of (a1, b1, c1)))) (v3_neg (Vertex3d := r_vec3) (rvec_of (mx, my, mz)))))) (map rvec_of l'))).
  { clear - Each. intros vs' l' H. induction H as [|v p vs' l' Hv H IH]; intros K.
    - exists []. split; constructor.
    - destruct (Each v p Hv (K p (or_introl eq_refl))) as (q & V1 & V2). destruct IH as (pl & W1 & W2); [intros; apply K; now right|].
      exists (q :: pl). split; constructor; auto. }
  destruct (All vs l F2 (fun _ H => H)) as (pl & W1 & W2). do 3 eexists. split; [reflexivity|]. split; [exact W1|]. split; [reflexivity|exact W2].
Qed.
End SF.
