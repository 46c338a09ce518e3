(** * SFRep: IEEE 754 binary floats (SpecFloat) round monotonically.

    Uses Flocq's correctness theorems of the IEEE operations; the only axioms are those of the
    standard library's real numbers. *)

From Coq Require Import ZArith NArith List Bool Lia QArith Qabs Qround Lqa Qreals Reals Lra SpecFloat.
From Flocq Require Import Core.Core IEEE754.BinarySingleNaN.
From Verif Require Import Base Arith Rep F64.
Local Open Scope Z_scope.

Section SF.
Variables prec emax : Z.
Context (prec_gt_0_ : Prec_gt_0 prec).
Context (prec_lt_emax_ : Prec_lt_emax prec emax).
Variable maxid : N.

Notation fexp := (fexp prec emax).
Notation emin := (emin prec emax).
Notation bf := (binary_float prec emax).
Notation rnd := (round radix2 fexp (round_mode mode_NE)).
Local Instance fexp_ok : Valid_exp fexp := fexp_correct prec emax prec_gt_0_.

(** ** SpecFloat operations are Flocq's *)
Lemma rne_equiv s m l : round_nearest_even m l = choice_mode mode_NE s m l.
Proof. case l; [reflexivity|intro c]. case c; [|reflexivity..]. now simpl; unfold Round.cond_incr; case Z.even. Qed.

Lemma bra_equiv sx mx ex lx :
  SpecFloat.binary_round_aux prec emax sx mx ex lx = BinarySingleNaN.binary_round_aux prec emax mode_NE sx mx ex lx.
Proof.
  unfold SpecFloat.binary_round_aux, BinarySingleNaN.binary_round_aux.
  set (mrse' := shr_fexp _ _ _). case mrse'; intros mrs' e'; simpl. now rewrite (rne_equiv sx).
Qed.

Lemma br_equiv s m e : SpecFloat.binary_round prec emax s m e = BinarySingleNaN.binary_round prec emax mode_NE s m e.
Proof.
  unfold SpecFloat.binary_round, BinarySingleNaN.binary_round, shl_align_fexp.
  set (mez := shl_align _ _ _); case mez as [mz ez]. apply bra_equiv.
Qed.

Lemma bn_equiv m e szero :
  SpecFloat.binary_normalize prec emax m e szero =
  B2SF (BinarySingleNaN.binary_normalize prec emax prec_gt_0_ prec_lt_emax_ mode_NE m e szero).
Proof. case m as [|p|p]; [now simpl| |]; simpl; rewrite B2SF_SF2B; apply br_equiv. Qed.

Lemma add_equiv (x y : bf) : SFadd prec emax (B2SF x) (B2SF y) = B2SF (Bplus mode_NE x y).
Proof.
  case x as [sx|sx| |sx mx ex Bx]; case y as [sy|sy| |sy my ey By];
    [now (trivial || simpl; case Bool.eqb).. | ]. apply bn_equiv.
Qed.

Lemma sub_equiv (x y : bf) : SFsub prec emax (B2SF x) (B2SF y) = B2SF (Bminus mode_NE x y).
Proof.
  case x as [sx|sx| |sx mx ex Bx]; case y as [sy|sy| |sy my ey By];
    [now (trivial || simpl; case Bool.eqb).. | ]. simpl. unfold Zminus. rewrite <- cond_Zopp_negb. apply bn_equiv.
Qed.

Lemma mul_equiv (x y : bf) : SFmul prec emax (B2SF x) (B2SF y) = B2SF (Bmult mode_NE x y).
Proof.
  case x as [sx|sx| |sx mx ex Bx]; case y as [sy|sy| |sy my ey By]; [now trivial.. | ].
  simpl. rewrite B2SF_SF2B. apply bra_equiv.
Qed.

Lemma div_equiv (x y : bf) : SFdiv prec emax (B2SF x) (B2SF y) = B2SF (Bdiv mode_NE x y).
Proof.
  case x as [sx|sx| |sx mx ex Bx]; case y as [sy|sy| |sy my ey By];
    [now (trivial || simpl; case Bool.eqb).. | ].
  simpl. rewrite B2SF_SF2B. set (melz := SFdiv_core_binary _ _ _ _ _ _). case melz as [[mz ez] lz]. apply bra_equiv.
Qed.

(** ** Values *)
Definition repF (x : spec_float) (q : Q) : Prop :=
  exists b : bf, B2SF b = x /\ is_finite b = true /\ B2R b = Q2R q.

Definition reprF (q : Q) : Prop := generic_format radix2 fexp (Q2R q).

Definition dyadic (m e : Z) : Q := if 0 <=? e then inject_Z (m * 2 ^ e) else (m # Z.to_pos (2 ^ (- e))).

Lemma dyadic_R m e : Q2R (dyadic m e) = F2R (Float radix2 m e).
Proof.
  unfold dyadic, F2R; cbn [Fnum Fexp]. destruct (Z.leb_spec 0 e) as [H|H].
  - unfold Q2R, inject_Z; cbn [Qnum Qden]. rewrite mult_IZR, Rinv_1, Rmult_1_r. f_equal.
    rewrite <- (IZR_Zpower radix2) by lia. reflexivity.
  - unfold Q2R; cbn [Qnum Qden]. f_equal. rewrite Z2Pos.id by (apply Z.pow_pos_nonneg; lia).
    rewrite <- (Z.opp_involutive e) at 2. rewrite bpow_opp. f_equal. rewrite <- (IZR_Zpower radix2) by lia. reflexivity.
Qed.

Lemma fin_Q (b : bf) : exists q, B2R b = Q2R q.
Proof.
  destruct b as [s|s| |s m e H]; try (exists 0%Q; simpl; unfold Q2R; simpl; lra).
  exists (dyadic (cond_Zopp s (Zpos m)) e). simpl. symmetry. apply dyadic_R.
Qed.

Lemma fin_rep (b : bf) : is_finite b = true -> exists q, repF (B2SF b) q /\ Q2R q = B2R b.
Proof. intros H. destruct (fin_Q b) as (q & Hq). exists q. split; [exists b|]; auto. Qed.

Hypothesis Hprec : 24 <= prec.
Hypothesis Hemax : 128 <= emax.

Lemma emin_le : emin <= - 64.
Proof. unfold SpecFloat.emin. lia. Qed.

Lemma repr_dyadic m e : Z.abs m < 2 ^ prec -> emin <= e -> generic_format radix2 fexp (F2R (Float radix2 m e)).
Proof.
  intros H K. apply (generic_format_FLT radix2 emin prec). exists (Float radix2 m e); auto.
Qed.

Lemma prec_pow : 2 ^ 24 <= 2 ^ prec.
Proof. apply Z.pow_le_mono_r; lia. Qed.

Lemma big_R : Q2R big = bpow radix2 60.
Proof. unfold big, Q2R, inject_Z; cbn [Qnum Qden]. rewrite Rinv_1, Rmult_1_r. now rewrite <- (IZR_Zpower radix2) by lia. Qed.

Lemma big_format : generic_format radix2 fexp (bpow radix2 60).
Proof.
  replace (bpow radix2 60) with (F2R (Float radix2 1 60)) by (unfold F2R; simpl Fnum; simpl Fexp; lra).
  apply repr_dyadic; [pose proof prec_pow; lia|pose proof emin_le; lia].
Qed.

Lemma no_overflow (x : R) : (Rabs x <= bpow radix2 60)%R -> Rlt_bool (Rabs (rnd x)) (bpow radix2 emax) = true.
Proof.
  intros H. apply Rlt_bool_true. apply Rle_lt_trans with (bpow radix2 60).
  - apply abs_round_le_generic; auto with typeclass_instances. exact big_format.
  - apply bpow_lt. lia.
Qed.

Lemma abs_Q2R q : Q2R (Qabs q) = Rabs (Q2R q).
Proof.
  destruct (Qlt_le_dec q 0) as [H|H].
  - rewrite (Qeq_eqR _ _ (Qabs_neg q ltac:(Lqa.lra))), Q2R_opp. apply Qlt_Rlt in H. rewrite RMicromega.Q2R_0 in H.
    rewrite Rabs_left; auto.
  - rewrite (Qeq_eqR _ _ (Qabs_pos q H)). apply Qle_Rle in H. rewrite RMicromega.Q2R_0 in H. rewrite Rabs_pos_eq; auto.
Qed.

Lemma abs_big_R q : (Qabs q <= big)%Q -> (Rabs (Q2R q) <= bpow radix2 60)%R.
Proof. intros H. apply Qle_Rle in H. now rewrite abs_Q2R, big_R in H. Qed.

Lemma rounds_R e q : Q2R q = rnd (Q2R e) -> rounds reprF e q.
Proof.
  intros H l Hl. unfold reprF in Hl. split; intros K; apply Rle_Qle; rewrite H; apply Qle_Rle in K.
  - apply round_ge_generic; auto with typeclass_instances.
  - apply round_le_generic; auto with typeclass_instances.
Qed.

Lemma op_result (b : bf) e : is_finite b = true -> B2R b = rnd (Q2R e) ->
  exists q, repF (B2SF b) q /\ rounds reprF e q.
Proof.
  intros F H. destruct (fin_rep b F) as (q & Hq & Eq). exists q. split; auto. apply rounds_R. congruence.
Qed.

Lemma rep_add x y a b : repF x a -> repF y b -> (Qabs (a + b) <= big)%Q ->
  exists q, repF (SFadd prec emax x y) q /\ rounds reprF (a + b) q.
Proof.
  intros (bx & <- & Fx & Rx) (by_ & <- & Fy & Ry) H. rewrite add_equiv.
  pose proof (Bplus_correct prec emax prec_gt_0_ prec_lt_emax_ mode_NE bx by_ Fx Fy) as C.
  apply abs_big_R in H. rewrite Q2R_plus in H. rewrite Rx, Ry in C. rewrite (no_overflow _ H) in C.
  destruct C as (C1 & C2 & _). apply op_result; auto. now rewrite Q2R_plus.
Qed.

Lemma sub_val x y a b : repF x a -> repF y b -> (Qabs (a - b) <= big)%Q ->
  exists d : bf, B2SF d = SFsub prec emax x y /\ is_finite d = true /\ B2R d = rnd (Q2R (a - b)).
Proof.
  intros (bx & <- & Fx & Rx) (by_ & <- & Fy & Ry) H. rewrite sub_equiv.
  pose proof (Bminus_correct prec emax prec_gt_0_ prec_lt_emax_ mode_NE bx by_ Fx Fy) as C.
  apply abs_big_R in H. rewrite Q2R_minus in H. rewrite Rx, Ry in C. rewrite (no_overflow _ H) in C.
  destruct C as (C1 & C2 & _). eexists. split; [reflexivity|]. split; auto. now rewrite Q2R_minus.
Qed.

Lemma rep_sub x y a b : repF x a -> repF y b -> (Qabs (a - b) <= big)%Q ->
  exists q, repF (SFsub prec emax x y) q /\ rounds reprF (a - b) q.
Proof. intros A B H. destruct (sub_val _ _ _ _ A B H) as (d & <- & F & V). now apply op_result. Qed.

Lemma rep_mul x y a b : repF x a -> repF y b -> (Qabs (a * b) <= big)%Q ->
  exists q, repF (SFmul prec emax x y) q /\ rounds reprF (a * b) q.
Proof.
  intros (bx & <- & Fx & Rx) (by_ & <- & Fy & Ry) H. rewrite mul_equiv.
  pose proof (Bmult_correct prec emax prec_gt_0_ prec_lt_emax_ mode_NE bx by_) as C.
  apply abs_big_R in H. rewrite Q2R_mult in H. rewrite Rx, Ry in C. rewrite (no_overflow _ H) in C.
  destruct C as (C1 & C2 & _). rewrite Fx, Fy in C2. apply op_result; auto. now rewrite Q2R_mult.
Qed.

Lemma rep_div x y a b : repF x a -> repF y b -> (0 < b)%Q -> (Qabs (a / b) <= big)%Q ->
  exists q, repF (SFdiv prec emax x y) q /\ rounds reprF (a / b) q.
Proof.
  intros (bx & <- & Fx & Rx) (by_ & <- & Fy & Ry) P H. rewrite div_equiv.
  assert (Nz : ~ (b == 0)%Q) by Lqa.lra.
  assert (Nr : B2R by_ <> 0%R).
  { rewrite Ry. apply Qlt_Rlt in P. rewrite RMicromega.Q2R_0 in P. lra. }
  pose proof (Bdiv_correct prec emax prec_gt_0_ prec_lt_emax_ mode_NE bx by_ Nr) as C.
  apply abs_big_R in H. rewrite Q2R_div in H by auto. rewrite Rx, Ry in C. rewrite (no_overflow _ H) in C.
  destruct C as (C1 & C2 & _). rewrite Fx in C2. apply op_result; auto. now rewrite Q2R_div.
Qed.

Lemma rep_neg x a : repF x a -> repF (SFopp x) (- a).
Proof.
  intros (b & <- & F & V). exists (Bopp b). split; [now destruct b|]. rewrite is_finite_Bopp, B2R_Bopp, Q2R_opp, V. auto.
Qed.

Lemma rep_abs x a : repF x a -> repF (SFabs x) (Qabs a).
Proof.
  intros (b & <- & F & V). exists (Babs b). split; [now destruct b|]. rewrite is_finite_Babs, B2R_Babs, abs_Q2R, V. auto.
Qed.

Lemma rep_lt x y a b : repF x a -> repF y b -> (SFltb x y = true <-> (a < b)%Q).
Proof.
  intros (bx & <- & Fx & Rx) (by_ & <- & Fy & Ry). pose proof (Bltb_correct prec emax bx by_ Fx Fy) as C.
  unfold Bltb in C. rewrite C, Rx, Ry. split; intros H.
  - apply Rlt_Qlt. destruct (Rlt_bool_spec (Q2R a) (Q2R b)); auto. discriminate.
  - apply Rlt_bool_true. now apply Qlt_Rlt.
Qed.

Lemma rep_le x y a b : repF x a -> repF y b -> (SFleb x y = true <-> (a <= b)%Q).
Proof.
  intros (bx & <- & Fx & Rx) (by_ & <- & Fy & Ry). pose proof (Bleb_correct prec emax bx by_ Fx Fy) as C.
  unfold Bleb in C. rewrite C, Rx, Ry. split; intros H.
  - apply Rle_Qle. destruct (Rle_bool_spec (Q2R a) (Q2R b)); auto. discriminate.
  - apply Rle_bool_true. now apply Qle_Rle.
Qed.

Lemma rep_eq x y a b : repF x a -> repF y b -> (SFeqb x y = true <-> (a == b)%Q).
Proof.
  intros (bx & <- & Fx & Rx) (by_ & <- & Fy & Ry). pose proof (Beqb_correct prec emax bx by_ Fx Fy) as C.
  unfold Beqb in C. rewrite C, Rx, Ry. split; intros H.
  - apply eqR_Qeq. destruct (Req_bool_spec (Q2R a) (Q2R b)); auto. discriminate.
  - apply Req_bool_true. now apply Qeq_eqR.
Qed.

Lemma rep_nan x a : repF x a -> sf_is_nan x = false /\ sf_is_finite x = true.
Proof. intros (b & <- & F & _). destruct b; simpl in *; auto; discriminate. Qed.

Lemma rep_compat x a b : repF x a -> (a == b)%Q -> repF x b.
Proof. intros (y & A & B & C) H. exists y. rewrite <- (Qeq_eqR _ _ H). auto. Qed.

Lemma rep_max x y a b : repF x a -> repF y b ->
  ((b <= a)%Q -> repF (sf_max x y) a) /\ ((a <= b)%Q -> repF (sf_max x y) b).
Proof.
  intros A B. unfold sf_max. destruct (rep_nan _ _ A) as (-> & _). destruct (rep_nan _ _ B) as (-> & _).
  pose proof (rep_lt _ _ _ _ A B) as L. destruct (SFltb x y); split; intros H.
  - assert (a < b)%Q by tauto. Lqa.lra.
  - auto.
  - auto.
  - assert (N : ~ (a < b)%Q) by (intros K; apply L in K; discriminate). apply (rep_compat _ _ _ A). Lqa.lra.
Qed.

Lemma rep_min x y a b : repF x a -> repF y b ->
  ((a <= b)%Q -> repF (sf_min x y) a) /\ ((b <= a)%Q -> repF (sf_min x y) b).
Proof.
  intros A B. unfold sf_min. destruct (rep_nan _ _ A) as (-> & _). destruct (rep_nan _ _ B) as (-> & _).
  pose proof (rep_lt _ _ _ _ B A) as L. destruct (SFltb y x); split; intros H.
  - assert (b < a)%Q by tauto. Lqa.lra.
  - auto.
  - auto.
  - assert (N : ~ (b < a)%Q) by (intros K; apply L in K; discriminate). apply (rep_compat _ _ _ A). Lqa.lra.
Qed.

Lemma rep_0 : repF (S754_zero false) 0.
Proof. exists (B754_zero false). simpl. rewrite RMicromega.Q2R_0. auto. Qed.

(** A finite float given by mantissa and exponent. *)
Lemma rep_finite s m e : SpecFloat.bounded prec emax m e = true ->
  repF (S754_finite s m e) (dyadic (cond_Zopp s (Zpos m)) e).
Proof. intros H. exists (B754_finite s m e H). simpl. rewrite dyadic_R. auto. Qed.

Lemma rep_of_Z z : Z.abs z < 2 ^ prec -> Z.abs z <= 2 ^ 60 -> repF (sf_of_Z prec emax z) (inject_Z z).
Proof.
  intros H K. unfold sf_of_Z. rewrite bn_equiv.
  pose proof (binary_normalize_correct prec emax prec_gt_0_ prec_lt_emax_ mode_NE z 0 false) as C. cbv zeta in C.
  assert (Fz : F2R (Float radix2 z 0) = Q2R (inject_Z z)).
  { rewrite <- dyadic_R. unfold dyadic. simpl (0 <=? 0). cbv iota. rewrite Z.pow_0_r, Z.mul_1_r. reflexivity. }
  rewrite Fz in C. rewrite no_overflow in C.
  - destruct C as (C1 & C2 & _). eexists. split; [reflexivity|]. split; auto. rewrite C1. apply round_generic; auto with typeclass_instances.
    rewrite <- Fz. apply repr_dyadic; auto. pose proof emin_le. lia.
  - apply abs_big_R. unfold big. change (Qabs (inject_Z z)) with (inject_Z (Z.abs z)). rewrite <- Zle_Qle. lia.
Qed.

Lemma repr_frac z k : 0 <= k <= 60 -> Z.abs z < 2 ^ prec -> reprF (inject_Z z / inject_Z (2 ^ k)).
Proof.
  intros Hk H. unfold reprF.
  assert (P : 0 < 2 ^ k) by (apply Z.pow_pos_nonneg; lia).
  assert (E0 : (inject_Z z / inject_Z (2 ^ k) == dyadic z (- k))%Q).
  { unfold dyadic. destruct (Z.leb_spec 0 (- k)) as [K|K].
    - assert (k = 0) as -> by lia. rewrite Z.pow_0_r. simpl (2 ^ (- 0)). rewrite Z.mul_1_r. unfold Qdiv. change (/ inject_Z 1)%Q with 1%Q. ring.
    - rewrite Z.opp_involutive. rewrite (Qmake_Qdiv z). rewrite Z2Pos.id by lia. reflexivity. }
  rewrite (Qeq_eqR _ _ E0), dyadic_R. apply repr_dyadic; auto. pose proof emin_le. lia.
Qed.

Lemma rep_quot p q lo hi : 0 < q < 2 ^ 20 -> Z.abs p < 2 ^ 20 -> Z.abs lo < 2 ^ 20 -> Z.abs hi < 2 ^ 20 ->
  (inject_Z lo / 256 <= inject_Z p / inject_Z q)%Q -> (inject_Z p / inject_Z q <= inject_Z hi / 256)%Q ->
  exists d, repF (SFdiv prec emax (sf_of_Z prec emax p) (sf_of_Z prec emax q)) d /\
    (inject_Z lo / 256 <= d <= inject_Z hi / 256)%Q.
Proof.
  intros Hq Hp Hlo Hhi L1 L2. pose proof prec_pow as Pp.
  assert (Qp : (0 < inject_Z q)%Q) by (change 0%Q with (inject_Z 0); rewrite <- Zlt_Qlt; lia).
  destruct (rep_div _ _ _ _ (rep_of_Z p ltac:(lia) ltac:(lia)) (rep_of_Z q ltac:(lia) ltac:(lia)) Qp) as (d & D1 & D2).
  - apply Qabs_Qle_condition.
    assert (B1 : (inject_Z (- 2 ^ 20) <= inject_Z lo)%Q) by (rewrite <- Zle_Qle; lia).
    assert (B2 : (inject_Z hi <= inject_Z (2 ^ 20))%Q) by (rewrite <- Zle_Qle; lia).
    assert (B3 : (inject_Z (2 ^ 20) <= big)%Q) by discriminate.
    assert (B4 : (- big <= inject_Z (- 2 ^ 20))%Q) by discriminate.
    assert (Z256 : forall z, (inject_Z z / 256 == inject_Z z * (1 # 256))%Q) by (intros; field).
    rewrite Z256 in L1, L2. assert (0 <= big)%Q by discriminate. split; Lqa.lra.
  - exists d. split; auto.
    assert (Rl : reprF (inject_Z lo / inject_Z (2 ^ 8))) by (apply repr_frac; lia).
    assert (Rh : reprF (inject_Z hi / inject_Z (2 ^ 8))) by (apply repr_frac; lia).
    change (inject_Z (2 ^ 8)) with 256%Q in Rl, Rh.
    destruct (D2 _ Rl) as (U & _). destruct (D2 _ Rh) as (_ & V). split; auto.
Qed.

Lemma dyadic_floor m e : 0 <= m -> e < 64 -> Z.shiftl m e = Qfloor (dyadic m e).
Proof.
  intros Hm He. unfold dyadic. destruct (Z.leb_spec 0 e) as [H|H].
  - rewrite Z.shiftl_mul_pow2 by lia. now rewrite Qfloor_Z.
  - rewrite Z.shiftl_div_pow2 by lia. unfold Qfloor. rewrite Z2Pos.id by (apply Z.pow_pos_nonneg; lia). reflexivity.
Qed.

Lemma rep_to_N x a : repF x a -> (0 <= a)%Q -> (a <= inject_Z (2 ^ 40))%Q -> sf_to_N x = Z.to_N (Qfloor a).
Proof.
  intros (b & <- & F & V) H0 H1. destruct b as [s|s| |s m e Hb]; try discriminate.
  - simpl in V. symmetry in V. rewrite <- RMicromega.Q2R_0 in V. apply eqR_Qeq in V. rewrite V. reflexivity.
  - simpl in V. rewrite <- dyadic_R in V. apply eqR_Qeq in V.
    assert (Da : (a == dyadic (cond_Zopp s (Zpos m)) e)%Q) by (now symmetry). rewrite Da in *. clear a Da V.
    destruct s; cbn [B2SF sf_to_N cond_Zopp] in *.
    + exfalso. unfold dyadic in H0. destruct (Z.leb_spec 0 e).
      * change 0%Q with (inject_Z 0) in H0. rewrite <- Zle_Qle in H0.
        assert (0 < 2 ^ e) by (apply Z.pow_pos_nonneg; lia). nia.
      * unfold Qle in H0. simpl in H0. lia.
    + destruct (Z.leb_spec 64 e) as [He|He].
      * exfalso. unfold dyadic in H1. destruct (Z.leb_spec 0 e); [|lia]. rewrite <- Zle_Qle in H1.
        assert (2 ^ 64 <= 2 ^ e) by (apply Z.pow_le_mono_r; lia). nia.
      * rewrite dyadic_floor by lia. rewrite N.min_r; auto.
        apply Qfloor_resp_le in H1. rewrite Qfloor_Z in H1. unfold usize_max. lia.
Qed.

Lemma rep_gap x y a b : repF x a -> repF y b -> (b < a)%Q -> exists l, reprF l /\ (0 < l)%Q /\ (l <= a - b)%Q.
Proof.
  intros (bx & _ & _ & Rx) (by_ & _ & _ & Ry) H.
  assert (Fx : FIX_format radix2 emin (Q2R a)).
  { apply FIX_format_generic. apply (generic_format_FIX_FLT radix2 emin prec). rewrite <- Rx. apply generic_format_B2R. }
  assert (Fy : FIX_format radix2 emin (Q2R b)).
  { apply FIX_format_generic. apply (generic_format_FIX_FLT radix2 emin prec). rewrite <- Ry. apply generic_format_B2R. }
  destruct Fx as [[mx ex] X1 X2]. destruct Fy as [[my ey] Y1 Y2]. cbn [Fexp] in X2, Y2. subst ex ey.
  exists (dyadic 1 emin).
  assert (Da : (a == dyadic mx emin)%Q) by (apply eqR_Qeq; rewrite dyadic_R; auto).
  assert (Db : (b == dyadic my emin)%Q) by (apply eqR_Qeq; rewrite dyadic_R; auto).
  split; [|split].
  - unfold reprF. rewrite dyadic_R. apply repr_dyadic; [pose proof prec_pow; lia|lia].
  - apply Rlt_Qlt. rewrite dyadic_R, RMicromega.Q2R_0. unfold F2R; cbn [Fnum Fexp]. pose proof (bpow_gt_0 radix2 emin). lra.
  - apply Rle_Qle. rewrite Q2R_minus, dyadic_R. apply Qlt_Rlt in H. rewrite X1, Y1 in *. unfold F2R in *; cbn [Fnum Fexp] in *.
    pose proof (bpow_gt_0 radix2 emin) as P.
    assert (IZR my < IZR mx)%R by (apply Rmult_lt_reg_r with (bpow radix2 emin); auto).
    apply lt_IZR in H0. assert (K : my + 1 <= mx) by lia. apply IZR_le in K. rewrite plus_IZR in K.
    rewrite <- Rmult_minus_distr_r. apply Rmult_le_compat_r; lra.
Qed.

Lemma rep_sub_mono x y x' y' a b a' b' : repF x a -> repF y b -> repF x' a' -> repF y' b' ->
  (Qabs (a - b) <= big)%Q -> (Qabs (a' - b') <= big)%Q -> (a - b <= a' - b')%Q ->
  SFleb (SFsub prec emax x y) (SFsub prec emax x' y') = true.
Proof.
  intros A B A' B' H H' L. destruct (sub_val _ _ _ _ A B H) as (d & <- & F1 & V1). destruct (sub_val _ _ _ _ A' B' H') as (d' & <- & F2 & V2).
  change (Bleb d d' = true). rewrite Bleb_correct by auto. rewrite V1, V2. apply Rle_bool_true.
  apply round_le; auto with typeclass_instances. now apply Qle_Rle.
Qed.
End SF.
