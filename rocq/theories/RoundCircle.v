(** * RoundCircle: the circumcircle checker in f64 and f32, with rounding. *)

From Coq Require Import ZArith NArith List Bool Lia QArith Qreals Lqa Reals Lra SpecFloat.
From Flocq Require Import Core.Core IEEE754.BinarySingleNaN.
From Verif Require Import Base Arith Types Utils Rep F64 SFRep Grid64 GridNum Spec GridSpec Space3d Quality SpecQuality QualityFacts
  SpecRound3d Round3d SpecMargin.
Import ListNotations.
Local Open Scope R_scope.

Section SF.
Variables prec emax : Z.
Context (P : Prec_gt_0 prec) (L : Prec_lt_emax prec emax).
Hypothesis Hp : (24 <= prec <= 53)%Z.
Hypothesis He : (128 <= emax)%Z.
Notation fexp := (fexp prec emax).
Notation rnd := (round radix2 fexp (round_mode mode_NE)).
Local Instance fexp_ok4 : Valid_exp fexp := fexp_correct prec emax P.
Notation u := (roundoff prec).
Notation eta := (/ IZR (2 ^ 149)).
Notation repR := (repR prec emax).
Notation rn := (rn prec emax).
Notation lim := (bpow radix2 100).

(** ** Integers *)
Lemma rnd_int z : (Z.abs z < 2 ^ prec)%Z -> rnd (IZR z) = IZR z.
Proof.
  intros H. apply round_generic; auto with typeclass_instances.
  replace (IZR z) with (F2R (Float radix2 z 0)) by (unfold F2R; simpl; ring).
  apply repr_dyadic; auto. unfold SpecFloat.emin. lia.
Qed.

Lemma int_lim z : (Z.abs z < 2 ^ prec)%Z -> Rabs (IZR z) <= lim.
Proof.
  intros H. rewrite <- abs_IZR. change lim with (IZR (2 ^ 100)). apply IZR_le.
  assert (2 ^ prec <= 2 ^ 100)%Z by (apply Z.pow_le_mono_r; lia). lia.
Qed.

Lemma int_add x y a b : repR x (IZR a) -> repR y (IZR b) -> (Z.abs (a + b) < 2 ^ prec)%Z -> repR (SFadd prec emax x y) (IZR (a + b)).
Proof.
  intros A B H. rewrite <- (rnd_int _ H). rewrite plus_IZR. apply (op_add prec emax P L Hp He); auto. rewrite <- plus_IZR. now apply int_lim.
Qed.

Lemma int_sub x y a b : repR x (IZR a) -> repR y (IZR b) -> (Z.abs (a - b) < 2 ^ prec)%Z -> repR (SFsub prec emax x y) (IZR (a - b)).
Proof.
  intros A B H. rewrite <- (rnd_int _ H). rewrite minus_IZR. apply (op_sub prec emax P L Hp He); auto. rewrite <- minus_IZR. now apply int_lim.
Qed.

Lemma int_mul x y a b : repR x (IZR a) -> repR y (IZR b) -> (Z.abs (a * b) < 2 ^ prec)%Z -> repR (SFmul prec emax x y) (IZR (a * b)).
Proof.
  intros A B H. rewrite <- (rnd_int _ H). rewrite mult_IZR. apply (op_mul prec emax P L Hp He); auto. rewrite <- mult_IZR. now apply int_lim.
Qed.

Lemma lt_R x y a b : repR x a -> repR y b -> (SFltb x y = true <-> a < b).
Proof.
  intros (bx & <- & Fx & Rx) (by_ & <- & Fy & Ry). pose proof (Bltb_correct prec emax bx by_ Fx Fy) as C.
  unfold Bltb in C. rewrite C, Rx, Ry. split; intros H.
  - destruct (Rlt_bool_spec a b); auto. discriminate.
  - now apply Rlt_bool_true.
Qed.

Lemma rn_mul x y e f r s X Y : rn x e r X -> rn y f s Y -> (X + e) * (Y + f) <= lim ->
  rn (SFmul prec emax x y) (e * (Y + f) + X * f + u * ((X + e) * (Y + f)) + eta) (r * s) (X * Y).
Proof.
  intros Hx Hy H. pose proof (rn_size _ _ _ _ _ _ Hx). pose proof (rn_size _ _ _ _ _ _ Hy).
  destruct Hx as (r' & A & B & C), Hy as (s' & A' & B' & C').
  pose proof (abs_near _ _ _ _ B C) as K. pose proof (abs_near _ _ _ _ B' C') as K'.
  assert (K1 : Rabs (r' * s') <= (X + e) * (Y + f)) by (rewrite Rabs_mult; apply Rmult_le_compat; auto using Rabs_pos).
  apply (rn_round prec emax Hp He _ (r' * s')); auto.
  - apply (op_mul prec emax P L Hp He); auto. lra.
  - replace (r' * s' - r * s) with ((r' - r) * s' + r * (s' - s)) by ring.
    eapply Rle_trans; [apply Rabs_triang|]. rewrite !Rabs_mult. apply Rplus_le_compat; apply Rmult_le_compat; auto using Rabs_pos.
  - rewrite Rabs_mult. apply Rmult_le_compat; auto using Rabs_pos.
Qed.

(** ** Sums of two squares *)
Section Scale.
Variable S : R.
Hypothesis S1 : 1 <= S.
Hypothesis S2 : S <= IZR (2 ^ 48).

Lemma S_eta : 64 * eta <= u * S.
Proof. apply (eta_u prec Hp). apply Rle_trans with 1; auto. rewrite <- Rinv_1. apply Rinv_le; [lra|]. apply IZR_le. discriminate. Qed.

Lemma T_eta : 64 * eta <= u * (S * S).
Proof. pose proof S_eta. pose proof (u_pos3 prec Hp). nra. Qed.

Lemma uT : 0 <= u * (S * S).
Proof. pose proof (u_pos3 prec Hp). nra. Qed.

Lemma T_lim : 9 * (S * S) <= lim.
Proof.
  change lim with (IZR (2 ^ 100)). apply Rle_trans with (9 * (IZR (2 ^ 48) * IZR (2 ^ 48))).
  - apply Rmult_le_compat_l; [lra|]. apply Rmult_le_compat; lra.
  - rewrite <- !mult_IZR. apply IZR_le. discriminate.
Qed.

Lemma rn_square2 x k m r : 0 <= k <= 8 -> 0 <= m <= 2 -> rn x (k * u * S) r (m * S) ->
  rn (SFmul prec emax x x) ((2 * k * m + m * m + 1) * (u * (S * S))) (r * r) (m * m * (S * S)).
Proof.
  intros Hk Hm H. pose proof (u_pos3 prec Hp) as U. pose proof (u_small prec Hp) as U'.
  pose proof T_eta as Et. pose proof uT as Ut. pose proof T_lim as Tl.
  assert (T0 : 0 < S * S) by nra.
  assert (K1 : 0 <= k * u <= / 100).
  { split; [apply Rmult_le_pos; lra|]. apply Rle_trans with (8 * / 16777216); [apply Rmult_le_compat; lra|lra]. }
  assert (K2 : k * u * k <= / 100).
  { apply Rle_trans with (8 * / 16777216 * 8); [|lra].
    apply Rmult_le_compat; try lra. apply Rmult_le_compat; lra. }
  assert (K3 : (m + k * u) * (m + k * u) <= m * m + / 10) by nra.
  pose proof (rn_mul _ _ _ _ _ _ _ _ H H) as Q.
  replace (m * S * (m * S)) with (m * m * (S * S)) in Q by ring.
  replace ((m * S + k * u * S) * (m * S + k * u * S)) with ((m + k * u) * (m + k * u) * (S * S)) in Q by ring.
  eapply rn_weaken; [apply Q|].
  - apply Rle_trans with (9 * (S * S)); auto. apply Rmult_le_compat_r; nra.
  - replace (k * u * S * (m * S + k * u * S) + m * S * (k * u * S) + u * ((m + k * u) * (m + k * u) * (S * S)) + eta)
      with (2 * k * m * (u * (S * S)) + k * u * k * (u * (S * S)) + (m + k * u) * (m + k * u) * (u * (S * S)) + eta) by ring.
    pose proof (Rmult_le_compat_r _ _ _ Ut K2). pose proof (Rmult_le_compat_r _ _ _ Ut K3). nra.
Qed.

(** The sum of the squares. *)
Lemma rn_norm x y k m r s : 0 <= k <= 8 -> 0 <= m <= 2 -> rn x (k * u * S) r (m * S) -> rn y (k * u * S) s (m * S) ->
  rn (SFadd prec emax (SFmul prec emax x x) (SFmul prec emax y y))
    ((4 * k * m + 4 * (m * m) + 3) * (u * (S * S))) (r * r + s * s) (2 * (m * m) * (S * S)).
Proof.
  intros Hk Hm Hx Hy. pose proof (u_pos3 prec Hp) as U. pose proof (u_small prec Hp) as U'.
  pose proof T_eta as Et. pose proof uT as Ut. pose proof T_lim as Tl.
  assert (T0 : 0 < S * S) by nra.
  set (w := 2 * k * m + m * m + 1).
  assert (Kkm : 0 <= k * m <= 16) by (split; [apply Rmult_le_pos; lra|]; replace 16 with (8 * 2) by ring; apply Rmult_le_compat; lra).
  assert (Kmm : 0 <= m * m <= 4) by (split; [apply Rmult_le_pos; lra|]; replace 4 with (2 * 2) by ring; apply Rmult_le_compat; lra).
  assert (W : 0 <= w <= 37) by (unfold w; lra).
  assert (Wu : w * u <= / 100).
  { apply Rle_trans with (37 * / 16777216); [apply Rmult_le_compat; lra|lra]. }
  pose proof (rn_square2 _ _ _ _ Hk Hm Hx) as A. pose proof (rn_square2 _ _ _ _ Hk Hm Hy) as B. fold w in A, B.
  pose proof (rn_add prec emax P L Hp He _ _ _ _ _ _ _ _ A B) as Q.
  replace (m * m * (S * S) + w * (u * (S * S)) + (m * m * (S * S) + w * (u * (S * S)))) with (2 * (m * m + w * u) * (S * S)) in Q by ring.
  replace (m * m * (S * S) + m * m * (S * S)) with (2 * (m * m) * (S * S)) in Q by ring.
  eapply rn_weaken; [apply Q|].
  - eapply Rle_trans; [|exact Tl]. apply Rmult_le_compat_r; lra.
  - assert (u * (2 * (m * m + w * u) * (S * S)) <= 2 * (m * m + / 100) * (u * (S * S))).
    { replace (u * (2 * (m * m + w * u) * (S * S))) with (2 * (m * m + w * u) * (u * (S * S))) by ring. apply Rmult_le_compat_r; lra. }
    unfold w in *. nra.
Qed.

(** Comparing the square roots of two sums with a gap is comparing the sums. *)
Lemma sqrt_cmp x y a b : repR x a -> repR y b -> 0 <= a <= 2 * (S * S) -> 0 <= b ->
  (b < a -> 32 * (u * (S * S)) <= a - b) ->
  (SFltb (SFsqrt prec emax y) (SFsqrt prec emax x) = true <-> b < a).
Proof.
  intros Hx Hy Ha Hb Gap. pose proof (u_pos3 prec Hp) as U. pose proof (u_small prec Hp) as U'. pose proof S_eta as Es.
  rewrite (lt_R _ _ _ _ (op_sqrt prec emax P L _ _ Hy Hb) (op_sqrt prec emax P L _ _ Hx (proj1 Ha))).
  assert (T0 : 0 < S * S) by nra.
  split.
  - intros H. apply Rnot_le_lt. intros K. apply Rlt_not_le in H. apply H.
    apply round_le; auto with typeclass_instances. now apply sqrt_le_1_alt.
  - intros H. specialize (Gap H).
    assert (Sa : 0 <= sqrt a <= 3 / 2 * S).
    { split; [apply sqrt_pos|]. apply Rsqr_incr_0_var; [|lra]. unfold Rsqr. rewrite sqrt_sqrt by lra. nra. }
    assert (Sb : 0 <= sqrt b) by apply sqrt_pos.
    assert (Sba : sqrt b < sqrt a) by (apply sqrt_lt_1_alt; lra).
    assert (D : (sqrt a - sqrt b) * (sqrt a + sqrt b) = a - b).
    { replace ((sqrt a - sqrt b) * (sqrt a + sqrt b)) with (sqrt a * sqrt a - sqrt b * sqrt b) by ring. rewrite !sqrt_sqrt; lra. }
    assert (Df : 8 * (u * S) <= sqrt a - sqrt b).
    { apply Rmult_le_reg_r with (3 * S); [lra|]. apply Rle_trans with (a - b).
      - eapply Rle_trans; [|exact Gap]. nra.
      - rewrite <- D. apply Rmult_le_compat_l; lra. }
    pose proof (rnd_err prec emax Hp He (sqrt a) (3 / 2 * S)) as E1. pose proof (rnd_err prec emax Hp He (sqrt b) (3 / 2 * S)) as E2.
    rewrite !Rabs_pos_eq in E1, E2 by lra.
    specialize (E1 ltac:(lra)). specialize (E2 ltac:(lra)).
    apply Rabs_le_inv in E1. apply Rabs_le_inv in E2. 
    assert (u * (3 / 2 * S) = 3 / 2 * (u * S)) by ring. pose proof (eta_pos). nra.
Qed.

(** The computed sum of squares is not negative. *)
Lemma repR_fun x a b : repR x a -> repR x b -> a = b.
Proof.
  intros (f & <- & F & <-) (g & Q & G & <-). apply B2SF_inj in Q. now subst.
Qed.

Lemma norm_pos x y k m r s a : 0 <= k <= 8 -> 0 <= m <= 2 -> rn x (k * u * S) r (m * S) -> rn y (k * u * S) s (m * S) ->
  repR (SFadd prec emax (SFmul prec emax x x) (SFmul prec emax y y)) a -> 0 <= a.
Proof.
  intros Hk Hm Hx Hy Ha. pose proof (u_pos3 prec Hp) as U. pose proof (u_small prec Hp) as U'.
  pose proof T_eta as Et. pose proof uT as Ut. pose proof T_lim as Tl.
  assert (T0 : 0 < S * S) by nra.
  assert (K : forall z t, rn z (k * u * S) t (m * S) -> exists q, repR (SFmul prec emax z z) q /\ 0 <= q <= 9 / 2 * (S * S)).
  { intros z t (z' & A & B & C). pose proof (abs_near _ _ _ _ B C) as D.
    assert (K1 : 0 <= k * u <= / 100).
    { split; [apply Rmult_le_pos; lra|]. apply Rle_trans with (8 * / 16777216); [apply Rmult_le_compat; lra|lra]. }
    assert (D2 : Rabs z' <= 201 / 100 * S) by nra.
    assert (D3 : 0 <= z' * z' <= 41 / 10 * (S * S)).
    { split; [nra|]. replace (z' * z') with (Rabs z' * Rabs z') by (rewrite <- Rabs_mult; apply Rabs_pos_eq; nra).
      apply Rle_trans with ((201 / 100 * S) * (201 / 100 * S)); [|nra]. apply Rmult_le_compat; auto using Rabs_pos. }
    exists (rnd (z' * z')). split.
    - apply (op_mul prec emax P L Hp He); auto. rewrite Rabs_pos_eq by lra. lra.
    - split.
      + rewrite <- (round_0 radix2 fexp (round_mode mode_NE)). apply round_le; auto with typeclass_instances. lra.
      + pose proof (rnd_err prec emax Hp He (z' * z') (41 / 10 * (S * S))) as E. rewrite (Rabs_pos_eq (z' * z')) in E by lra.
        specialize (E ltac:(lra)). apply Rabs_le_inv in E. pose proof (eta_pos). nra. }
  destruct (K _ _ Hx) as (p & A & B), (K _ _ Hy) as (q & C & D).
  rewrite (repR_fun _ _ _ Ha (op_add prec emax P L Hp He _ _ _ _ A C ltac:(rewrite Rabs_pos_eq; lra))).
  rewrite <- (round_0 radix2 fexp (round_mode mode_NE)). apply round_le; auto with typeclass_instances. lra.
Qed.
End Scale.

(** ** Integer part of the formulas *)
Section Ints.
Variable G : Z.
Hypothesis G1 : (1 <= G)%Z.
Hypothesis G2 : (32 * (G * G * G) < 2 ^ prec)%Z.
Variables px py qx qy : Z.
Hypotheses (A : (Z.abs px <= 2 * G)%Z) (B : (Z.abs py <= 2 * G)%Z) (C : (Z.abs qx <= 2 * G)%Z) (D : (Z.abs qy <= 2 * G)%Z).
Variables fpx fpy fqx fqy two : spec_float.
Hypotheses (RA : repR fpx (IZR px)) (RB : repR fpy (IZR py)) (RC : repR fqx (IZR qx)) (RD : repR fqy (IZR qy)) (R2 : repR two (IZR 2)).

Lemma abs_mul_le p q X Y : (Z.abs p <= X -> Z.abs q <= Y -> Z.abs (p * q) <= X * Y)%Z.
Proof. intros H K. rewrite Z.abs_mul. apply Z.mul_le_mono_nonneg; lia. Qed.

Lemma G_sq : (G * G <= G * G * G)%Z /\ (G <= G * G)%Z.
Proof. clear - G1. split; nia. Qed.

Lemma small_two p q X Y : (Z.abs p <= X -> Z.abs q <= Y -> Z.abs (p + q) <= X + Y /\ Z.abs (p - q) <= X + Y)%Z.
Proof. clear. lia. Qed.

Lemma bound_lt z k : (0 <= k <= 32)%Z -> (Z.abs z <= k * (G * G) \/ Z.abs z <= k * (G * G * G))%Z -> (Z.abs z < 2 ^ prec)%Z.
Proof.
  intros K H. pose proof G_sq as (Q1 & Q2). assert (0 < G * G)%Z by (clear - G1; nia).
  remember (G * G)%Z as g2. remember (g2 * G)%Z as g3. clear - K H Q1 Q2 G2 H0.
  destruct H as [H|H]; eapply Z.le_lt_trans; try exact H; eapply Z.le_lt_trans; try exact G2; nia.
Qed.

Lemma small_sq p q : (Z.abs p <= 2 * G -> Z.abs q <= 2 * G -> Z.abs (p * q) <= 4 * (G * G))%Z.
Proof. intros H K. replace (4 * (G * G))%Z with (2 * G * (2 * G))%Z by ring. now apply abs_mul_le. Qed.

Lemma small_b2 : (Z.abs (px * px + py * py) <= 8 * (G * G) /\ Z.abs (qx * qx + qy * qy) <= 8 * (G * G) /\
  Z.abs (2 * (px * qy - py * qx)) <= 16 * (G * G))%Z.
Proof.
  replace (8 * (G * G))%Z with (4 * (G * G) + 4 * (G * G))%Z by ring.
  split; [|split]; [now apply small_two; apply small_sq..|].
  rewrite Z.abs_mul. replace (16 * (G * G))%Z with (2 * (4 * (G * G) + 4 * (G * G)))%Z by ring.
  apply Z.mul_le_mono_nonneg_l; [discriminate|]. apply small_two; apply small_sq; auto.
Qed.

Lemma small_cube p q : (Z.abs p <= 2 * G -> Z.abs q <= 8 * (G * G) -> Z.abs (p * q) <= 16 * (G * G * G))%Z.
Proof. intros H K. replace (16 * (G * G * G))%Z with (2 * G * (8 * (G * G)))%Z by ring. now apply abs_mul_le. Qed.

Lemma small_n : (Z.abs (qy * (px * px + py * py) - py * (qx * qx + qy * qy)) <= 32 * (G * G * G) /\
  Z.abs (px * (qx * qx + qy * qy) - qx * (px * px + py * py)) <= 32 * (G * G * G))%Z.
Proof.
  destruct small_b2 as (E & F & _).
  replace (32 * (G * G * G))%Z with (16 * (G * G * G) + 16 * (G * G * G))%Z by ring.
  split; apply small_two; apply small_cube; auto.
Qed.

Lemma rep_sq x y p q : repR x (IZR p) -> repR y (IZR q) -> (Z.abs p <= 2 * G)%Z -> (Z.abs q <= 2 * G)%Z -> repR (SFmul prec emax x y) (IZR (p * q)).
Proof. intros. apply int_mul; auto. apply (bound_lt _ 4); [lia|]. left. now apply small_sq. Qed.

Lemma rep_b2 : repR (SFadd prec emax (SFmul prec emax fpx fpx) (SFmul prec emax fpy fpy)) (IZR (px * px + py * py)) /\
  repR (SFadd prec emax (SFmul prec emax fqx fqx) (SFmul prec emax fqy fqy)) (IZR (qx * qx + qy * qy)) /\
  repR (SFmul prec emax two (SFsub prec emax (SFmul prec emax fpx fqy) (SFmul prec emax fpy fqx))) (IZR (2 * (px * qy - py * qx))).
Proof.
  destruct small_b2 as (E1 & E2 & E3).
  split; [|split].
  - apply int_add; [now apply rep_sq..|]. apply (bound_lt _ 8); [lia|]. now left.
  - apply int_add; [now apply rep_sq..|]. apply (bound_lt _ 8); [lia|]. now left.
  - apply int_mul; [auto|apply int_sub; [now apply rep_sq..|]|]; [|apply (bound_lt _ 16); [lia|now left]].
    apply (bound_lt _ 8); [lia|]. left. replace (8 * (G * G))%Z with (4 * (G * G) + 4 * (G * G))%Z by ring. apply small_two; apply small_sq; auto.
Qed.

Lemma rep_cube x y p q : repR x (IZR p) -> repR y (IZR q) -> (Z.abs p <= 2 * G)%Z -> (Z.abs q <= 8 * (G * G))%Z ->
  repR (SFmul prec emax x y) (IZR (p * q)).
Proof. intros. apply int_mul; auto. apply (bound_lt _ 16); [lia|]. right. now apply small_cube. Qed.

Lemma rep_n :
  let fb2 := SFadd prec emax (SFmul prec emax fpx fpx) (SFmul prec emax fpy fpy) in
  let fc2 := SFadd prec emax (SFmul prec emax fqx fqx) (SFmul prec emax fqy fqy) in
  repR (SFsub prec emax (SFmul prec emax fqy fb2) (SFmul prec emax fpy fc2)) (IZR (qy * (px * px + py * py) - py * (qx * qx + qy * qy))) /\
  repR (SFsub prec emax (SFmul prec emax fpx fc2) (SFmul prec emax fqx fb2)) (IZR (px * (qx * qx + qy * qy) - qx * (px * px + py * py))).
Proof.
  intros fb2 fc2. destruct small_b2 as (E & F & _). destruct rep_b2 as (RE & RF & _). destruct small_n as (N1 & N2).
  split; (apply int_sub; [now apply rep_cube..|]); (apply (bound_lt _ 32); [lia|]); now right.
Qed.
End Ints.

(** ** The distance from the center, compared with the radius *)
Section Compare.
Variable G : Z.
Hypothesis G1 : (1 <= G <= 2 ^ 14)%Z.
Notation M := (IZR G).
Variables d nx ny : Z.
Hypothesis Hd : (2 <= Z.abs d)%Z.
Hypotheses (N1 : (Z.abs nx <= 32 * (G * G * G))%Z) (N2 : (Z.abs ny <= 32 * (G * G * G))%Z).
Variables fd fnx fny : spec_float.
Hypotheses (Rd : repR fd (IZR d)) (Rnx : repR fnx (IZR nx)) (Rny : repR fny (IZR ny)).
Notation fux := (SFdiv prec emax fnx fd).
Notation fuy := (SFdiv prec emax fny fd).
Let ux := IZR nx / IZR d.
Let uy := IZR ny / IZR d.
Let r := sqrt (ux * ux + uy * uy).
Let S := r + M.

Lemma M1 : 1 <= M <= IZR (2 ^ 14).
Proof. split; apply IZR_le; lia. Qed.

Lemma quot_small n : (Z.abs n <= 32 * (G * G * G))%Z -> Rabs (IZR n / IZR d) <= IZR (2 ^ 46).
Proof.
  intros H. unfold Rdiv. rewrite Rabs_mult, Rabs_inv, <- !abs_IZR.
  assert (D2 : 2 <= IZR (Z.abs d)) by (apply IZR_le; exact Hd).
  assert (NB : IZR (Z.abs n) <= 2 * IZR (2 ^ 46)).
  { rewrite <- mult_IZR. apply IZR_le. eapply Z.le_trans; [exact H|]. clear - G1.
    assert (G * G <= 2 ^ 28)%Z by (change (2 ^ 28)%Z with (2 ^ 14 * 2 ^ 14)%Z; apply Z.mul_le_mono_nonneg; lia).
    assert (G * G * G <= 2 ^ 42)%Z by (change (2 ^ 42)%Z with (2 ^ 28 * 2 ^ 14)%Z; apply Z.mul_le_mono_nonneg; lia).
    change (2 * 2 ^ 46)%Z with (32 * 2 ^ 42)%Z. lia. }
  apply Rmult_le_reg_r with (IZR (Z.abs d)); [lra|]. rewrite Rmult_assoc, Rinv_l by lra.
  assert (0 <= IZR (2 ^ 46)) by (apply IZR_le; discriminate). nra.
Qed.

Lemma r_facts : 0 <= r /\ r * r = ux * ux + uy * uy /\ Rabs ux <= r /\ Rabs uy <= r.
Proof.
  assert (P0 : 0 <= ux * ux + uy * uy) by nra.
  assert (K : r * r = ux * ux + uy * uy) by (unfold r; now rewrite sqrt_sqrt).
  assert (R0 : 0 <= r) by apply sqrt_pos. split; auto. split; auto.
  split; apply Rsqr_incr_0_var; auto; unfold Rsqr; rewrite <- Rabs_mult, Rabs_pos_eq; nra.
Qed.

Lemma S_range : 1 <= S <= IZR (2 ^ 48).
Proof.
  destruct r_facts as (R0 & Rr & _). pose proof M1 as (M1 & M2). split; [unfold S; lra|].
  pose proof (quot_small _ N1) as Q1. pose proof (quot_small _ N2) as Q2. fold ux in Q1. fold uy in Q2.
  assert (r <= IZR (2 ^ 47)).
  { apply Rsqr_incr_0_var; [|apply IZR_le; discriminate]. unfold Rsqr. rewrite Rr.
    assert (K : forall t, Rabs t <= IZR (2 ^ 46) -> t * t <= IZR (2 ^ 46) * IZR (2 ^ 46)).
    { intros t Ht. replace (t * t) with (Rabs t * Rabs t) by (rewrite <- Rabs_mult; apply Rabs_pos_eq; nra).
      apply Rmult_le_compat; auto using Rabs_pos. }
    apply K in Q1. apply K in Q2.
    assert (IZR (2 ^ 46) * IZR (2 ^ 46) + IZR (2 ^ 46) * IZR (2 ^ 46) <= IZR (2 ^ 47) * IZR (2 ^ 47)).
    { rewrite <- !mult_IZR, <- plus_IZR. apply IZR_le. discriminate. }
    lra. }
  assert (IZR (2 ^ 47) + IZR (2 ^ 14) <= IZR (2 ^ 48)) by (rewrite <- plus_IZR; apply IZR_le; discriminate).
  unfold S. lra.
Qed.

Lemma rn_u : rn fux (u * r + eta) ux r /\ rn fuy (u * r + eta) uy r.
Proof.
  destruct r_facts as (R0 & Rr & A & B).
  pose proof (quot_small _ N1) as Q1. pose proof (quot_small _ N2) as Q2.
  assert (Dz : IZR d <> 0) by (apply IZR_neq; clear - Hd; lia).
  assert (Lm : IZR (2 ^ 46) <= lim) by (change lim with (IZR (2 ^ 100)); apply IZR_le; discriminate).
  replace (u * r + eta) with (0 + u * r + eta) by ring.
  assert (Z0 : forall t, Rabs (t - t) <= 0) by (intros t; replace (t - t) with 0 by ring; rewrite Rabs_R0; lra).
  split.
  - apply (rn_round prec emax Hp He _ ux ux 0 r r); auto. apply (op_div prec emax P L Hp He); auto; lra.
  - apply (rn_round prec emax Hp He _ uy uy 0 r r); auto. apply (op_div prec emax P L Hp He); auto; lra.
Qed.

Lemma rn_exact x z : repR x (IZR z) -> (Z.abs z <= G)%Z -> rn x 0 (IZR z) M.
Proof.
  intros H K. exists (IZR z). split; auto. split; [replace (_ - _) with 0 by ring; rewrite Rabs_R0; lra|].
  rewrite <- abs_IZR. now apply IZR_le.
Qed.

(** Distances of the coordinates of [v] from those of the computed center. *)
Lemma rn_diff fu uu fa za fv zv : rn fu (u * r + eta) uu r -> repR fa (IZR za) -> (Z.abs za <= G)%Z -> repR fv (IZR zv) -> (Z.abs zv <= G)%Z ->
  rn (SFsub prec emax fv (SFadd prec emax fu fa)) (5 * u * S) (IZR zv - (uu + IZR za)) (2 * S).
Proof.
  intros Hu Ha Ka Hv Kv. destruct r_facts as (R0 & _). destruct S_range as (S1 & S2). pose proof M1 as (M1 & M2).
  pose proof (u_pos3 prec Hp) as U. pose proof (u_small prec Hp) as U'. pose proof (S_eta S S1) as Es. pose proof eta_pos as Ep.
  assert (Rs : r <= S /\ M <= S) by (unfold S; lra). destruct Rs as (Rs & Ms).
  assert (Ur : u * r <= u * S) by (apply Rmult_le_compat_l; lra).
  assert (Us : 0 < u * S <= / 16777216 * S) by (split; [nra|apply Rmult_le_compat_r; lra]).
  assert (Sl : 4 * S <= lim).
  { change lim with (IZR (2 ^ 100)). apply Rle_trans with (4 * IZR (2 ^ 48)); [lra|]. rewrite <- mult_IZR. apply IZR_le. discriminate. }
  assert (Se : r + M = S) by reflexivity.
  pose proof (rn_add prec emax P L Hp He _ _ _ _ _ _ _ _ Hu (rn_exact _ _ Ha Ka) ltac:(lra)) as A.
  rewrite Se in A.
  apply (rn_weaken _ _ _ _ (21 / 10 * (u * S))) in A.
  - pose proof (rn_sub prec emax P L Hp He _ _ _ _ _ _ _ _ (rn_exact _ _ Hv Kv) A ltac:(lra)) as B.
    apply (rn_grow _ _ _ _ _ _ (2 * S)) in B; [|lra]. eapply rn_weaken; [exact B|].
    assert (u * (M + 0 + (S + 21 / 10 * (u * S))) <= u * (21 / 10 * S)) by (apply Rmult_le_compat_l; lra). nra.
  - assert (u * (r + (u * r + eta) + (M + 0)) <= u * (101 / 100 * S)) by (apply Rmult_le_compat_l; lra). nra.
Qed.

Variables ax ay vx vy : Z.
Hypotheses (Hax : (Z.abs ax <= G)%Z) (Hay : (Z.abs ay <= G)%Z) (Hvx : (Z.abs vx <= G)%Z) (Hvy : (Z.abs vy <= G)%Z).
Variables fax fay fvx fvy : spec_float.
Hypotheses (Rax : repR fax (IZR ax)) (Ray : repR fay (IZR ay)) (Rvx : repR fvx (IZR vx)) (Rvy : repR fvy (IZR vy)).

Lemma compare_ok (o := (ux + IZR ax, uy + IZR ay)) (a := (IZR ax, IZR ay)) (v := (IZR vx, IZR vy)) :
  256 * u * (rsqdist o a + M * M) <= Rabs (rsqdist o v - rsqdist o a) ->
  (SFltb (SFsqrt prec emax (SFadd prec emax
      (SFmul prec emax (SFsub prec emax fvx (SFadd prec emax fux fax)) (SFsub prec emax fvx (SFadd prec emax fux fax)))
      (SFmul prec emax (SFsub prec emax fvy (SFadd prec emax fuy fay)) (SFsub prec emax fvy (SFadd prec emax fuy fay)))))
    (SFsqrt prec emax (SFadd prec emax (SFmul prec emax fux fux) (SFmul prec emax fuy fuy))) = true
   <-> rsqdist o v < rsqdist o a).
Proof.
  intros Clear.
  destruct r_facts as (R0 & Rr & Ax & Ay). destruct S_range as (S1 & S2). pose proof M1 as (M1 & M2).
  pose proof (u_pos3 prec Hp) as U. pose proof (u_small prec Hp) as U'. pose proof (S_eta S S1) as Es. pose proof eta_pos as Ep.
  destruct rn_u as (Ux & Uy).
  pose proof (rn_diff _ _ _ _ _ _ Ux Rax Hax Rvx Hvx) as Dx. pose proof (rn_diff _ _ _ _ _ _ Uy Ray Hay Rvy Hvy) as Dy.
  assert (Rs : r <= S /\ M <= S) by (unfold S; lra). destruct Rs as (Rs & Ms).
  assert (Ur : u * r <= u * S) by (apply Rmult_le_compat_l; lra).
  assert (Ux' : rn fux (2 * u * S) ux (1 * S)) by (eapply rn_weaken; [eapply rn_grow; [exact Ux|lra]|lra]).
  assert (Uy' : rn fuy (2 * u * S) uy (1 * S)) by (eapply rn_weaken; [eapply rn_grow; [exact Uy|lra]|lra]).
  pose proof (rn_norm S S1 S2 _ _ 2 1 _ _ ltac:(lra) ltac:(lra) Ux' Uy') as Nr.
  pose proof (rn_norm S S1 S2 _ _ 5 2 _ _ ltac:(lra) ltac:(lra) Dx Dy) as Nd.
  destruct Nr as (p & P1 & P2 & P3), Nd as (q & Q1 & Q2 & Q3).
  assert (Pp : 0 <= p) by (apply (norm_pos S S1 S2 _ _ 2 1 _ _ _ ltac:(lra) ltac:(lra) Ux' Uy' P1)).
  assert (Qp : 0 <= q) by (apply (norm_pos S S1 S2 _ _ 5 2 _ _ _ ltac:(lra) ltac:(lra) Dx Dy Q1)).
  assert (Ea : rsqdist o a = r * r) by (rewrite Rr; unfold rsqdist, o, a; simpl; ring).
  assert (Ev : rsqdist o v = (IZR vx - (ux + IZR ax)) * (IZR vx - (ux + IZR ax)) + (IZR vy - (uy + IZR ay)) * (IZR vy - (uy + IZR ay)))
    by (unfold rsqdist, o, v; simpl; ring).
  rewrite <- Ev in Q2. rewrite <- Rr, <- Ea in P2. set (D := rsqdist o v) in *. set (A := rsqdist o a) in *.
  assert (T0 : 0 < S * S) by nra. set (T := S * S) in *.
  assert (At : A <= T) by (rewrite Ea; unfold T; apply Rmult_le_compat; auto).
  assert (Mt : T <= 2 * (A + M * M)) by (pose proof (Rle_0_sqr (r - M)) as Sq; unfold Rsqr in Sq; unfold T, S; rewrite Ea; lra).
  assert (UT : 0 < u * T <= / 16777216 * T) by (split; [apply Rmult_lt_0_compat; lra|apply Rmult_le_compat_r; lra]).
  assert (Gap : 128 * (u * T) <= Rabs (D - A)).
  { eapply Rle_trans; [|exact Clear]. assert (u * T <= u * (2 * (A + M * M))) by (apply Rmult_le_compat_l; lra). lra. }
  apply Rabs_le_inv in P2. apply Rabs_le_inv in Q2.
  rewrite (sqrt_cmp S S1 S2 _ _ _ _ P1 Q1 ltac:(fold T; lra) Qp).
  - unfold Rabs in Gap. destruct (Rcase_abs (D - A)); split; intros; lra.
  - fold T. unfold Rabs in Gap. destruct (Rcase_abs (D - A)); intros; lra.
Qed.
End Compare.
End SF.
