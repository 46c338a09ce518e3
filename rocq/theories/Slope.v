(** * Slope: the margin tests of src/utils.rs:95-119 on any finite number, and [line_slope]. *)

From Coq Require Import ZArith NArith List Bool Lia QArith Qabs Lqa Reals Qreals SpecFloat.
From Flocq Require Import Core BinarySingleNaN.
From Verif Require Import Base Arith Utils F64 QEnv QExact Rep SFRep GridSpec GridNum Spec.
Local Open Scope Z_scope.

Section Fmt.
Variables prec emax : Z.
Context (prec_gt_0_ : Prec_gt_0 prec) (prec_lt_emax_ : Prec_lt_emax prec emax).
Hypothesis Hprec : 24 <= prec.
Hypothesis Hemax : 128 <= emax.
Variable maxid : N.
Let E := sf_env prec emax maxid.
Variable ep : Q.
Hypothesis Hep : sf_is prec emax (@feps E) ep.

Lemma margins (x : spec_float) q : sf_is prec emax x q ->
  ((is_strictly_on_left_side (E := E) x = true <-> ep < q) /\
   (is_strictly_on_right_side (E := E) x = true <-> q < - ep) /\
   (is_near_edge (E := E) x = true <-> - ep < q /\ q < ep))%Q.
Proof.
  intros H. apply sf_is_rep in H. pose proof (proj1 (sf_is_rep _ _ _ _) Hep) as He.
  split; [|split].
  - exact (rep_lt _ _ _ _ _ _ He H).
  - exact (rep_lt _ _ _ _ _ _ H (rep_neg _ _ _ _ He)).
  - change (is_near_edge (E := E) x) with (SFltb (SFabs x) (@feps E)).
    rewrite (rep_lt _ _ _ _ _ _ (rep_abs _ _ _ _ H) He). apply Qabs_Qlt_condition.
Qed.

Lemma sub_int x y a b : sf_is prec emax x (inject_Z a) -> sf_is prec emax y (inject_Z b) ->
  Z.abs (a - b) <= 2 ^ 23 -> sf_is prec emax (SFsub prec emax x y) (inject_Z (a - b)).
Proof.
  intros A B K. apply sf_is_rep in A, B. apply sf_is_rep.
  assert (Q1 : (inject_Z a - inject_Z b == inject_Z (a - b))%Q).
  { unfold Z.sub. rewrite inject_Z_plus, inject_Z_opp. reflexivity. }
  destruct (sub_val _ _ _ _ Hprec Hemax _ _ _ _ A B) as (d & <- & F & V).
  - rewrite Q1. change (Qabs (inject_Z (a - b))) with (inject_Z (Z.abs (a - b))). unfold big. rewrite <- Zle_Qle. lia.
  - exists d. split; auto. split; auto. rewrite V, (Qeq_eqR _ _ Q1). apply round_generic; auto with typeclass_instances.
    replace (inject_Z (a - b)) with (dyadic (a - b) 0) by (unfold dyadic; simpl; f_equal; apply Z.mul_1_r).
    rewrite dyadic_R. apply repr_dyadic; auto.
    + apply Z.le_lt_trans with (2 ^ 23); auto. apply Z.pow_lt_mono_r; lia.
    + unfold SpecFloat.emin; lia.
Qed.

Lemma slope_float xa ya xb yb a1 a2 b1 b2 :
  sf_is prec emax xa (inject_Z a1) -> sf_is prec emax ya (inject_Z a2) ->
  sf_is prec emax xb (inject_Z b1) -> sf_is prec emax yb (inject_Z b2) ->
  Z.abs (b1 - a1) <= 2 ^ 23 -> Z.abs (b2 - a2) <= 2 ^ 23 -> b1 <> a1 ->
  let s := (inject_Z (b2 - a2) / inject_Z (b1 - a1))%Q in
  exists r, sf_is prec emax (line_slope (E := E) (xa, ya) (xb, yb)) r /\
    forall z t, sf_is prec emax z t -> ((t <= s -> t <= r) /\ (s <= t -> r <= t))%Q.
Proof.
  intros A1 A2 B1 B2 K1 K2 N s.
  pose proof (proj1 (sf_is_rep _ _ _ _) (sub_int _ _ _ _ B2 A2 K2)) as (ny & Ey & Fy & Vy).
  pose proof (proj1 (sf_is_rep _ _ _ _) (sub_int _ _ _ _ B1 A1 K1)) as (nx & Ex & Fx & Vx).
  change (line_slope (E := E) (xa, ya) (xb, yb)) with (SFdiv prec emax (SFsub prec emax yb ya) (SFsub prec emax xb xa)).
  rewrite <- Ey, <- Ex, (div_equiv prec emax prec_gt_0_ prec_lt_emax_).
  assert (Nq : ~ (inject_Z (b1 - a1) == 0)%Q).
  { intros H. unfold Qeq in H. cbn [inject_Z Qnum Qden] in H. rewrite Z.mul_1_r in H. apply N. apply Z.sub_move_0_r. exact H. }
  assert (Nr : B2R nx <> 0%R).
  { rewrite Vx. intros H. apply Nq. apply eqR_Qeq. rewrite H. now rewrite RMicromega.Q2R_0. }
  pose proof (Bdiv_correct prec emax prec_gt_0_ prec_lt_emax_ mode_NE ny nx Nr) as C.
  rewrite Vx, Vy in C. rewrite <- Q2R_div in C by auto. fold s in C.
  assert (Bs : (Qabs s <= big)%Q).
  { unfold s, Qdiv. rewrite Qabs_Qmult.
    assert (H1 : (Qabs (/ inject_Z (b1 - a1)) <= 1)%Q).
    { destruct (b1 - a1) as [|p|p] eqn:D; [lia| |]; unfold Qabs, Qinv, inject_Z; cbn; unfold Qle; cbn; lia. }
    apply Qle_trans with (Qabs (inject_Z (b2 - a2)) * 1)%Q.
    - rewrite (Qmult_comm (Qabs (inject_Z _))), (Qmult_comm (Qabs (inject_Z _))). apply Qmult_le_compat_r; auto. apply Qabs_nonneg.
    - rewrite Qmult_1_r. change (Qabs (inject_Z (b2 - a2))) with (inject_Z (Z.abs (b2 - a2))). unfold big. rewrite <- Zle_Qle. lia. }
  rewrite (no_overflow prec emax prec_gt_0_ Hprec Hemax _ (abs_big_R _ Bs)) in C. destruct C as (C1 & C2 & _). rewrite Fy in C2.
  destruct (op_result prec emax prec_gt_0_ _ s C2 C1) as (r & R1 & R2). exists r. split; [now apply sf_is_rep|].
  intros z t Hz. apply sf_is_rep in Hz. destruct Hz as (b & _ & _ & Vb). apply (R2 t).
  unfold reprF. rewrite <- Vb. apply generic_format_B2R.
Qed.
End Fmt.

Lemma margins_numbers E val bound (x : @F E) q e : numbers E val bound -> val x q -> val feps e ->
  ((is_strictly_on_left_side x = true <-> e < q) /\
   (is_strictly_on_right_side x = true <-> q < - e) /\
   (is_near_edge x = true <-> - e < q /\ q < e))%Q.
Proof.
  intros Nu. destruct Nu as [maxid|maxid|maxid]; intros Hx He.
  - unfold is_strictly_on_left_side, is_strictly_on_right_side, is_near_edge. cbn in *.
    rewrite !qlt_iff, Hx, He. split; [reflexivity|]. split; [reflexivity|]. apply Qabs_Qlt_condition.
  - exact (margins 53 1024 maxid e He x q Hx).
  - exact (margins 24 128 maxid e He x q Hx).
Qed.

Lemma slope_numbers E val bound (a b : @vertex E) (p q : Z * Z) : numbers E val bound ->
  vertex_is val a (inject_Z (fst p), inject_Z (snd p)) -> vertex_is val b (inject_Z (fst q), inject_Z (snd q)) ->
  Z.abs (fst q - fst p) <= 2 ^ 23 -> Z.abs (snd q - snd p) <= 2 ^ 23 -> fst q <> fst p ->
  exists r, val (line_slope a b) r /\
    forall z t, val z t -> ((t * inject_Z (fst q - fst p) == inject_Z (snd q - snd p) -> r == t) /\
      (t <= inject_Z (snd q - snd p) / inject_Z (fst q - fst p) -> t <= r) /\
      (inject_Z (snd q - snd p) / inject_Z (fst q - fst p) <= t -> r <= t))%Q.
Proof.
  intros Nu. destruct p as (p1, p2), q as (q1, q2). cbn [fst snd].
  assert (X : q1 <> p1 -> forall r t : Q, let s := (inject_Z (q2 - p2) / inject_Z (q1 - p1))%Q in
    ((t <= s -> t <= r) -> (s <= t -> r <= t) -> t * inject_Z (q1 - p1) == inject_Z (q2 - p2) -> r == t)%Q).
  { intros N r t s L1 L2 K.
    assert (S : (s == t)%Q).
    { unfold s. rewrite <- K. field. intros H. unfold Qeq in H. cbn [inject_Z Qnum Qden] in H. rewrite Z.mul_1_r in H.
      apply N. now apply Z.sub_move_0_r. }
    apply Qle_antisym; [apply L2|apply L1]; rewrite S; apply Qle_refl. }
  destruct Nu as [maxid|maxid|maxid]; destruct a as (xa, ya), b as (xb, yb); intros (A1 & A2) (B1 & B2) K1 K2 N.
  - exists (inject_Z (q2 - p2) / inject_Z (q1 - p1))%Q. split.
    + change (Qred (Qred (yb - ya) / Qred (xb - xa)) == inject_Z (q2 - p2) / inject_Z (q1 - p1))%Q.
      change (xa == inject_Z p1)%Q in A1. change (ya == inject_Z p2)%Q in A2. change (xb == inject_Z q1)%Q in B1. change (yb == inject_Z q2)%Q in B2.
      rewrite !Qred_correct, A1, A2, B1, B2. unfold Z.sub. rewrite !inject_Z_plus, !inject_Z_opp. reflexivity.
    + intros z t _. split; [|split; auto]. apply X; auto.
  - destruct (slope_float 53 1024 ltac:(reflexivity) ltac:(reflexivity) ltac:(lia) ltac:(lia) maxid _ _ _ _ _ _ _ _ A1 A2 B1 B2 K1 K2 N) as (r & R1 & R2).
    exists r. split; [exact R1|]. intros z t Hz. destruct (R2 z t Hz) as (L1 & L2). split; [now apply X|]. split; auto.
  - destruct (slope_float 24 128 ltac:(reflexivity) ltac:(reflexivity) ltac:(lia) ltac:(lia) maxid _ _ _ _ _ _ _ _ A1 A2 B1 B2 K1 K2 N) as (r & R1 & R2).
    exists r. split; [exact R1|]. intros z t Hz. destruct (R2 z t Hz) as (L1 & L2). split; [now apply X|]. split; auto.
Qed.
