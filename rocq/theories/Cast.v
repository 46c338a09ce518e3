(** * Cast: conversions between f32 and f64. *)

From Coq Require Import ZArith NArith List Bool Lia QArith Qabs Lqa Qreals Reals Lra SpecFloat.
From Flocq Require Import Core.Core IEEE754.BinarySingleNaN.
From Verif Require Import Base Arith Rep F64 SFRep Grid64 GridSpec GridNum Types Triangulation Constrained Input2d SpecCast.
Import ListNotations.
Local Open Scope Z_scope.

Section Cast.
Variables p1 e1 p2 e2 : Z.
Context (G1 : Prec_gt_0 p1) (L1 : Prec_lt_emax p1 e1) (G2 : Prec_gt_0 p2) (L2 : Prec_lt_emax p2 e2).
Notation rnd := (round radix2 (SpecFloat.fexp p2 e2) (round_mode mode_NE)).
Local Instance fexp2_ok : Valid_exp (SpecFloat.fexp p2 e2) := fexp_correct p2 e2 G2.

(** The conversion of a finite number. *)
Lemma cast_round x q : sf_is p1 e1 x q ->
  (Rlt_bool (Rabs (rnd (Q2R q))) (bpow radix2 e2) = true /\
   exists r, repF p2 e2 (sf_cast p2 e2 x) r /\ Q2R r = rnd (Q2R q)) \/
  (Rlt_bool (Rabs (rnd (Q2R q))) (bpow radix2 e2) = false /\
   exists s, sf_cast p2 e2 x = S754_infinity s /\ (if s then q < 0 else 0 < q)%Q).
Proof.
  intros H. apply sf_is_rep in H. destruct H as (b & <- & F & V).
  destruct b as [s|s| |s m e Hb]; try discriminate.
  - left. cbn [B2SF sf_cast]. cbn in V. rewrite <- V. rewrite round_0 by auto with typeclass_instances. rewrite Rabs_R0. split.
    + apply Rlt_bool_true. apply bpow_gt_0.
    + exists 0%Q. split; [|apply RMicromega.Q2R_0]. exists (B754_zero s). split; [reflexivity|]. split; [reflexivity|].
      cbn. symmetry. apply RMicromega.Q2R_0.
  - cbn [B2SF sf_cast]. rewrite (br_equiv p2 e2).
    destruct (binary_round_correct p2 e2 G2 L2 mode_NE s m e) as (W & C). cbv zeta in C.
    cbn [B2R] in V. rewrite V in C.
    destruct (Rlt_bool (Rabs (rnd (Q2R q))) (bpow radix2 e2)).
    + left. split; auto. destruct C as (C1 & C2 & _).
      set (b := SF2B _ W). assert (Fb : BinarySingleNaN.is_finite b = true) by (unfold b; now rewrite is_finite_SF2B).
      destruct (fin_rep p2 e2 b Fb) as (r & Hr & Er). exists r. unfold b in *. rewrite B2SF_SF2B in Hr. split; auto.
      rewrite Er, B2R_SF2B. exact C1.
    + right. split; auto. exists s. split; [exact C|].
      assert (P : (Q2R q = (if s then -1 else 1) * F2R (Float radix2 (Zpos m) e))%R).
      { rewrite <- V. unfold F2R. cbn [Fnum Fexp]. destruct s; cbn [cond_Zopp]; [rewrite opp_IZR|]; ring. }
      assert (Pm : (0 < F2R (Float radix2 (Zpos m) e))%R) by (apply F2R_gt_0; cbn; lia).
      destruct s; apply Rlt_Qlt; rewrite RMicromega.Q2R_0, P; lra.
Qed.

Lemma fmt2 z t : sf_is p2 e2 z t -> generic_format radix2 (SpecFloat.fexp p2 e2) (Q2R t) /\ (Rabs (Q2R t) < bpow radix2 e2)%R.
Proof.
  intros H. apply sf_is_rep in H. destruct H as (b & _ & _ & <-). split; [apply generic_format_B2R|].
  apply abs_B2R_lt_emax.
Qed.

Lemma cast_nearest x : valid_binary p1 e1 x = true -> nearest_number p1 e1 p2 e2 x (sf_cast p2 e2 x).
Proof.
  intros Vx. destruct (sf_is_finite x) eqn:Fx.
  - assert (H : sf_is p1 e1 x (sf_value x)) by (split; [exact Vx|split; [exact Fx|reflexivity]]).
    set (q := sf_value x) in *. destruct (cast_round x q H) as [(B & r & Hr & Er)|(B & s & Hs & Sg)].
    + left. exists q, r. split; auto. split; [now apply sf_is_rep|]. intros z t Hz.
      destruct (fmt2 z t Hz) as (Fz & _). apply Rle_Qle. rewrite !abs_Q2R, !Q2R_minus, Er.
      destruct (round_N_pt radix2 (SpecFloat.fexp p2 e2) (fun x => negb (Z.even x)) (Q2R q)) as (_ & K).
      specialize (K (Q2R t) Fz). rewrite (Rabs_minus_sym (Q2R q)), (Rabs_minus_sym (Q2R q) (Q2R t)). exact K.
    + right; left. exists q, s. split; auto. split; auto. split; auto. intros z t Hz.
      destruct (fmt2 z t Hz) as (Fz & Bz). apply Rlt_Qlt. rewrite !abs_Q2R.
      destruct (Rlt_or_le (Rabs (Q2R t)) (Rabs (Q2R q))) as [K|K]; auto. exfalso.
      rewrite Rlt_bool_true in B; [discriminate|].
      apply Rle_lt_trans with (Rabs (Q2R t)); auto. apply abs_round_le_generic; auto with typeclass_instances.
      now apply generic_format_abs.
  - right; right. destruct x; try discriminate; cbn; eauto.
Qed.

(** A number of the second format is not changed. *)
Lemma cast_exact x y q : sf_is p1 e1 x q -> sf_is p2 e2 y q -> sf_is p2 e2 (sf_cast p2 e2 x) q.
Proof.
  intros H K. destruct (fmt2 y q K) as (Fq & Bq).
  destruct (cast_round x q H) as [(B & r & Hr & Er)|(B & _)].
  - rewrite round_generic in Er by auto with typeclass_instances. apply sf_is_rep.
    apply (rep_compat _ _ _ _ _ Hr). now apply eqR_Qeq.
  - rewrite round_generic in B by auto with typeclass_instances. rewrite Rlt_bool_true in B by auto. discriminate.
Qed.

(** A larger format holds all numbers of a smaller one. *)
Lemma cast_wider x : p1 <= p2 -> e1 <= e2 -> SpecFloat.emin p2 e2 <= SpecFloat.emin p1 e1 ->
  valid_binary p1 e1 x = true -> same_number p1 e1 p2 e2 x (sf_cast p2 e2 x).
Proof.
  intros Hp He Hm Vx. destruct (sf_is_finite x) eqn:Fx.
  - left. exists (sf_value x).
    assert (H : sf_is p1 e1 x (sf_value x)) by (split; [exact Vx|split; [exact Fx|reflexivity]]).
    set (q := sf_value x) in *. split; auto.
    assert (Fq : generic_format radix2 (SpecFloat.fexp p2 e2) (Q2R q) /\ (Rabs (Q2R q) < bpow radix2 e2)%R).
    { apply sf_is_rep in H. destruct H as (b & _ & _ & <-). split.
      - pose proof (generic_format_B2R p1 e1 b) as Fb. apply (FLT_format_generic radix2 (SpecFloat.emin p1 e1) p1) in Fb.
        destruct Fb as [f A1 A2 A3]. apply (generic_format_FLT radix2 (SpecFloat.emin p2 e2) p2). exists f; [exact A1| |unfold SpecFloat.emin in *; lia].
        apply Z.lt_le_trans with (2 ^ p1); auto. apply Z.pow_le_mono_r; [reflexivity|exact Hp].
      - apply Rlt_le_trans with (bpow radix2 e1); [apply abs_B2R_lt_emax|]. now apply bpow_le. }
    destruct Fq as (Fq & Bq). destruct (cast_round x q H) as [(B & r & Hr & Er)|(B & _)].
    + rewrite round_generic in Er by auto with typeclass_instances. apply sf_is_rep.
      apply (rep_compat _ _ _ _ _ Hr). now apply eqR_Qeq.
    + rewrite round_generic in B by auto with typeclass_instances. rewrite Rlt_bool_true in B by auto. discriminate.
  - right. destruct x; try discriminate; cbn; eauto.
Qed.
End Cast.

Local Instance p53 : Prec_gt_0 53. Proof. reflexivity. Qed.
Local Instance l53 : Prec_lt_emax 53 1024. Proof. reflexivity. Qed.
Local Instance p24 : Prec_gt_0 24. Proof. reflexivity. Qed.
Local Instance l24 : Prec_lt_emax 24 128. Proof. reflexivity. Qed.

Lemma cast_id p e : Prec_gt_0 p -> Prec_lt_emax p e -> forall x, valid_binary p e x = true -> sf_cast p e x = x.
Proof.
  intros G L x V. destruct x as [s|s| |s m ex]; try reflexivity. cbn [sf_cast].
  rewrite (br_equiv p e). destruct (binary_round_correct p e G L mode_NE s m ex) as (W & C). cbv zeta in C.
  set (b := SF2B _ V : binary_float p e).
  assert (Vb : B2R b = F2R (Float radix2 (cond_Zopp s (Zpos m)) ex)) by (unfold b; rewrite B2R_SF2B; reflexivity).
  rewrite <- Vb in C.
  assert (Gb : generic_format radix2 (SpecFloat.fexp p e) (B2R b)) by apply generic_format_B2R.
  assert (Ve : Valid_exp (SpecFloat.fexp p e)) by (apply fexp_correct; auto).
  rewrite round_generic in C by auto with typeclass_instances.
  rewrite Rlt_bool_true in C by apply abs_B2R_lt_emax. destruct C as (C1 & C2 & C3).
  set (z := SF2B _ W : binary_float p e).
  assert (Z : z = b).
  { apply B2R_Bsign_inj.
    - unfold z. now rewrite is_finite_SF2B.
    - reflexivity.
    - unfold z. now rewrite B2R_SF2B.
    - unfold z. rewrite Bsign_SF2B, C3. reflexivity. }
  apply (f_equal B2SF) in Z. unfold z, b in Z. rewrite !B2SF_SF2B in Z. exact Z.
Qed.

Lemma map_Forall2 {A B} (r : A -> B -> Prop) (f : A -> B) l : (forall x, In x l -> r x (f x)) -> Forall2 r l (map f l).
Proof. induction l; cbn; intros H; constructor; auto. Qed.

Definition read_as (p e : Z) : spec_float * spec_float -> spec_float * spec_float :=
  fun v => (sf_cast p e (fst v), sf_cast p e (snd v)).

Lemma widen vs : floats 24 128 vs -> Forall2 (both (same_number 24 128 53 1024)) vs (map (read_as 53 1024) vs).
Proof.
  intros H. apply map_Forall2. intros v Hv. destruct (H v Hv). split; apply cast_wider; auto with typeclass_instances; try discriminate.
Qed.

Lemma narrow vs : floats 53 1024 vs -> Forall2 (both (nearest_number 53 1024 24 128)) vs (map (read_as 24 128) vs).
Proof.
  intros H. apply map_Forall2. intros v Hv. destruct (H v Hv). split; apply cast_nearest; auto with typeclass_instances.
Qed.

Lemma read_id p e : Prec_gt_0 p -> Prec_lt_emax p e -> forall vs, floats p e vs -> map (read_as p e) vs = vs.
Proof.
  intros G L vs H. rewrite <- (map_id vs) at 2. apply map_ext_in. intros (x & y) Hv. destruct (H _ Hv). unfold read_as. cbn [fst snd] in *.
  now rewrite !cast_id.
Qed.

(** ** Vertices of the same values *)
Definition like {E : Env} (x y : F) : Prop :=
  x = y \/ ((x = f0 \/ x = fneg f0) /\ (y = f0 \/ y = fneg f0)).

Lemma same_like maxid p1 e1 p2 e2 : Prec_gt_0 p1 -> Prec_lt_emax p1 e1 -> Prec_gt_0 p2 -> Prec_lt_emax p2 e2 ->
  forall x y, same_number p1 e1 p2 e2 x y -> like (E := sf_env p2 e2 maxid) (sf_cast p2 e2 x) y.
Proof.
  intros G1 L1 G2 L2 x y S. destruct S as [(q & A & B)|[(s & -> & ->)|(-> & ->)]]; try (left; reflexivity).
  pose proof (cast_exact p1 e1 p2 e2 G2 L2 x y q A B) as C. apply sf_is_rep in B, C.
  destruct B as (b & <- & Fb & Vb). destruct C as (c & Ec & Fc & Vc). rewrite <- Ec.
  destruct b as [s|s| |s m e Hb]; try discriminate.
  - destruct c as [s'|s'| |s' m' e' Hc]; try discriminate.
    + right. cbn. destruct s, s'; auto.
    + exfalso. rewrite <- Vb in Vc. cbn in Vc. revert Vc. unfold F2R. cbn. pose proof (bpow_gt_0 radix2 e').
      destruct s'; cbn; intros K; apply Rmult_integral in K; destruct K as [K|K]; [|lra| |lra]; apply eq_IZR in K; discriminate.
  - left. f_equal. apply B2R_inj; [|reflexivity|now rewrite Vb, Vc].
    destruct c as [s'|s'| |s' m' e' Hc]; try discriminate; try reflexivity. exfalso. rewrite <- Vc in Vb. cbn in Vb. revert Vb.
    unfold F2R. cbn. pose proof (bpow_gt_0 radix2 e).
    destruct s; cbn; intros K; apply Rmult_integral in K; destruct K as [K|K]; [|lra| |lra]; apply eq_IZR in K; discriminate.
Qed.

Lemma F2_trans {A B C} (r : A -> B -> Prop) (s : B -> C -> Prop) (t : A -> C -> Prop) :
  (forall x y z, r x y -> s y z -> t x z) -> forall l1 l2 l3, Forall2 r l1 l2 -> Forall2 s l2 l3 -> Forall2 t l1 l3.
Proof.
  intros H l1 l2 l3 F. revert l3. induction F; intros l3 G; inversion G; subst; constructor; eauto.
Qed.

Lemma F2_map {A B C} (r : B -> C -> Prop) (f : A -> B) l1 l2 : Forall2 (fun x z => r (f x) z) l1 l2 -> Forall2 r (map f l1) l2.
Proof. induction 1; constructor; auto. Qed.
