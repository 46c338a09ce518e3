(** * GridNum: the arithmetics of [GridSpec.v] satisfy the rounding laws of [Rep.v]. *)

From Coq Require Import ZArith NArith List Bool Lia QArith Qabs Lqa Qreals Reals Lra SpecFloat.
From Flocq Require Import Core.Core IEEE754.BinarySingleNaN.
From Verif Require Import Base Arith Rep F64 SFRep Grid64 QEnv QExact GridSpec.
Local Open Scope Z_scope.

Lemma sf_is_rep prec emax x q : sf_is prec emax x q <-> repF prec emax x q.
Proof.
  assert (Vz : forall s m e, Q2R (sf_value (S754_finite s m e)) = F2R (Float radix2 (cond_Zopp s (Zpos m)) e)).
  { intros s m e. rewrite <- dyadic_R. destruct s; reflexivity. }
  unfold sf_is, repF. split.
  - intros (V & Fi & Eq). exists (SF2B x V). split; [apply B2SF_SF2B|]. split.
    + rewrite is_finite_SF2B. now destruct x.
    + rewrite B2R_SF2B. rewrite <- (Qeq_eqR _ _ Eq). destruct x as [s|s| |s m e]; try discriminate; simpl.
      * unfold Q2R; simpl. Lra.lra.
      * symmetry. apply Vz.
  - intros (b & <- & Fi & Rb). split; [apply valid_binary_B2SF|]. split; [now destruct b|].
    apply eqR_Qeq. rewrite <- Rb. destruct b as [s|s| |s m e H]; try discriminate; simpl.
    + unfold Q2R; simpl. Lra.lra.
    + apply Vz.
Qed.


Lemma numbers_rep E val bound : numbers E val bound ->
  exists rep repr pb ep, @Rep E rep repr pb ep /\ bound = 2 ^ (pb - 10) /\ forall x q, val x q <-> rep x q.
Proof.
  destruct 1 as [maxid|maxid|maxid].
  - exists Qeq, any, 50, (1 # 4503599627370496)%Q. split; [apply Q_rep|]. split; [reflexivity|]. reflexivity.
  - exists (repF 53 1024), (reprF 53 1024), 50, eps64. split; [apply f64_rep|]. split; [reflexivity|]. apply sf_is_rep.
  - exists (repF 24 128), (reprF 24 128), 23, eps32. split; [apply f32_rep|]. split; [reflexivity|]. apply sf_is_rep.
Qed.

Lemma grid_rep E val bound side : grid E val bound side ->
  exists rep repr pb ep, @Rep E rep repr pb ep /\ bound = 2 ^ (pb - 10) /\ (forall x q, val x q <-> rep x q) /\
    1 <= side /\ (forall q, G side 4 8 q -> repr q) /\ (forall q, G side 2 64 (8 * q) -> repr q) /\
    (ep <= / inject_Z (side ^ 2))%Q.
Proof.
  destruct 1 as [maxid side Hs|maxid k Hk|maxid k Hk].
  - exists Qeq, any, 50, (1 # 4503599627370496)%Q. split; [apply Q_rep|]. split; [reflexivity|]. split; [reflexivity|].
    split; [lia|]. split; [exact (fun _ _ => I)|]. split; [exact (fun _ _ => I)|].
    assert (L : side ^ 2 <= 2 ^ 52) by (change (2 ^ 52) with ((2 ^ 26) ^ 2); apply Z.pow_le_mono_l; lia).
    assert (P0 : 0 < side ^ 2) by (apply Z.pow_pos_nonneg; lia).
    rewrite Zle_Qle in L. rewrite Zlt_Qlt in P0.
    apply Qle_shift_inv_l; [exact P0|]. change (inject_Z (2 ^ 52)) with (4503599627370496 # 1)%Q in L. Lqa.lra.
  - exists (repF 53 1024), (reprF 53 1024), 50, eps64. split; [apply f64_rep|]. split; [reflexivity|]. split; [apply sf_is_rep|].
    split; [assert (0 < 2 ^ k) by (apply Z.pow_pos_nonneg; lia); lia|]. split; [intros q; now apply f64_repr4|]. split; [intros q; now apply f64_repr2|].
    apply (eps_pow 52); [lia|reflexivity].
  - exists (repF 24 128), (reprF 24 128), 23, eps32. split; [apply f32_rep|]. split; [reflexivity|]. split; [apply sf_is_rep|].
    split; [assert (0 < 2 ^ k) by (apply Z.pow_pos_nonneg; lia); lia|]. split; [intros q; now apply f32_repr4|]. split; [intros q; now apply f32_repr2|].
    apply (eps_pow 23); [lia|reflexivity].
Qed.

Lemma grid_numbers E val bound side : grid E val bound side -> numbers E val bound.
Proof. destruct 1; constructor. Qed.
