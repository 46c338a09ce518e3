(** * AngleR: comparing angles by their cotangents. *)

From Coq Require Import QArith Qreals Reals Lqa Lra Psatz.
From Verif Require Import Spec SpecAngle.
Local Open Scope R_scope.

Lemma acos_le x y : -1 <= x <= 1 -> -1 <= y <= 1 -> x <= y -> acos y <= acos x.
Proof.
  intros Hx Hy L. destruct (Rle_lt_dec (acos y) (acos x)) as [K|K]; auto. exfalso.
  pose proof (acos_bound x). pose proof (acos_bound y).
  assert (cos (acos y) < cos (acos x)) by (apply cos_decreasing_1; lra).
  rewrite !cos_acos in H1 by auto. lra.
Qed.

(** The cosine as a function of scalar product and cross product. *)
Lemma cos_bound d c : 0 < c -> -1 <= d / sqrt (d * d + c * c) <= 1.
Proof.
  intros Hc. assert (P : 0 < d * d + c * c) by nra. assert (S : 0 < sqrt (d * d + c * c)) by now apply sqrt_lt_R0.
  assert (Q : sqrt (d * d + c * c) * sqrt (d * d + c * c) = d * d + c * c) by (apply sqrt_sqrt; lra).
  set (s := sqrt (d * d + c * c)) in *.
  assert (K : d / s * s = d) by (field; lra).
  split; apply (Rmult_le_reg_r s); auto; rewrite ?K; nra.
Qed.

Lemma cos_mono d c d' c' : 0 < c -> 0 < c' -> d * c' <= d' * c ->
  d / sqrt (d * d + c * c) <= d' / sqrt (d' * d' + c' * c').
Proof.
  intros Hc Hc' L.
  assert (P : 0 < d * d + c * c) by nra. assert (S : 0 < sqrt (d * d + c * c)) by now apply sqrt_lt_R0.
  assert (Q : sqrt (d * d + c * c) * sqrt (d * d + c * c) = d * d + c * c) by (apply sqrt_sqrt; lra).
  assert (P' : 0 < d' * d' + c' * c') by nra. assert (S' : 0 < sqrt (d' * d' + c' * c')) by now apply sqrt_lt_R0.
  assert (Q' : sqrt (d' * d' + c' * c') * sqrt (d' * d' + c' * c') = d' * d' + c' * c') by (apply sqrt_sqrt; lra).
  set (s := sqrt (d * d + c * c)) in *. set (s' := sqrt (d' * d' + c' * c')) in *.
  assert (K : d * s' <= d' * s).
  { destruct (Rle_lt_dec 0 d) as [D|D].
    - assert (D' : 0 <= d') by nra.
      apply Rsqr_incr_0; [|nra|nra]. unfold Rsqr.
      replace (d * s' * (d * s')) with (d * d * (s' * s')) by ring. replace (d' * s * (d' * s)) with (d' * d' * (s * s)) by ring.
      rewrite Q, Q'. assert ((d * c') * (d * c') <= (d' * c) * (d' * c)) by (apply Rmult_le_compat; nra). nra.
    - destruct (Rle_lt_dec 0 d') as [D'|D']; [nra|].
      cut (- (d' * s) <= - (d * s')); [lra|]. apply Rsqr_incr_0; [|nra|nra]. unfold Rsqr.
      replace (- (d' * s) * - (d' * s)) with (d' * d' * (s * s)) by ring. replace (- (d * s') * - (d * s')) with (d * d * (s' * s')) by ring.
      rewrite Q, Q'. assert ((- d' * c) * (- d' * c) <= (- d * c') * (- d * c')) by (apply Rmult_le_compat; nra). nra. }
  apply (Rmult_le_reg_r (s * s')); [nra|].
  replace (d / s * (s * s')) with (d * s') by (field; lra). replace (d' / s' * (s * s')) with (d' * s) by (field; lra). auto.
Qed.

Lemma sqdist_nonneg a b : 0 <= Q2R (sqdist a b).
Proof.
  unfold sqdist. rewrite Q2R_plus, !Q2R_mult.
  pose proof (Rle_0_sqr (Q2R (fst a - fst b))). pose proof (Rle_0_sqr (Q2R (snd a - snd b))). unfold Rsqr in *. lra.
Qed.

Lemma angle_cos p q r : 0 < Q2R (orient p q r) \/ Q2R (orient p q r) < 0 ->
  angle p q r = acos (Q2R (scalar p q r) /
    sqrt (Q2R (scalar p q r) * Q2R (scalar p q r) + Q2R (orient p q r) * Q2R (orient p q r))).
Proof.
  intros _. unfold angle. rewrite <- sqrt_mult.
  - replace (Q2R (sqdist q p) * Q2R (sqdist q r)) with
      (Q2R (scalar p q r) * Q2R (scalar p q r) + Q2R (orient p q r) * Q2R (orient p q r)); auto.
    rewrite <- !Q2R_mult, <- Q2R_plus. apply Qeq_eqR. unfold scalar, orient, sqdist. ring.
  - apply sqdist_nonneg.
  - apply sqdist_nonneg.
Qed.

(** For clockwise triangles: the angle with the greater cotangent is smaller. *)
Lemma angle_le p q r p' q' r' : clockwise p q r -> clockwise p' q' r' ->
  (scalar p q r * - orient p' q' r' <= scalar p' q' r' * - orient p q r)%Q -> angle p' q' r' <= angle p q r.
Proof.
  intros C C' L. unfold clockwise in *. apply Qlt_Rlt in C, C'. apply Qle_Rle in L.
  rewrite RMicromega.Q2R_0 in C, C'. rewrite !Q2R_mult, !Q2R_opp in L.
  rewrite !angle_cos by lra.
  replace (Q2R (orient p q r) * Q2R (orient p q r)) with ((- Q2R (orient p q r)) * (- Q2R (orient p q r))) by ring.
  replace (Q2R (orient p' q' r') * Q2R (orient p' q' r')) with ((- Q2R (orient p' q' r')) * (- Q2R (orient p' q' r'))) by ring.
  apply acos_le; [apply cos_bound; lra|apply cos_bound; lra|]. apply cos_mono; lra.
Qed.

Lemma acos_lt x y : -1 <= x <= 1 -> -1 <= y <= 1 -> x < y -> acos y < acos x.
Proof.
  intros Hx Hy L. destruct (Rlt_le_dec (acos y) (acos x)) as [K|K]; auto. exfalso.
  pose proof (acos_bound x). pose proof (acos_bound y).
  assert (cos (acos y) <= cos (acos x)) by (apply cos_decr_1; lra).
  rewrite !cos_acos in H1 by auto. lra.
Qed.

Lemma cos_mono_inv d c d' c' : 0 < c -> 0 < c' ->
  d / sqrt (d * d + c * c) <= d' / sqrt (d' * d' + c' * c') -> d * c' <= d' * c.
Proof.
  intros Hc Hc' L. destruct (Rle_lt_dec (d * c') (d' * c)) as [K|K]; auto. exfalso.
  pose proof (cos_mono d' c' d c Hc' Hc ltac:(lra)) as M.
  assert (P : 0 < d * d + c * c) by nra. assert (S : 0 < sqrt (d * d + c * c)) by now apply sqrt_lt_R0.
  assert (Q : sqrt (d * d + c * c) * sqrt (d * d + c * c) = d * d + c * c) by (apply sqrt_sqrt; lra).
  assert (P' : 0 < d' * d' + c' * c') by nra. assert (S' : 0 < sqrt (d' * d' + c' * c')) by now apply sqrt_lt_R0.
  assert (Q' : sqrt (d' * d' + c' * c') * sqrt (d' * d' + c' * c') = d' * d' + c' * c') by (apply sqrt_sqrt; lra).
  set (s := sqrt (d * d + c * c)) in *. set (s' := sqrt (d' * d' + c' * c')) in *.
  assert (E : d / s = d' / s') by lra.
  assert (F : d * s' = d' * s).
  { replace (d * s') with (d / s * (s * s')) by (field; lra). rewrite E. field. lra. }
  assert (Fs : d * d * (c' * c') = d' * d' * (c * c)).
  { assert (G : d * d * (s' * s') = d' * d' * (s * s)) by (replace (d * d * (s' * s')) with ((d * s') * (d * s')) by ring; rewrite F; ring).
    rewrite Q, Q' in G. lra. }
  assert (Sg : (0 <= d /\ 0 <= d') \/ (d <= 0 /\ d' <= 0)).
  { destruct (Rle_lt_dec 0 d) as [A|A], (Rle_lt_dec 0 d') as [B|B]; [left|exfalso|exfalso|right]; try lra.
    - assert (d' * s < 0) by nra. assert (0 <= d * s') by nra. lra.
    - assert (d * s' < 0) by nra. assert (0 <= d' * s) by nra. lra. }
  assert (Fa : (d * c') * (d * c') = (d' * c) * (d' * c)) by (replace ((d * c') * (d * c')) with (d * d * (c' * c')) by ring; rewrite Fs; ring).
  set (u := d * c') in *. set (v := d' * c) in *.
  assert (Sg' : (0 <= u /\ 0 <= v) \/ (u <= 0 /\ v <= 0)).
  { unfold u, v. destruct Sg as [(D & D')|(D & D')]; [left|right]; split; nra. }
  assert (Z : (u - v) * (u + v) = 0) by (ring_simplify; nra).
  apply Rmult_integral in Z. destruct Z; [lra|destruct Sg'; lra].
Qed.

Lemma angle_lt p q r p' q' r' : clockwise p q r -> clockwise p' q' r' ->
  (scalar p q r * - orient p' q' r' < scalar p' q' r' * - orient p q r)%Q -> angle p' q' r' < angle p q r.
Proof.
  intros C C' L. unfold clockwise in *. apply Qlt_Rlt in C, C', L.
  rewrite RMicromega.Q2R_0 in C, C'. rewrite !Q2R_mult, !Q2R_opp in L.
  rewrite !angle_cos by lra.
  replace (Q2R (orient p q r) * Q2R (orient p q r)) with ((- Q2R (orient p q r)) * (- Q2R (orient p q r))) by ring.
  replace (Q2R (orient p' q' r') * Q2R (orient p' q' r')) with ((- Q2R (orient p' q' r')) * (- Q2R (orient p' q' r'))) by ring.
  apply acos_lt; [apply cos_bound; lra|apply cos_bound; lra|].
  match goal with |- ?x < ?y => destruct (Rlt_le_dec x y) as [K|K]; auto end.
  apply cos_mono_inv in K; lra.
Qed.
