(** * Round3dApi: orientations of 3d input seen from the normal, with rounded plane coordinates. *)

From Coq Require Import ZArith NArith List Bool Lia QArith Qabs Qreals Lqa Reals Lra SpecFloat.
From Verif Require Import Base BaseFacts Arith F64 Types Spec GridSpec InputSpec Triangulation Constrained Space3d Spec3d CCross SpecRound3d AnyDT AnyCDT GridApi GridCdt Round3d.
Import ListNotations.
Local Open Scope R_scope.

(** ** Orientation in exact plane coordinates *)
Lemma cauchy3 a b c x y z : (a * x + b * y + c * z) * (a * x + b * y + c * z) <= (a * a + b * b + c * c) * (x * x + y * y + z * z).
Proof.
  replace ((a * a + b * b + c * c) * (x * x + y * y + z * z)) with
    ((a * x + b * y + c * z) * (a * x + b * y + c * z) +
     ((a * y - b * x) * (a * y - b * x) + (b * z - c * y) * (b * z - c * y) + (c * x - a * z) * (c * x - a * z))) by ring.
  pose proof (Rle_0_sqr (a * y - b * x)). pose proof (Rle_0_sqr (b * z - c * y)). pose proof (Rle_0_sqr (c * x - a * z)).
  unfold Rsqr in *. lra.
Qed.

Lemma cross_norm a b c x y z :
  (b * z - c * y) * (b * z - c * y) + (c * x - a * z) * (c * x - a * z) + (a * y - b * x) * (a * y - b * x) <=
  (a * a + b * b + c * c) * (x * x + y * y + z * z).
Proof.
  replace ((a * a + b * b + c * c) * (x * x + y * y + z * z)) with
    ((a * x + b * y + c * z) * (a * x + b * y + c * z) +
     ((a * y - b * x) * (a * y - b * x) + (b * z - c * y) * (b * z - c * y) + (c * x - a * z) * (c * x - a * z))) by ring.
  pose proof (Rle_0_sqr (a * x + b * y + c * z)). unfold Rsqr in *. lra.
Qed.

Lemma sq_abs x k : 0 <= k -> x * x <= k * k -> Rabs x <= k.
Proof.
  intros K H. rewrite <- (Rabs_pos_eq k K). apply Rsqr_le_abs_0. exact H.
Qed.

Section Basis.
Variables bx by_ bz nx ny nz : R.
Hypothesis Hb : bx * bx + by_ * by_ + bz * bz = 1.
Hypothesis Hn : nx * nx + ny * ny + nz * nz <= 3 / 2.
Notation cx := (by_ * - nz - - ny * bz).
Notation cy := (bz * - nx - - nz * bx).
Notation cz := (bx * - ny - - nx * by_).
Variable M : R.
Hypothesis M0 : 0 <= M.

Lemma first_size x y z : x * x + y * y + z * z <= 12 * (M * M) -> Rabs (x * bx + y * by_ + z * bz) <= 7 / 2 * M.
Proof.
  intros H. apply sq_abs; [lra|]. eapply Rle_trans; [apply cauchy3|]. rewrite Hb. pose proof (Rle_0_sqr M). unfold Rsqr in *. lra.
Qed.

Lemma second_size x y z : x * x + y * y + z * z <= 12 * (M * M) -> Rabs (x * cx + y * cy + z * cz) <= 17 / 4 * M.
Proof.
  intros H. apply sq_abs; [lra|]. eapply Rle_trans; [apply cauchy3|]. pose proof (Rle_0_sqr M) as MM. unfold Rsqr in *.
  pose proof (cross_norm bx by_ bz (- nx) (- ny) (- nz)) as K. rewrite Hb in K.
  apply Rle_trans with ((12 * (M * M)) * (3 / 2)); [|lra].
  pose proof (Rle_0_sqr x). pose proof (Rle_0_sqr y). pose proof (Rle_0_sqr z).
  pose proof (Rle_0_sqr cx). pose proof (Rle_0_sqr cy). pose proof (Rle_0_sqr cz). unfold Rsqr in *.
  apply Rmult_le_compat; lra.
Qed.

Lemma area_diff vx vy vz wx wy wz t : Rabs (bx * nx + by_ * ny + bz * nz) <= t ->
  vx * vx + vy * vy + vz * vz <= 12 * (M * M) -> wx * wx + wy * wy + wz * wz <= 12 * (M * M) ->
  Rabs ((vx * bx + vy * by_ + vz * bz) * (wx * cx + wy * cy + wz * cz) - (vx * cx + vy * cy + vz * cz) * (wx * bx + wy * by_ + wz * bz) -
    (nx * (vy * wz - vz * wy) - ny * (vx * wz - vz * wx) + nz * (vx * wy - vy * wx))) <= 12 * t * (M * M).
Proof.
  intros Ht Hv Hw.
  set (qx := vy * wz - vz * wy). set (qy := vz * wx - vx * wz). set (qz := vx * wy - vy * wx).
  assert (E : (vx * bx + vy * by_ + vz * bz) * (wx * cx + wy * cy + wz * cz) - (vx * cx + vy * cy + vz * cz) * (wx * bx + wy * by_ + wz * bz) =
    (bx * bx + by_ * by_ + bz * bz) * (nx * qx + ny * qy + nz * qz) - (bx * nx + by_ * ny + bz * nz) * (qx * bx + qy * by_ + qz * bz))
    by (unfold qx, qy, qz; ring).
  rewrite E, Hb.
  replace (1 * (nx * qx + ny * qy + nz * qz) - (bx * nx + by_ * ny + bz * nz) * (qx * bx + qy * by_ + qz * bz) -
    (nx * qx - ny * (vx * wz - vz * wx) + nz * qz)) with (- ((bx * nx + by_ * ny + bz * nz) * (qx * bx + qy * by_ + qz * bz)))
    by (unfold qy; ring).
  rewrite Rabs_Ropp, Rabs_mult. pose proof (Rle_0_sqr M) as MM. unfold Rsqr in MM.
  assert (K : Rabs (qx * bx + qy * by_ + qz * bz) <= 12 * (M * M)).
  { apply sq_abs; [lra|]. eapply Rle_trans; [apply cauchy3|]. rewrite Hb, Rmult_1_r.
    eapply Rle_trans; [apply (cross_norm vx vy vz wx wy wz)|].
    pose proof (Rle_0_sqr vx). pose proof (Rle_0_sqr vy). pose proof (Rle_0_sqr vz).
    pose proof (Rle_0_sqr wx). pose proof (Rle_0_sqr wy). pose proof (Rle_0_sqr wz). unfold Rsqr in *.
    apply Rmult_le_compat; lra. }
  replace (12 * t * (M * M)) with (t * (12 * (M * M))) by ring. apply Rmult_le_compat; auto using Rabs_pos.
Qed.
End Basis.

(** ** Orientation in perturbed coordinates *)
Lemma orient_perturbed x1 y1 x2 y2 x1' y1' x2' y2' e M : 0 <= M -> 0 <= e ->
  Rabs x1 <= 7 / 2 * M -> Rabs x2 <= 7 / 2 * M -> Rabs y1 <= 17 / 4 * M -> Rabs y2 <= 17 / 4 * M ->
  Rabs (x1' - x1) <= e -> Rabs (x2' - x2) <= e -> Rabs (y1' - y1) <= e -> Rabs (y2' - y2) <= e ->
  Rabs ((x1' * y2' - y1' * x2') - (x1 * y2 - y1 * x2)) <= 31 / 2 * M * e + 2 * e * e.
Proof.
  intros HM He X1 X2 Y1 Y2 E1 E2 F1 F2.
  assert (K : forall a b a' b' A B, Rabs a <= A -> Rabs b <= B -> Rabs (a' - a) <= e -> Rabs (b' - b) <= e ->
    Rabs (a' * b' - a * b) <= (A + B) * e + e * e).
  { intros a b a' b' A B Ha Hb Ea Eb. replace (a' * b' - a * b) with ((a' - a) * b + a * (b' - b) + (a' - a) * (b' - b)) by ring.
    eapply Rle_trans; [apply Rabs_triang|]. eapply Rle_trans; [apply Rplus_le_compat_r, Rabs_triang|]. rewrite !Rabs_mult.
    apply Rle_trans with (e * B + A * e + e * e); [|lra].
    repeat apply Rplus_le_compat; apply Rmult_le_compat; auto using Rabs_pos. }
  pose proof (K x1 y2 x1' y2' _ _ X1 Y2 E1 F2) as K1. pose proof (K y1 x2 y1' x2' _ _ Y1 X2 F1 E2) as K2.
  replace (x1' * y2' - y1' * x2' - (x1 * y2 - y1 * x2)) with ((x1' * y2' - x1 * y2) + - (y1' * x2' - y1 * x2)) by ring.
  eapply Rle_trans; [apply Rabs_triang|]. rewrite Rabs_Ropp. lra.
Qed.

(** ** The computed plane coordinates *)
Lemma Q2R_orient a b c : Q2R (orient a b c) =
  (Q2R (fst b) - Q2R (fst a)) * (Q2R (snd c) - Q2R (snd a)) - (Q2R (snd b) - Q2R (snd a)) * (Q2R (fst c) - Q2R (fst a)).
Proof. unfold orient. rewrite !Q2R_minus, !Q2R_mult, !Q2R_minus. reflexivity. Qed.

Lemma Forall2_nth2 {A B} (R : A -> B -> Prop) l m a b : Forall2 R l m -> forall i, (i < length l)%nat -> R (nth i l a) (nth i m b).
Proof. induction 1; intros i Hi; simpl in *; [lia|]. destruct i; auto. apply IHForall2. lia. Qed.

Lemma Forall2_len2 {A B} (R : A -> B -> Prop) l m : Forall2 R l m -> length l = length m.
Proof. induction 1; simpl; congruence. Qed.

Lemma sum_sq x y z M : Rabs x <= 2 * M -> Rabs y <= 2 * M -> Rabs z <= 2 * M -> x * x + y * y + z * z <= 12 * (M * M).
Proof.
  assert (SQ : forall t, Rabs t <= 2 * M -> t * t <= 4 * (M * M)).
  { intros t Ht. replace (t * t) with (Rabs t * Rabs t) by (rewrite <- Rabs_mult; apply Rabs_pos_eq; nra).
    replace (4 * (M * M)) with ((2 * M) * (2 * M)) by ring. apply Rmult_le_compat; auto using Rabs_pos. }
  intros A B C. pose proof (SQ x A). pose proof (SQ y B). pose proof (SQ z C). lra.
Qed.

Lemma abs_diff x y M : Rabs x <= M -> Rabs y <= M -> Rabs (x - y) <= 2 * M.
Proof. intros A B. unfold Rminus. eapply Rle_trans; [apply Rabs_triang|]. rewrite Rabs_Ropp. lra. Qed.

Section Close.
Variables (prec : Z) (l : list qvec) (n : qvec) (M t : R) (pl : list point) (ideal : list (R * R)).
Hypothesis Hp : (24 <= prec)%Z.
Notation u := (roundoff prec).
Hypothesis Mo : moderate3 l n M.
Hypothesis No : nearly_orthogonal l n t.
Hypothesis Tr : transform_to_2d (V := r_vec3) (map rvec_of l) (rvec_of n) = Ret ideal.
Hypothesis Cl : Forall2 (rclose (512 * u * M)) pl ideal.

Lemma close_orient a b c : (a < lenN l)%N -> (b < lenN l)%N -> (c < lenN l)%N ->
  Rabs (Q2R (orient (qpoint pl a) (qpoint pl b) (qpoint pl c)) - rorient3 (rvec_of n) (at3 l a) (at3 l b) (at3 l c)) <=
  (16384 * u + 12 * t) * (M * M).
Proof.
  intros La Lb Lc. destruct Mo as [HM Hc Hn (p0 & p1 & rest & El & Hd)].
  assert (U : 0 < u) by (unfold roundoff; apply Rinv_0_lt_compat, IZR_lt, Z.pow_pos_nonneg; lia).
  assert (U' : u <= / 16777216).
  { unfold roundoff. apply Rinv_le_contravar; [lra|]. apply IZR_le. change 16777216%Z with (2 ^ 24)%Z. apply Z.pow_le_mono_r; lia. }
  pose proof (No _ _ _ El) as Ho.
  set (d := rminus (rvec_of p0) (rvec_of p1)) in *. set (D := rdist3 (rvec_of p0) (rvec_of p1)) in *.
  assert (Dp : 0 < D) by (eapply Rlt_le_trans; [|exact Hd]; apply Rinv_0_lt_compat, IZR_lt; reflexivity).
  set (r := sqrt D) in *. assert (Rp : 0 < r) by now apply sqrt_lt_R0. assert (Rs : r * r = D) by (apply sqrt_sqrt; lra).
  assert (B : exists bx by_ bz nx ny nz, rvec_of n = (nx, ny, nz) /\
     bx * bx + by_ * by_ + bz * bz = 1 /\ nx * nx + ny * ny + nz * nz <= 3 / 2 /\ Rabs (bx * nx + by_ * ny + bz * nz) <= t /\
     ideal = map (fun v : rvec => let '(x, y, z) := v in (x * bx + y * by_ + z * bz,
       x * (by_ * - nz - - ny * bz) + y * (bz * - nx - - nz * bx) + z * (bx * - ny - - nx * by_))) (map rvec_of l)).
  { destruct n as ((nx, ny), nz). destruct p0 as ((x0, y0), z0). destruct p1 as ((x1, y1), z1).
    unfold d, rdist3, rdot, rminus, rvec_of in *.
    set (da := Q2R x0 - Q2R x1) in *. set (db := Q2R y0 - Q2R y1) in *. set (dc := Q2R z0 - Q2R z1) in *.
    exists (da * (1 / r)), (db * (1 / r)), (dc * (1 / r)), (Q2R nx), (Q2R ny), (Q2R nz).
    split; [reflexivity|]. split; [|split; [exact Hn|split]].
    - replace (da * (1 / r) * (da * (1 / r)) + db * (1 / r) * (db * (1 / r)) + dc * (1 / r) * (dc * (1 / r)))
        with ((da * da + db * db + dc * dc) / (r * r)) by (field; lra). rewrite Rs. change (D / D = 1). field. lra.
    - replace (da * (1 / r) * Q2R nx + db * (1 / r) * Q2R ny + dc * (1 / r) * Q2R nz)
        with ((da * Q2R nx + db * Q2R ny + dc * Q2R nz) * / r) by (field; lra).
      rewrite Rabs_mult, (Rabs_pos_eq (/ r)) by (left; now apply Rinv_0_lt_compat).
      apply Rmult_le_reg_r with r; auto. rewrite Rmult_assoc, Rinv_l by lra. lra.
    - rewrite El in Tr |- *. unfold transform_to_2d in Tr. simpl in Tr. injection Tr as <-. cbn [map].
      apply (f_equal2 cons); [reflexivity|]. apply (f_equal2 cons); [reflexivity|].
      apply map_ext. intros ((x, y), z). reflexivity. }
  destruct B as (bx & by_ & bz & nx & ny & nz & En & Hb & Hn' & Ho' & Ei).
  assert (Len : length pl = length l) by (rewrite (Forall2_len2 _ _ _ Cl), Ei, !map_length; reflexivity).
  assert (M0 : 0 <= M).
  { destruct p0 as ((x, y), z). destruct (Hc x y z) as (K & _); [rewrite El; now left|]. pose proof (Rabs_pos (Q2R x)). lra. }
  (* the three points *)
  assert (Pt : forall v, (v < lenN l)%N -> exists x y z, at3 l v = (x, y, z) /\ (Rabs x <= M /\ Rabs y <= M /\ Rabs z <= M) /\
     Rabs (Q2R (fst (qpoint pl v)) - (x * bx + y * by_ + z * bz)) <= 512 * u * M /\
     Rabs (Q2R (snd (qpoint pl v)) - (x * (by_ * - nz - - ny * bz) + y * (bz * - nx - - nz * bx) + z * (bx * - ny - - nx * by_))) <= 512 * u * M).
  { intros v Hv. assert (Hi : (N.to_nat v < length l)%nat) by (unfold lenN in Hv; lia).
    pose proof (Forall2_nth2 _ _ _ (0, 0)%Q (0, 0) Cl (N.to_nat v) (eq_ind_r (fun k => (N.to_nat v < k)%nat) Hi Len)) as (A1 & A2).
    pose proof (nth_In l (0, 0, 0)%Q Hi) as Hin. unfold at3.
    rewrite Ei in A1, A2.
    match type of A1 with context [map ?f (map rvec_of l)] => set (g := f) in * end.
    rewrite (nth_indep _ (0, 0) (g (rvec_of (0, 0, 0)%Q))) in A1, A2 by (rewrite !map_length; exact Hi).
    rewrite map_nth, map_nth in A1, A2.
    destruct (nth (N.to_nat v) l (0, 0, 0)%Q) as ((x, y), z) eqn:Ev.
    exists (Q2R x), (Q2R y), (Q2R z). split; [reflexivity|]. split; [exact (Hc x y z Hin)|]. split; [exact A1|exact A2]. }
  destruct (Pt a La) as (ax & ay & az & Ea & (A1 & A2 & A3) & A4 & A5).
  destruct (Pt b Lb) as (ex & ey & ez & Eb & (B1 & B2 & B3) & B4 & B5).
  destruct (Pt c Lc) as (fx & fy & fz & Ec & (C1 & C2 & C3) & C4 & C5). clear Pt.
  rewrite Ea, Eb, Ec, En, Q2R_orient.
  set (xa := Q2R (fst (qpoint pl a))) in *. set (ya := Q2R (snd (qpoint pl a))) in *.
  set (xb := Q2R (fst (qpoint pl b))) in *. set (yb := Q2R (snd (qpoint pl b))) in *.
  set (xc := Q2R (fst (qpoint pl c))) in *. set (yc := Q2R (snd (qpoint pl c))) in *.
  set (cx := by_ * - nz - - ny * bz) in *. set (cy := bz * - nx - - nz * bx) in *. set (cz := bx * - ny - - nx * by_) in *.
  set (e := 1024 * u * M). assert (e0 : 0 <= e) by (unfold e; apply Rmult_le_pos; lra).
  pose proof (sum_sq (ex - ax) (ey - ay) (ez - az) M (abs_diff _ _ _ B1 A1) (abs_diff _ _ _ B2 A2) (abs_diff _ _ _ B3 A3)) as Sv.
  pose proof (sum_sq (fx - ax) (fy - ay) (fz - az) M (abs_diff _ _ _ C1 A1) (abs_diff _ _ _ C2 A2) (abs_diff _ _ _ C3 A3)) as Sw.
  pose proof (first_size bx by_ bz Hb M M0 _ _ _ Sv) as X1. pose proof (first_size bx by_ bz Hb M M0 _ _ _ Sw) as X2.
  pose proof (second_size bx by_ bz nx ny nz Hb Hn' M M0 _ _ _ Sv) as Y1. pose proof (second_size bx by_ bz nx ny nz Hb Hn' M M0 _ _ _ Sw) as Y2.
  pose proof (area_diff bx by_ bz nx ny nz Hb M _ _ _ _ _ _ t Ho' Sv Sw) as AD.
  fold cx cy cz in Y1, Y2, AD.
  assert (Df : forall p q x y, Rabs (p - x) <= 512 * u * M -> Rabs (q - y) <= 512 * u * M -> Rabs ((p - q) - (x - y)) <= e).
  { intros p q x y K1 K2. replace (p - q - (x - y)) with ((p - x) + - (q - y)) by ring.
    eapply Rle_trans; [apply Rabs_triang|]. rewrite Rabs_Ropp. unfold e. lra. }
  pose proof (orient_perturbed _ _ _ _ (xb - xa) (yb - ya) (xc - xa) (yc - ya) e M M0 e0 X1 X2 Y1 Y2) as OP.
  assert (OP' : Rabs ((xb - xa) * (yc - ya) - (yb - ya) * (xc - xa) -
    (((ex - ax) * bx + (ey - ay) * by_ + (ez - az) * bz) * ((fx - ax) * cx + (fy - ay) * cy + (fz - az) * cz) -
     ((ex - ax) * cx + (ey - ay) * cy + (ez - az) * cz) * ((fx - ax) * bx + (fy - ay) * by_ + (fz - az) * bz))) <= 31 / 2 * M * e + 2 * e * e).
  { apply OP.
    - pose proof (Df _ _ _ _ B4 A4) as K. eapply Rle_trans; [|exact K]. right. f_equal. ring.
    - pose proof (Df _ _ _ _ C4 A4) as K. eapply Rle_trans; [|exact K]. right. f_equal. ring.
    - pose proof (Df _ _ _ _ B5 A5) as K. eapply Rle_trans; [|exact K]. right. f_equal. ring.
    - pose proof (Df _ _ _ _ C5 A5) as K. eapply Rle_trans; [|exact K]. right. f_equal. ring. }
  assert (K : 31 / 2 * M * e + 2 * e * e <= 16384 * u * (M * M)).
  { unfold e. replace (31 / 2 * M * (1024 * u * M) + 2 * (1024 * u * M) * (1024 * u * M)) with
      ((15872 * u + 2097152 * (u * u)) * (M * M)) by field.
    apply Rmult_le_compat_r; [nra|]. assert (u * u <= / 16777216 * u) by (apply Rmult_le_compat_r; lra). lra. }
  unfold rorient3, rtriple, rminus.
  match goal with |- Rabs (?X - ?Y) <= _ => match type of AD with Rabs (?Z - _) <= _ => replace (X - Y) with ((X - Z) + (Z - Y)) by ring end end.
  eapply Rle_trans; [apply Rabs_triang|]. apply Rle_trans with (16384 * u * (M * M) + 12 * t * (M * M)); [|right; ring].
  apply Rplus_le_compat; [lra|exact AD].
Qed.
End Close.

Local Open Scope N_scope.
(** ** The entry points *)
Lemma transform_length {S} {V : Vertex3d S} (vs : list V3) nv out : transform_to_2d vs nv = Ret out -> length out = length vs.
Proof.
  unfold transform_to_2d. destruct (getN vs 0); try discriminate. simpl. destruct (getN vs 1); try discriminate. simpl.
  intros H. apply Ret_inj in H. rewrite <- H. apply map_length.
Qed.

Section Entry.
Variables prec emax : Z.
Hypothesis Fm : format prec emax.
Variable maxid : N.
Notation EV := (sf_env prec emax maxid).
Notation VF := (env_vec3 (E := EV) (sf_sqrt prec emax) (sf_one prec emax)).

Lemma rounded_close vs nv l n M : Forall2 (vec_is prec emax) vs l -> vec_is prec emax nv n -> moderate3 l n M ->
  exists vs2 pl ideal, transform_to_2d (V := VF) vs nv = Ret vs2 /\ Forall2 (vertex_is (E := EV) (sf_is prec emax)) vs2 pl /\
    transform_to_2d (V := r_vec3) (map rvec_of l) (rvec_of n) = Ret ideal /\ Forall2 (rclose (512 * roundoff prec * M)) pl ideal.
Proof.
  destruct Fm.
  - apply (transform_close 53 1024 eq_refl eq_refl ltac:(lia) ltac:(lia) maxid).
  - apply (transform_close 24 128 eq_refl eq_refl ltac:(lia) ltac:(lia) maxid).
Qed.

Lemma fm_prec : (24 <= prec)%Z.
Proof. destruct Fm; lia. Qed.

Lemma close_same (vs2 : list (@vertex EV)) pl pl' ideal d :
  Forall2 (vertex_is (E := EV) (sf_is prec emax)) vs2 pl -> Forall2 (vertex_is (E := EV) (sf_is prec emax)) vs2 pl' ->
  Forall2 (rclose d) pl ideal -> Forall2 (rclose d) pl' ideal.
Proof.
  intros A. revert pl' ideal. induction A as [|v p vs2 pl (A1 & A2) A IH]; intros pl' ideal B C; inversion B as [|? p' ? pl'' (B1 & B2) B']; inversion C as [|? i ? il C1 C']; subst; constructor.
  - destruct A1 as (_ & _ & A1). destruct A2 as (_ & _ & A2). destruct B1 as (_ & _ & B1). destruct B2 as (_ & _ & B2).
    unfold rclose in *. rewrite <- (Qeq_eqR _ _ B1), <- (Qeq_eqR _ _ B2). rewrite <- (Qeq_eqR _ _ A1), <- (Qeq_eqR _ _ A2) in C1. exact C1.
  - eapply IH; eauto.
Qed.

Section Result.
Variables (vs : list (spec_float * spec_float * spec_float)) (nv : spec_float * spec_float * spec_float) (l : list qvec) (n : qvec) (M t : R).
Hypothesis Hv : Forall2 (vec_is prec emax) vs l.
Hypothesis Hn : vec_is prec emax nv n.
Hypothesis Mo : moderate3 l n M.
Hypothesis No : nearly_orthogonal l n t.
Variables (vs2 : list (@vertex EV)) (pl : list point) (bound : Z).
Hypothesis Tr : transform_to_2d (V := VF) vs nv = Ret vs2.
Hypothesis Pl : Forall2 (vertex_is (E := EV) (sf_is prec emax)) vs2 pl.
Hypothesis G : exact_input (E := EV) vs2 (qpoint pl) bound.
Hypothesis Hid : 2 * lenN vs + 2 <= @idmax EV.
Variables (fuel : nat) (bins : N).
Hypothesis Hf : (4 * length vs + 12 <= fuel)%nat.

Lemma lens : length vs2 = length vs /\ length vs = length l.
Proof.
  split; [exact (transform_length _ _ _ Tr)|exact (Forall2_len2 _ _ _ Hv)].
Qed.

Lemma seen_clockwise out : valid_mesh (qpoint pl) (lenN vs2) out ->
  (forall a b c, In (a, b, c) out -> a < lenN vs2 /\ b < lenN vs2 /\ c < lenN vs2) ->
  forall a b c, In (a, b, c) out -> (rorient3 (rvec_of n) (at3 l a) (at3 l b) (at3 l c) < (16384 * roundoff prec + 12 * t) * (M * M))%R.
Proof.
  intros V Ids a b c Ht. destruct (Ids a b c Ht) as (A & B & C). destruct lens as (L1 & L2).
  assert (LN : lenN vs2 = lenN l) by (unfold lenN; congruence). rewrite LN in A, B, C.
  destruct (rounded_close vs nv l n M Hv Hn Mo) as (vs2' & pl' & ideal & T1 & T2 & T3 & T4).
  rewrite Tr in T1. injection T1 as <-.
  pose proof (close_orient prec l n M t pl ideal fm_prec Mo No T3 (close_same _ _ _ _ _ T2 Pl T4) a b c A B C) as K.
  pose proof (vm_clockwise _ _ _ V _ Ht) as W. unfold tri_clockwise, clockwise in W. apply Qlt_Rlt in W. rewrite RMicromega.Q2R_0 in W.
  pose proof (Rle_abs (- (Q2R (orient (qpoint pl a) (qpoint pl b) (qpoint pl c)) - rorient3 (rvec_of n) (at3 l a) (at3 l b) (at3 l c)))%R) as K'.
  rewrite Rabs_Ropp in K'. lra.
Qed.

Lemma rounded_dt out : triangulation_from_3d_planar_vertices (E := EV) (V := VF) fuel bins vs nv = Ret out ->
  valid_mesh (qpoint pl) (lenN vs) out /\
  forall a b c, In (a, b, c) out -> (rorient3 (rvec_of n) (at3 l a) (at3 l b) (at3 l c) < (16384 * roundoff prec + 12 * t) * (M * M))%R.
Proof.
  destruct lens as (L1 & L2). assert (LN : lenN vs2 = lenN vs) by (unfold lenN; congruence).
  unfold triangulation_from_3d_planar_vertices. change (@V3 (@F EV) VF) with (spec_float * spec_float * spec_float)%type.
  destruct (lenN vs <? 3) eqn:L3.
  { intros H. apply Ret_inj in H. subst out. split; [|intros ? ? ? []].
    split; simpl; try (intros; contradiction); [|constructor]. intros i j s q p _ H. destruct i; discriminate. }
  rewrite Tr. simpl bind. intros H.
  assert (Hid2 : 2 * lenN vs2 + 2 <= @idmax EV) by (rewrite LN; exact Hid).
  assert (Hf2 : (4 * length vs2 + 12 <= fuel)%nat) by (rewrite L1; exact Hf).
  destruct (grid_valid (E := EV) vs2 _ bound G Hid2 fuel bins out Hf2 H) as (V & _).
  split; [rewrite <- LN; exact V|]. apply seen_clockwise; auto.
  refine (proj1 (dt_ids (E := EV) fuel bins vs2 out _ H)). change (lenN (A := vertex) vs2) with (lenN vs2). lia.
Qed.

Lemma rounded_cdt cs out : constrained_triangulation_from_3d_planar_vertices (E := EV) (V := VF) fuel bins vs nv cs = Ret out ->
  valid_mesh (qpoint pl) (lenN vs) out /\
  (forall a b c, In (a, b, c) out -> (rorient3 (rvec_of n) (at3 l a) (at3 l b) (at3 l c) < (16384 * roundoff prec + 12 * t) * (M * M))%R) /\
  (3 <= lenN vs -> noncrossing (qpoint pl) cs -> forall c, In c cs -> ~ same_place (qpoint pl (efrom c)) (qpoint pl (eto c)) ->
     respects (qpoint pl) (lenN vs) out (efrom c) (eto c)).
Proof.
  destruct lens as (L1 & L2). assert (LN : lenN vs2 = lenN vs) by (unfold lenN; congruence).
  unfold constrained_triangulation_from_3d_planar_vertices. change (@V3 (@F EV) VF) with (spec_float * spec_float * spec_float)%type.
  destruct (lenN vs <? 3) eqn:L3.
  { intros H. apply Ret_inj in H. subst out. split; [|split; [intros ? ? ? []|apply N.ltb_lt in L3; lia]].
    split; simpl; try (intros; contradiction); [|constructor]. intros i j s q p _ H. destruct i; discriminate. }
  rewrite Tr. simpl bind. intros H.
  assert (Hid2 : 2 * lenN vs2 + 2 <= @idmax EV) by (rewrite LN; exact Hid).
  assert (Hf2 : (4 * length vs2 + 12 <= fuel)%nat) by (rewrite L1; exact Hf).
  assert (G' : exact_input (E := EV) vs2 (pair_at (fun v => fst (qpoint pl v)) (fun v => snd (qpoint pl v))) bound).
  { assert (E : (pair_at (fun v => fst (qpoint pl v)) (fun v => snd (qpoint pl v))) = qpoint pl) by reflexivity. rewrite E. exact G. }
  pose proof (grid_cdt_valid (E := EV) vs2 _ _ bound G' Hid2 fuel bins Hf2 cs out H) as V.
  split; [rewrite <- LN; exact V|]. split.
  { apply seen_clockwise; auto. refine (proj1 (cdt_ids (E := EV) fuel bins vs2 cs out _ H)). change (lenN (A := vertex) vs2) with (lenN vs2). lia. }
  intros H3 Nc c Hc Hs. rewrite <- LN in H3 |- *.
  exact (proj1 (grid_cdt_edges (E := EV) vs2 _ _ bound G' Hid2 fuel bins Hf2 cs c out H3 Nc Hc Hs H)).
Qed.
End Result.
End Entry.
