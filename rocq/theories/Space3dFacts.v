(** * Space3dFacts: the transformation of planar 3d input. *)

From Coq Require Qcanon.
From Coq Require Import ZArith NArith List Bool Lia QArith Qabs Lqa Qreals Reals Lra SpecFloat.
From Flocq Require Import Core.Core IEEE754.BinarySingleNaN.
From Verif Require Import Base BaseFacts Arith Rep F64 SFRep Grid64 QEnv QExact Types Triangulation Constrained Spec GridSpec GridNum
  AnyDT AnyCDT CCross GridApi GridCdt Space3d Spec3d.
Import ListNotations.

(** ** Real numbers: an isometry *)
Section Real.
Local Open Scope R_scope.

Lemma rvec_neq (a b : rvec) : a <> b -> 0 < rdot (rminus a b) (rminus a b).
Proof.
  destruct a as ((ax, ay), az). destruct b as ((bx, by_), bz). intros H. unfold rdot, rminus.
  assert (A : forall x, 0 <= x * x) by (intros x; apply Rle_0_sqr).
  pose proof (A (ax - bx)) as A1. pose proof (A (ay - by_)) as A2. pose proof (A (az - bz)) as A3.
  destruct (Rle_lt_or_eq_dec 0 ((ax - bx) * (ax - bx) + (ay - by_) * (ay - by_) + (az - bz) * (az - bz))) as [P|Q]; [Lra.lra|exact P|].
  exfalso. apply H.
  assert (Q1 : (ax - bx) * (ax - bx) = 0) by Lra.lra. assert (Q2 : (ay - by_) * (ay - by_) = 0) by Lra.lra.
  assert (Q3 : (az - bz) * (az - bz) = 0) by Lra.lra.
  apply Rmult_integral in Q1, Q2, Q3.
  assert (E1 : ax = bx) by (destruct Q1; Lra.lra). assert (E2 : ay = by_) by (destruct Q2; Lra.lra).
  assert (E3 : az = bz) by (destruct Q3; Lra.lra). now subst.
Qed.

(** An orthonormal pair b, n; w1 and w2 orthogonal to n. *)
Lemma basis_product (bx by_ bz nx ny nz wx wy wz : R) :
  bx * bx + by_ * by_ + bz * bz = 1 -> nx * nx + ny * ny + nz * nz = 1 ->
  bx * nx + by_ * ny + bz * nz = 0 -> wx * nx + wy * ny + wz * nz = 0 ->
  let cx := by_ * - nz - - ny * bz in let cy := bz * - nx - - nz * bx in let cz := bx * - ny - - nx * by_ in
  (wx * bx + wy * by_ + wz * bz) * (wx * bx + wy * by_ + wz * bz) +
  (wx * cx + wy * cy + wz * cz) * (wx * cx + wy * cy + wz * cz) = wx * wx + wy * wy + wz * wz.
Proof.
  intros Hb Hn Ho Hw cx cy cz.
  (* components of w x b *)
  set (px := wy * bz - wz * by_). set (py := wz * bx - wx * bz). set (pz := wx * by_ - wy * bx).
  assert (E0 : wx * cx + wy * cy + wz * cz = - (px * nx + py * ny + pz * nz)) by (unfold cx, cy, cz, px, py, pz; ring).
  assert (L1 : (wx * wx + wy * wy + wz * wz) * (bx * bx + by_ * by_ + bz * bz) =
    (wx * bx + wy * by_ + wz * bz) * (wx * bx + wy * by_ + wz * bz) + (px * px + py * py + pz * pz)).
  { unfold px, py, pz. ring. }
  (* (w x b) x n = b (w.n) - w (b.n) = 0 *)
  assert (Q1 : py * nz - pz * ny = bx * (wx * nx + wy * ny + wz * nz) - wx * (bx * nx + by_ * ny + bz * nz)) by (unfold py, pz; ring).
  assert (Q2 : pz * nx - px * nz = by_ * (wx * nx + wy * ny + wz * nz) - wy * (bx * nx + by_ * ny + bz * nz)) by (unfold px, pz; ring).
  assert (Q3 : px * ny - py * nx = bz * (wx * nx + wy * ny + wz * nz) - wz * (bx * nx + by_ * ny + bz * nz)) by (unfold px, py; ring).
  rewrite Ho, Hw in Q1, Q2, Q3.
  assert (L2 : (px * px + py * py + pz * pz) * (nx * nx + ny * ny + nz * nz) =
    (px * nx + py * ny + pz * nz) * (px * nx + py * ny + pz * nz) +
    ((py * nz - pz * ny) * (py * nz - pz * ny) + (pz * nx - px * nz) * (pz * nx - px * nz) + (px * ny - py * nx) * (px * ny - py * nx))) by ring.
  rewrite Q1, Q2, Q3, Hn in L2. rewrite Hb in L1. rewrite E0.
  replace ((- (px * nx + py * ny + pz * nz)) * (- (px * nx + py * ny + pz * nz)))
    with ((px * nx + py * ny + pz * nz) * (px * nx + py * ny + pz * nz)) by ring.
  Lra.lra.
Qed.

Lemma basis_area (bx by_ bz nx ny nz vx vy vz wx wy wz : R) :
  bx * bx + by_ * by_ + bz * bz = 1 -> bx * nx + by_ * ny + bz * nz = 0 ->
  let cx := by_ * - nz - - ny * bz in let cy := bz * - nx - - nz * bx in let cz := bx * - ny - - nx * by_ in
  (vx * bx + vy * by_ + vz * bz) * (wx * cx + wy * cy + wz * cz) -
  (vx * cx + vy * cy + vz * cz) * (wx * bx + wy * by_ + wz * bz) =
  nx * (vy * wz - vz * wy) - ny * (vx * wz - vz * wx) + nz * (vx * wy - vy * wx).
Proof.
  intros Hb Ho cx cy cz.
  set (qx := vy * wz - vz * wy). set (qy := vz * wx - vx * wz). set (qz := vx * wy - vy * wx).
  assert (B : (vx * bx + vy * by_ + vz * bz) * (wx * cx + wy * cy + wz * cz) -
    (vx * cx + vy * cy + vz * cz) * (wx * bx + wy * by_ + wz * bz) =
    qx * (by_ * cz - bz * cy) + qy * (bz * cx - bx * cz) + qz * (bx * cy - by_ * cx)).
  { unfold qx, qy, qz. ring. }
  assert (C1 : by_ * cz - bz * cy = nx * (bx * bx + by_ * by_ + bz * bz) - bx * (bx * nx + by_ * ny + bz * nz)) by (unfold cy, cz; ring).
  assert (C2 : bz * cx - bx * cz = ny * (bx * bx + by_ * by_ + bz * bz) - by_ * (bx * nx + by_ * ny + bz * nz)) by (unfold cx, cz; ring).
  assert (C3 : bx * cy - by_ * cx = nz * (bx * bx + by_ * by_ + bz * bz) - bz * (bx * nx + by_ * ny + bz * nz)) by (unfold cx, cy; ring).
  rewrite B, C1, C2, C3, Hb, Ho. unfold qx, qy, qz. ring.
Qed.

Lemma transform_isometry (v0 v1 : rvec) rest n : v0 <> v1 -> planar (v0 :: v1 :: rest) n ->
  exists f : rvec -> R * R,
    transform_to_2d (V := r_vec3) (v0 :: v1 :: rest) n = Ret (map f (v0 :: v1 :: rest)) /\
    (forall a b, In a (v0 :: v1 :: rest) -> In b (v0 :: v1 :: rest) -> rdist2 (f a) (f b) = rdist3 a b) /\
    (forall a b c, In a (v0 :: v1 :: rest) -> In b (v0 :: v1 :: rest) -> In c (v0 :: v1 :: rest) ->
       rorient2 (f a) (f b) (f c) = rorient3 n a b c).
Proof.
  intros Hne (Hn & Hp).
  pose proof (rvec_neq v0 v1 Hne) as Hpos.
  assert (H01 : rdot (rminus v0 v1) n = 0) by (apply Hp; simpl; auto).
  set (b1 := v3_normalize (Vertex3d := r_vec3) (v3_sub (Vertex3d := r_vec3) v0 v1)).
  set (b2 := v3_cross (Vertex3d := r_vec3) b1 (v3_neg (Vertex3d := r_vec3) n)).
  exists (fun v => (v3_dot (Vertex3d := r_vec3) v b1, v3_dot (Vertex3d := r_vec3) v b2)).
  split; [reflexivity|].
  assert (K : exists bx by_ bz nx ny nz, b1 = (bx, by_, bz) /\ n = (nx, ny, nz) /\
    bx * bx + by_ * by_ + bz * bz = 1 /\ nx * nx + ny * ny + nz * nz = 1 /\ bx * nx + by_ * ny + bz * nz = 0).
  { destruct n as ((nx, ny), nz). destruct v0 as ((x0, y0), z0). destruct v1 as ((x1, y1), z1).
    unfold rdot, rminus in Hpos, H01, Hn. unfold b1; simpl.
    set (L2 := (x0 - x1) * (x0 - x1) + (y0 - y1) * (y0 - y1) + (z0 - z1) * (z0 - z1)) in *.
    assert (Hs : sqrt L2 * sqrt L2 = L2) by (apply sqrt_sqrt; Lra.lra).
    assert (Hs0 : sqrt L2 <> 0) by (intros Q; rewrite Q in Hs; Lra.lra).
    do 6 eexists. split; [reflexivity|]. split; [reflexivity|]. split; [|split; [exact Hn|]].
    - replace ((x0 - x1) * (1 / sqrt L2) * ((x0 - x1) * (1 / sqrt L2)) + (y0 - y1) * (1 / sqrt L2) * ((y0 - y1) * (1 / sqrt L2)) +
        (z0 - z1) * (1 / sqrt L2) * ((z0 - z1) * (1 / sqrt L2))) with (L2 / (sqrt L2 * sqrt L2)) by (unfold L2 at 1; field; exact Hs0).
      rewrite Hs. field. Lra.lra.
    - replace ((x0 - x1) * (1 / sqrt L2) * nx + (y0 - y1) * (1 / sqrt L2) * ny + (z0 - z1) * (1 / sqrt L2) * nz)
        with (((x0 - x1) * nx + (y0 - y1) * ny + (z0 - z1) * nz) / sqrt L2) by (field; exact Hs0).
      rewrite H01. field. exact Hs0. }
  destruct K as (bx & by_ & bz & nx & ny & nz & Eb & En & Hb & Hn' & Ho).
  unfold b2. rewrite Eb. clear b2 Eb b1. subst n. split.
  - intros a b Ha Hb'. specialize (Hp a b Ha Hb').
    destruct a as ((ax, ay), az). destruct b as ((cx, cy), cz). unfold rdot, rminus in Hp.
    pose proof (basis_product bx by_ bz nx ny nz (ax - cx) (ay - cy) (az - cz) Hb Hn' Ho Hp) as P. cbv zeta in P.
    unfold rdist2, rdist3, rdot, rminus. simpl. rewrite <- P. ring.
  - intros a b c _ _ _. destruct a as ((ax, ay), az). destruct b as ((ex, ey), ez). destruct c as ((cx, cy), cz).
    pose proof (basis_area bx by_ bz nx ny nz (ex - ax) (ey - ay) (ez - az) (cx - ax) (cy - ay) (cz - az) Hb Ho) as P. cbv zeta in P.
    unfold rorient2, rorient3, rtriple, rminus. simpl. rewrite <- P. ring.
Qed.
End Real.

(** ** Square roots of powers of four *)
Section Sqrt.
Variables prec emax : Z.
Context (prec_gt_0_ : Prec_gt_0 prec).
Context (prec_lt_emax_ : Prec_lt_emax prec emax).

Lemma sqrt_equiv (x : binary_float prec emax) : SFsqrt prec emax (B2SF x) = B2SF (Bsqrt mode_NE x).
Proof.
  case x as [sx|sx| |sx mx ex Bx]; try (now trivial || simpl; case sx).
  simpl. case sx; [reflexivity|]. rewrite B2SF_SF2B.
  set (melz := SFsqrt_core_binary _ _ _ _). case melz as [[mz ez] lz]. apply bra_equiv.
Qed.

Lemma sqrt_exact x a b : repF prec emax x a -> reprF prec emax b -> (0 < b)%Q -> (a == b * b)%Q ->
  repF prec emax (SFsqrt prec emax x) b.
Proof.
  intros (f & <- & Ff & Rf) Hb Pb Hab. exists (Bsqrt mode_NE f). rewrite sqrt_equiv. split; [reflexivity|].
  destruct (Bsqrt_correct prec emax prec_gt_0_ prec_lt_emax_ mode_NE f) as (R1 & R2 & _).
  assert (Pb' : (0 < Q2R b)%R) by (rewrite <- RMicromega.Q2R_0; now apply Qlt_Rlt).
  assert (Rs : sqrt (B2R f) = Q2R b).
  { rewrite Rf, (Qeq_eqR _ _ Hab), Q2R_mult. apply sqrt_square. Lra.lra. }
  split.
  - rewrite R2. destruct f as [s|s| |s m e H]; try reflexivity; try discriminate.
    destruct s; [|reflexivity]. exfalso.
    assert (N : (B2R (B754_finite true m e H) < 0)%R).
    { simpl. apply F2R_lt_0. reflexivity. }
    rewrite Rf, (Qeq_eqR _ _ Hab), Q2R_mult in N. assert (0 <= Q2R b * Q2R b)%R by (apply Rle_0_sqr). Lra.lra.
  - rewrite R1, Rs. apply round_generic; [apply valid_rnd_round_mode|exact Hb].
Qed.
End Sqrt.

Lemma qsqrt_exact a z : (0 < z)%Z -> (a == inject_Z (z * z))%Q -> (qsqrt a == inject_Z z)%Q.
Proof.
  intros Hz Ha. unfold qsqrt. rewrite (Qred_complete _ _ Ha).
  assert (Q : Qred (inject_Z (z * z)) = inject_Z (z * z)).
  { apply Qcanon.Qred_identity. simpl. apply Z.gcd_1_r. }
  rewrite Q. unfold inject_Z; cbn [Qnum Qden]. rewrite Z.sqrt_square by lia. reflexivity.
Qed.

(** ** The grids *)
Lemma sf_vectors : forall prec emax (Hp : Prec_gt_0 prec) (He : Prec_lt_emax prec emax), (24 <= prec)%Z -> (128 <= emax)%Z ->
    forall k, (0 <= k)%Z -> (2 * k < prec)%Z -> (2 * k < 60)%Z ->
    (1 <= 2 ^ k)%Z /\ repF prec emax (sf_one prec emax) 1 /\
    (forall z, (Z.abs z <= 2 ^ k * 2 ^ k)%Z -> reprF prec emax (inject_Z z)) /\
    (forall j, (0 <= j)%Z -> (2 ^ j <= 2 ^ k)%Z -> reprF prec emax (1 / inject_Z (2 ^ j))) /\
    (forall j x, (0 <= j)%Z -> (2 ^ j <= 2 ^ k)%Z -> repF prec emax x (inject_Z (2 ^ j * 2 ^ j)) ->
       repF prec emax (sf_sqrt prec emax x) (inject_Z (2 ^ j))).
Proof.
  intros prec emax Hp He P24 E128 k Hk Hk2 Hk3.
    assert (Pk : (1 <= 2 ^ k)%Z) by (assert (0 < 2 ^ k)%Z by (apply Z.pow_pos_nonneg; lia); lia).
    assert (Pz : forall z, (Z.abs z <= 2 ^ k * 2 ^ k)%Z -> reprF prec emax (inject_Z z)).
    { intros z Hz. assert (Q : (inject_Z z == inject_Z z / inject_Z (2 ^ 0))%Q) by (simpl; field).
      unfold reprF. rewrite (Qeq_eqR _ _ Q). apply repr_frac; auto; [lia|].
      rewrite <- Z.pow_add_r in Hz by lia. eapply Z.le_lt_trans; [exact Hz|]. apply Z.pow_lt_mono_r; lia. }
    assert (Jk : forall j, (0 <= j)%Z -> (2 ^ j <= 2 ^ k)%Z -> (j <= k)%Z).
    { intros j Hj L. apply Z.pow_le_mono_r_iff in L; lia. }
    split; auto. split; [|split; [exact Pz|split]].
    - apply (rep_of_Z prec emax Hp He P24 E128 1); [|simpl; lia].
      assert (2 ^ 24 <= 2 ^ prec)%Z by (apply Z.pow_le_mono_r; lia). simpl; lia.
    - intros j Hj L. apply Jk in L; auto. apply (repr_frac prec emax P24 E128 1); [lia|].
      assert (2 ^ 24 <= 2 ^ prec)%Z by (apply Z.pow_le_mono_r; lia). simpl; lia.
    - intros j x Hj L Hx. apply (sqrt_exact prec emax Hp He x (inject_Z (2 ^ j * 2 ^ j))); auto.
      + apply Pz. rewrite Z.abs_eq by lia. nia.
      + change 0%Q with (inject_Z 0). rewrite <- Zlt_Qlt. apply Z.pow_pos_nonneg; lia.
      + rewrite inject_Z_mult. reflexivity.
Qed.

Lemma grid3_rep E sqrt_ one val bound side : grid3 E sqrt_ one val bound side ->
  exists rep repr pb ep, @Rep E rep repr pb ep /\ bound = (2 ^ (pb - 10))%Z /\ (forall x q, val x q <-> rep x q) /\
    (1 <= side <= 2 ^ 26)%Z /\ grid E val bound side /\ rep one 1%Q /\
    (forall z, (Z.abs z <= side * side)%Z -> repr (inject_Z z)) /\
    (forall k, (0 <= k)%Z -> (2 ^ k <= side)%Z -> repr (1 / inject_Z (2 ^ k))%Q) /\
    (forall k x, (0 <= k)%Z -> (2 ^ k <= side)%Z -> rep x (inject_Z (2 ^ k * 2 ^ k)) ->
       rep (sqrt_ x) (inject_Z (2 ^ k))).
Proof.
  destruct 1 as [maxid side Hs|maxid k Hk|maxid k Hk].
  - exists Qeq, any, 50%Z, (1 # 4503599627370496)%Q. split; [apply Q_rep|]. split; [reflexivity|]. split; [reflexivity|].
    split; [lia|]. split; [now constructor|]. split; [reflexivity|]. split; [exact (fun _ _ => I)|].
    split; [exact (fun _ _ _ => I)|]. intros k x Hk L Hx. apply qsqrt_exact; auto. apply Z.pow_pos_nonneg; lia.
  - destruct (sf_vectors 53%Z 1024%Z eq_refl eq_refl) with (k := k) as (A & B & C & D & F); try lia.
    exists (repF 53 1024), (reprF 53 1024), 50%Z, eps64. split; [apply f64_rep|]. split; [reflexivity|]. split; [apply sf_is_rep|].
    split; [split; [lia|apply Z.pow_le_mono_r; lia]|]. split; [now constructor|]. auto.
  - destruct (sf_vectors 24%Z 128%Z eq_refl eq_refl) with (k := k) as (A & B & C & D & F); try lia.
    exists (repF 24 128), (reprF 24 128), 23%Z, eps32. split; [apply f32_rep|]. split; [reflexivity|]. split; [apply sf_is_rep|].
    split; [split; [lia|apply Z.pow_le_mono_r; lia]|]. split; [now constructor|]. auto.
Qed.

Lemma axis_neg n : axis n -> axis (zscale (-1) n).
Proof. unfold axis. simpl. intros [<-|[<-|[<-|[<-|[<-|[<-|[]]]]]]]; simpl; tauto. Qed.

Lemma axis_cross u n : axis u -> axis n -> zdot u n = 0%Z -> axis (zcross u (zscale (-1) n)) /\ zcross u (zscale (-1) n) = zcross n u.
Proof.
  unfold axis. intros Hu Hn. simpl in Hu, Hn.
  destruct Hu as [<-|[<-|[<-|[<-|[<-|[<-|[]]]]]]]; destruct Hn as [<-|[<-|[<-|[<-|[<-|[<-|[]]]]]]];
    simpl; intros D; try discriminate D; split; auto; tauto.
Qed.

(** ** Integer vectors are transformed exactly *)
Section IntegerVectors.
Context {E : Env}.
Variable rep : F -> Q -> Prop.
Variable repr : Q -> Prop.
Variable pb : Z.
Variable ep : Q.
Hypothesis R : Rep rep repr pb ep.
Variables (sqrt_ : F -> F) (one : F) (side : Z).
Hypothesis Sside : (1 <= side <= 2 ^ 26)%Z.
Hypothesis R1 : rep one 1%Q.
Hypothesis Rside : forall z, (Z.abs z <= side * side)%Z -> repr (inject_Z z).
Hypothesis Rinv : forall k, (0 <= k)%Z -> (2 ^ k <= side)%Z -> repr (1 / inject_Z (2 ^ k))%Q.
Hypothesis Rsqrt : forall k x, (0 <= k)%Z -> (2 ^ k <= side)%Z -> rep x (inject_Z (2 ^ k * 2 ^ k)) ->
  rep (sqrt_ x) (inject_Z (2 ^ k)).
Let bound : Z := (2 ^ (pb - 10))%Z.

(** Integers which the arithmetic represents. *)
Let ok (z : Z) : Prop := (Z.abs z <= 4 * bound \/ Z.abs z <= side * side)%Z.

Lemma ok_repr z : ok z -> repr (inject_Z z).
Proof.
  intros [H|H]; [|now apply Rside]. apply (rr_compat _ _ _ _ R (inject_Z (z * 128) / 128)).
  - apply (rr_small _ _ _ _ R). destruct (pb_pow rep repr pb ep R) as (A & _). unfold bound in H. rewrite A. lia.
  - rewrite inject_Z_mult. change (inject_Z 128) with (128 # 1)%Q. field.
Qed.

Lemma ok_big z : ok z -> (Qabs (inject_Z z) <= big)%Q.
Proof.
  intros H. assert (L : (Z.abs z <= 2 ^ 60)%Z).
  { destruct (pb_pow rep repr pb ep R) as (_ & _ & B). fold bound in B. destruct H as [H|H].
    - etransitivity; [exact H|]. change (2 ^ 60)%Z with (2 ^ 20 * 2 ^ 40)%Z. lia.
    - etransitivity; [exact H|]. change (2 ^ 60)%Z with (2 ^ 26 * 2 ^ 26 * 2 ^ 8)%Z. nia. }
  rewrite Zle_Qle in L. assert (Q : (Qabs (inject_Z z) == inject_Z (Z.abs z))%Q) by reflexivity.
  rewrite Q. exact L.
Qed.

Let is (x : F) (z : Z) : Prop := rep x (inject_Z z).

Lemma is_add x y a b : is x a -> is y b -> ok (a + b) -> is (fadd x y) (a + b).
Proof.
  intros A B K. unfold is. pose proof (inject_Z_plus a b) as Q. apply (rp_compat _ _ _ _ R _ (inject_Z a + inject_Z b)); [|now rewrite Q].
  apply (add_exact rep repr pb ep R); auto; rewrite <- Q; [now apply ok_big|now apply ok_repr].
Qed.
Lemma is_sub x y a b : is x a -> is y b -> ok (a - b) -> is (fsub x y) (a - b).
Proof.
  intros A B K. unfold is. assert (Q : inject_Z (a - b) = (inject_Z a - inject_Z b)%Q) by (unfold Zminus, Qminus; now rewrite inject_Z_plus, inject_Z_opp).
  rewrite Q. apply (sub_exact rep repr pb ep R); auto; rewrite <- Q; [now apply ok_big|now apply ok_repr].
Qed.
Lemma is_mul x y a b : is x a -> is y b -> ok (a * b) -> is (fmul x y) (a * b).
Proof.
  intros A B K. unfold is. pose proof (inject_Z_mult a b) as Q. rewrite Q.
  apply (mul_exact rep repr pb ep R); auto; rewrite <- Q; [now apply ok_big|now apply ok_repr].
Qed.
Lemma is_neg x a : is x a -> is (fneg x) (- a).
Proof. intros A. unfold is. rewrite inject_Z_opp. now apply (rp_neg _ _ _ _ R). Qed.

Lemma bound_pos : (1024 <= bound)%Z.
Proof. destruct (pb_pow rep repr pb ep R) as (_ & B & _). exact B. Qed.

Let is3 (v : F * F * F) (p : zvec) : Prop :=
  let '(x, y, z) := v in let '(a, b, c) := p in is x a /\ is y b /\ is z c.

Let V : Vertex3d F := env_vec3 sqrt_ one.

Lemma sub3_exact v w p q : is3 v p -> is3 w q ->
  (let '(a, b, c) := zminus3 p q in ok a /\ ok b /\ ok c) -> is3 (v3_sub (Vertex3d := V) v w) (zminus3 p q).
Proof.
  destruct v as ((vx_, vy_), vz), w as ((wx, wy), wz), p as ((px, py), pz), q as ((qx, qy), qz).
  simpl. intros (A1 & A2 & A3) (B1 & B2 & B3) (O1 & O2 & O3). repeat split; now apply is_sub.
Qed.

(** Vectors along an axis: every component is 0, except one. *)
Lemma dot_axis v w p u b : is3 v p -> is3 w u -> axis u -> (0 <= b)%Z -> (forall z, (Z.abs z <= b)%Z -> ok z) ->
  (let '(x, y, z) := p in Z.abs x <= b /\ Z.abs y <= b /\ Z.abs z <= b)%Z ->
  is (v3_dot (Vertex3d := V) v w) (zdot p u).
Proof.
  destruct v as ((vx_, vy_), vz), w as ((wx, wy), wz), p as ((px, py), pz), u as ((ux, uy), uz).
  simpl. intros (A1 & A2 & A3) (B1 & B2 & B3) Hu Hb Ok (O1 & O2 & O3).
  assert (K : (Z.abs (px * ux) <= b /\ Z.abs (py * uy) <= b /\ Z.abs (pz * uz) <= b /\
     Z.abs (px * ux + py * uy) <= b /\ Z.abs (px * ux + py * uy + pz * uz) <= b)%Z).
  { unfold axis in Hu. simpl in Hu. destruct Hu as [Q|[Q|[Q|[Q|[Q|[Q|[]]]]]]]; injection Q as <- <- <-; lia. }
  destruct K as (K1 & K2 & K3 & K4 & K5).
  apply is_add; [apply is_add| |]; try apply is_mul; auto.
Qed.

Lemma cross_axis v w u n : is3 v u -> is3 w n -> axis u -> axis n -> is3 (v3_cross (Vertex3d := V) v w) (zcross u n).
Proof.
  destruct v as ((vx_, vy_), vz), w as ((wx, wy), wz), u as ((ux, uy), uz), n as ((nx, ny), nz).
  simpl. intros (A1 & A2 & A3) (B1 & B2 & B3) Hu Hn.
  assert (Ok : forall z, (Z.abs z <= 2)%Z -> ok z) by (intros z Hz; left; pose proof bound_pos; lia).
  assert (U : (Z.abs ux <= 1 /\ Z.abs uy <= 1 /\ Z.abs uz <= 1)%Z).
  { unfold axis in Hu. simpl in Hu. destruct Hu as [Q|[Q|[Q|[Q|[Q|[Q|[]]]]]]]; injection Q as <- <- <-; lia. }
  assert (N : (Z.abs nx <= 1 /\ Z.abs ny <= 1 /\ Z.abs nz <= 1)%Z).
  { unfold axis in Hn. simpl in Hn. destruct Hn as [Q|[Q|[Q|[Q|[Q|[Q|[]]]]]]]; injection Q as <- <- <-; lia. }
  assert (M : forall a b, (Z.abs a <= 1 -> Z.abs b <= 1 -> Z.abs (a * b) <= 1)%Z) by (intros a b Ha Hb; rewrite Z.abs_mul; nia).
  assert (D : forall x y x' y' a b a' b', is x a -> is y b -> is x' a' -> is y' b' ->
     (Z.abs a <= 1)%Z -> (Z.abs b <= 1)%Z -> (Z.abs a' <= 1)%Z -> (Z.abs b' <= 1)%Z ->
     is (fsub (fmul x y) (fmul x' y')) (a * b - a' * b')).
  { intros x y x' y' a b a' b' X Y X' Y' Ha Hb Ha' Hb'. pose proof (M _ _ Ha Hb). pose proof (M _ _ Ha' Hb').
    apply is_sub; [apply is_mul|apply is_mul|]; auto; apply Ok; lia. }
  replace (uz * nx - ux * nz)%Z with (uz * nx - nz * ux)%Z by lia.
  replace (uy * nz - uz * ny)%Z with (uy * nz - ny * uz)%Z by lia.
  replace (ux * ny - uy * nx)%Z with (ux * ny - nx * uy)%Z by lia.
  repeat split; apply D; tauto.
Qed.

Lemma normalize_axis v u k : is3 v (zscale (2 ^ k) u) -> axis u -> (0 <= k)%Z -> (2 ^ k <= side)%Z ->
  is3 (v3_normalize (Vertex3d := V) v) u.
Proof.
  intros A Hu Hk Hs. assert (Pk : (0 < 2 ^ k)%Z) by (apply Z.pow_pos_nonneg; lia).
  assert (Oz : forall z, (Z.abs z <= 2 ^ k * 2 ^ k)%Z -> ok z) by (intros z Hz; right; nia).
  assert (Dd : is (v3_dot (Vertex3d := V) v v) (2 ^ k * 2 ^ k)).
  { destruct v as ((x, y), z), u as ((ux, uy), uz). simpl in A |- *. destruct A as (A1 & A2 & A3).
    assert (K : ((2 ^ k * ux) * (2 ^ k * ux) + (2 ^ k * uy) * (2 ^ k * uy) + (2 ^ k * uz) * (2 ^ k * uz) = 2 ^ k * 2 ^ k /\
       0 <= (2 ^ k * ux) * (2 ^ k * ux) /\ 0 <= (2 ^ k * uy) * (2 ^ k * uy) /\ 0 <= (2 ^ k * uz) * (2 ^ k * uz))%Z).
    { unfold axis in Hu. simpl in Hu. destruct Hu as [Q|[Q|[Q|[Q|[Q|[Q|[]]]]]]]; injection Q as <- <- <-; nia. }
    destruct K as (K0 & K1 & K2 & K3). rewrite <- K0.
    apply is_add; [apply is_add| |]; try apply is_mul; auto; apply Oz; lia. }
  assert (Nn : rep (fdiv one (sqrt_ (v3_dot (Vertex3d := V) v v))) (1 / inject_Z (2 ^ k))%Q).
  { assert (P0 : (0 < inject_Z (2 ^ k))%Q) by (change 0%Q with (inject_Z 0); now rewrite <- Zlt_Qlt).
    apply (div_exact rep repr pb ep R); auto.
    assert (B : (0 <= 1 / inject_Z (2 ^ k) <= 1)%Q).
    { split; [apply Qle_shift_div_l; auto; Lqa.lra|]. apply Qle_shift_div_r; auto.
      assert (1 <= inject_Z (2 ^ k))%Q by (change 1%Q with (inject_Z 1); rewrite <- Zle_Qle; lia). Lqa.lra. }
    rewrite Qabs_pos by tauto. apply (Qle_trans _ 1); [tauto|]. now compute. }
  assert (M : forall x a, is x (2 ^ k * a) -> (Z.abs a <= 1)%Z ->
     is (fmul x (fdiv one (sqrt_ (v3_dot (Vertex3d := V) v v)))) a).
  { intros x a Hx Ha. unfold is.
    assert (Q : (inject_Z (2 ^ k * a) * (1 / inject_Z (2 ^ k)) == inject_Z a)%Q).
    { rewrite inject_Z_mult. field. intros Z0. assert (P0 : (0 < inject_Z (2 ^ k))%Q) by (change 0%Q with (inject_Z 0); now rewrite <- Zlt_Qlt). Lqa.lra. }
    assert (Oa : ok a) by (left; pose proof bound_pos; lia).
    apply (rp_compat _ _ _ _ R _ (inject_Z (2 ^ k * a) * (1 / inject_Z (2 ^ k)))%Q); auto.
    apply (mul_exact rep repr pb ep R); auto.
    - rewrite Q. now apply ok_big.
    - apply (rr_compat _ _ _ _ R (inject_Z a)); [now apply ok_repr|now symmetry]. }
  assert (U : (let '(x, y, z) := u in Z.abs x <= 1 /\ Z.abs y <= 1 /\ Z.abs z <= 1)%Z).
  { unfold axis in Hu. simpl in Hu. destruct Hu as [<-|[<-|[<-|[<-|[<-|[<-|[]]]]]]]; lia. }
  destruct v as ((x, y), z), u as ((ux, uy), uz). simpl in A |- *. repeat split; apply M; tauto.
Qed.

Lemma neg3_exact w n : is3 w n -> is3 (v3_neg (Vertex3d := V) w) (zscale (-1) n).
Proof.
  destruct w as ((wx, wy), wz), n as ((nx, ny), nz). unfold is3, zscale.
  replace (-1 * nx)%Z with (- nx)%Z by lia. replace (-1 * ny)%Z with (- ny)%Z by lia. replace (-1 * nz)%Z with (- nz)%Z by lia.
  intros (A & B & C). repeat split; now apply is_neg.
Qed.

(** The plane coordinates are computed exactly. *)
Lemma transform_exact vs nv l u n p0 p1 rest k mx my :
  Forall2 is3 vs l -> is3 nv n -> axis u -> axis n -> zdot u n = 0%Z ->
  l = p0 :: p1 :: rest -> (0 <= k)%Z -> zminus3 p0 p1 = zscale (2 ^ k) u ->
  fits side (map (plane_coords u n) l) mx my ->
  (forall x y z, In (x, y, z) l -> (Z.abs x <= bound /\ Z.abs y <= bound /\ Z.abs z <= bound)%Z) ->
  exists vs2, transform_to_2d (V := V) vs nv = Ret vs2 /\
    Forall2 (fun v p => is (fst v) (fst p) /\ is (snd v) (snd p)) vs2 (map (plane_coords u n) l).
Proof.
  intros F2 Hn Au An D El Hk E01 Fi Bd.
  assert (Hs : (2 ^ k <= side)%Z).
  { assert (Q : (fst (plane_coords u n p0) - fst (plane_coords u n p1) = 2 ^ k)%Z).
    { transitivity (zdot (zminus3 p0 p1) u).
      - destruct p0 as ((?, ?), ?), p1 as ((?, ?), ?), u as ((?, ?), ?). simpl. lia.
      - rewrite E01. unfold axis in Au. simpl in Au. destruct Au as [<-|[<-|[<-|[<-|[<-|[<-|[]]]]]]]; simpl; lia. }
    destruct Fi as (B & _).
    destruct (B (plane_coords u n p0)) as (B0 & _); [rewrite El; simpl; auto|].
    destruct (B (plane_coords u n p1)) as (B1 & _); [rewrite El; simpl; auto|]. lia. }
  assert (Pk : (0 < 2 ^ k)%Z) by (apply Z.pow_pos_nonneg; lia).
  rewrite El in F2. inversion F2 as [|v0 p0' tl l' H0 F2' E1 E2]; subst. inversion F2' as [|v1 p1' tl' l'' H1 F2'' E3 E4]; subst.
  unfold transform_to_2d. change (getN (v0 :: v1 :: tl') 0) with (@Ret (V3 (Vertex3d := V)) v0). change (getN (v0 :: v1 :: tl') 1) with (@Ret (V3 (Vertex3d := V)) v1).
  simpl bind.
  set (b1 := v3_normalize (Vertex3d := V) (v3_sub (Vertex3d := V) v0 v1)). set (b2 := v3_cross (Vertex3d := V) b1 (v3_neg (Vertex3d := V) nv)).
  eexists. split; [reflexivity|].
  assert (I1 : is3 b1 u).
  { apply (normalize_axis _ _ k); auto. rewrite <- E01. apply sub3_exact; auto. rewrite E01.
    unfold axis in Au. simpl in Au.
    destruct Au as [<-|[<-|[<-|[<-|[<-|[<-|[]]]]]]]; simpl; repeat split; right; nia. }
  destruct (axis_cross u n Au An D) as (Ac & Ec).
  assert (I2 : is3 b2 (zcross n u)).
  { rewrite <- Ec. apply cross_axis; auto; [now apply neg3_exact|now apply axis_neg]. }
  rewrite Ec in Ac.
  assert (Ob : forall z, (Z.abs z <= bound)%Z -> ok z) by (intros z Hz; left; pose proof bound_pos; lia).
  assert (G : forall vs0 l0, Forall2 is3 vs0 l0 -> (forall p, In p l0 -> In p (p0 :: p1 :: rest)) ->
    Forall2 (fun v p => is (fst v) (fst p) /\ is (snd v) (snd p)) (map (fun v => (v3_dot (Vertex3d := V) v b1, v3_dot (Vertex3d := V) v b2)) vs0) (map (plane_coords u n) l0)).
  { induction 1 as [|v p vs0 l0 Hv Hl IH]; intros Sub; [constructor|]. simpl. constructor.
    - assert (Bp : (let '(x, y, z) := p in Z.abs x <= bound /\ Z.abs y <= bound /\ Z.abs z <= bound)%Z).
      { destruct p as ((x, y), z). apply Bd. apply Sub. now left. }
      split; simpl; apply (dot_axis _ _ _ _ bound); auto; pose proof bound_pos; lia.
    - apply IH. intros q Hq. apply Sub. now right. }
  exact (G _ _ F2 (fun p Hp => Hp)).
Qed.
End IntegerVectors.

Lemma on_grid3_on_grid {E : Env} sqrt_ one vs nv l u n bound : on_grid3 sqrt_ one vs nv l u n bound ->
  exists vs2, transform_to_2d (V := env_vec3 sqrt_ one) vs nv = Ret vs2 /\
    length vs2 = length vs /\ on_grid vs2 (map (plane_coords u n) l) bound.
Proof.
  intros [(val & side & mx & my & Gr & (F2 & Hn) & Fi) (Au & An & D) (p0 & p1 & rest & k & El & Hk & E01) Bd].
  destruct (grid3_rep _ _ _ _ _ _ Gr) as (rep & repr & pb & ep & R & -> & Hv & S1 & Gd & R1 & Rs & Ri & Rq).
  destruct (transform_exact rep repr pb ep R sqrt_ one side S1 R1 Rs Ri Rq vs nv l u n p0 p1 rest k mx my) as (vs2 & Ht & G2); auto.
  - clear - F2 Hv. induction F2 as [|((x, y), z) ((a, b), c) vs l (A & B & C) F2 IH]; constructor; auto. repeat split; now apply Hv.
  - destruct nv as ((x, y), z), n as ((a, b), c). destruct Hn as (A & B & C). repeat split; now apply Hv.
  - exists vs2. split; [exact Ht|].
    assert (L : length vs2 = length (map (plane_coords u n) l)) by (clear - G2; induction G2; simpl; congruence).
    split. { rewrite L, map_length. symmetry. clear - F2. induction F2; simpl; congruence. }
    exists val, side, mx, my. split; [exact Gd|]. split; [|split; [exact Fi|]].
    + clear - G2 Hv. induction G2 as [|v p vs0 l0 (A & B) G2 IH]; constructor; auto. split; now apply Hv.
    + intros p Hp. apply in_map_iff in Hp. destruct Hp as (((x, y), z) & <- & Hp). apply Bd in Hp.
      assert (Ac : axis (zcross n u)) by (destruct (axis_cross u n Au An D) as (A & B); now rewrite <- B).
      unfold plane_coords. simpl fst. simpl snd.
      assert (Q : forall w, axis w -> (Z.abs (zdot (x, y, z) w) <= 2 ^ (pb - 10))%Z).
      { intros w Hw. unfold axis in Hw. simpl in Hw. destruct Hw as [<-|[<-|[<-|[<-|[<-|[<-|[]]]]]]]; simpl zdot; lia. }
      split; now apply Q.
Qed.

(** The orientation in plane coordinates is the orientation seen from the side of n. *)
Lemma plane_coords_orient u n a b c : axis u -> axis n -> zdot u n = 0%Z ->
  (let pa := plane_coords u n a in let pb := plane_coords u n b in let pc := plane_coords u n c in
   (fst pb - fst pa) * (snd pc - snd pa) - (snd pb - snd pa) * (fst pc - fst pa) = zorient3 n a b c)%Z.
Proof.
  unfold axis. intros Hu Hn. simpl in Hu, Hn. destruct a as ((ax, ay), az), b as ((bx, by_), bz), c as ((cx, cy), cz).
  destruct Hu as [<-|[<-|[<-|[<-|[<-|[<-|[]]]]]]]; destruct Hn as [<-|[<-|[<-|[<-|[<-|[<-|[]]]]]]];
    simpl zdot; intros D; try discriminate D; unfold plane_coords, zorient3, zcross, zdot, zminus3; simpl fst; simpl snd; ring.
Qed.

Lemma nth_map_coords u n l v : (N.to_nat v < length l)%nat ->
  zpoint (map (plane_coords u n) l) v =
  (inject_Z (fst (plane_coords u n (nth (N.to_nat v) l (0, 0, 0)%Z))), inject_Z (snd (plane_coords u n (nth (N.to_nat v) l (0, 0, 0)%Z)))).
Proof.
  intros H. unfold zpoint. rewrite (nth_indep _ (0, 0)%Z (plane_coords u n (0, 0, 0)%Z)) by now rewrite map_length.
  now rewrite map_nth.
Qed.

Local Open Scope N_scope.

(** Seen from the side of n, the triangles are clockwise. *)
Lemma clockwise3 u n l t : axis u -> axis n -> zdot u n = 0%Z ->
  (let '(a, b, c) := t in a < lenN l /\ b < lenN l /\ c < lenN l) ->
  tri_clockwise (zpoint (map (plane_coords u n) l)) t ->
  let '(a, b, c) := t in
  (zorient3 n (nth (N.to_nat a) l (0, 0, 0)) (nth (N.to_nat b) l (0, 0, 0)) (nth (N.to_nat c) l (0, 0, 0)) < 0)%Z.
Proof.
  destruct t as ((a, b), c). intros Au An D (La & Lb & Lc) H.
  assert (L : forall v, v < lenN l -> (N.to_nat v < length l)%nat) by (unfold lenN; intros; lia).
  unfold tri_clockwise, clockwise, orient in H.
  rewrite !nth_map_coords in H by auto.
  rewrite <- (plane_coords_orient u n) by auto. cbv zeta.
  rewrite Zlt_Qlt. unfold Zminus. rewrite !inject_Z_plus, !inject_Z_opp, !inject_Z_mult, !inject_Z_plus, !inject_Z_opp.
  cbn [fst snd] in H. exact H.
Qed.

Section Api3d.
Context {E : Env}.
Variables (sqrt_ : F -> F) (one : F).
Variables (vs : list (F * F * F)) (nv : F * F * F) (l : list zvec) (u n : zvec) (bound : Z).
Hypothesis G : on_grid3 sqrt_ one vs nv l u n bound.
Hypothesis Hid : 2 * lenN vs + 2 <= idmax.
Variables (fuel : nat) (bins : N).
Hypothesis Hf : (4 * length vs + 12 <= fuel)%nat.
Notation at_ := (zpoint (map (plane_coords u n) l)).
Let V := env_vec3 sqrt_ one.

Definition clockwise_from (out : list (N * N * N)) : Prop :=
  forall a b c, In (a, b, c) out ->
    (zorient3 n (nth (N.to_nat a) l (0, 0, 0)) (nth (N.to_nat b) l (0, 0, 0)) (nth (N.to_nat c) l (0, 0, 0)) < 0)%Z.

Lemma grid3_lens : length vs = length l.
Proof. destruct G as [(val & side & mx & my & _ & (F2 & _) & _) _ _ _]. clear - F2. induction F2; simpl; congruence. Qed.

Lemma mesh_from (vs2 : list (F * F)) out : length vs2 = length vs ->
  (forall a b c, In (a, b, c) out -> a < lenN vs2 /\ b < lenN vs2 /\ c < lenN vs2) ->
  valid_mesh at_ (lenN vs) out -> clockwise_from out.
Proof.
  intros L Ids M a b c H. destruct G as [_ (Au & An & D) _ _].
  apply (clockwise3 u n l (a, b, c) Au An D); [|now apply (vm_clockwise _ _ _ M)].
  destruct (Ids _ _ _ H) as (A & B & C). unfold lenN in *. rewrite <- grid3_lens, <- L. auto.
Qed.

Lemma lenN_eq {A B} (x : list A) (y : list B) : length x = length y -> lenN x = lenN y.
Proof. unfold lenN. congruence. Qed.

Lemma grid3_dt out :
  triangulation_from_3d_planar_vertices (V := V) fuel bins vs nv = Ret out ->
  valid_mesh at_ (lenN vs) out /\ clockwise_from out.
Proof.
  destruct (on_grid3_on_grid _ _ _ _ _ _ _ _ G) as (vs2 & Ht & L & G2). pose proof (lenN_eq _ _ L) as LN.
  unfold triangulation_from_3d_planar_vertices. fold V in Ht. change (@V3 F V) with (F * F * F)%type.
  destruct (lenN vs <? 3) eqn:L3.
  { intros H. apply Ret_inj in H. subst out. split; [|intros ? ? ? []].
    split; simpl; try (intros; contradiction); [|constructor]. intros i j s t p _ H. destruct i; discriminate. }
  rewrite Ht. simpl bind. intros H.
  assert (Hid2 : 2 * lenN vs2 + 2 <= idmax) by (rewrite LN; exact Hid).
  assert (Hf2 : (4 * length vs2 + 12 <= fuel)%nat) by (rewrite L; exact Hf).
  destruct (grid_valid vs2 _ bound (InputSpec.Input_grid vs2 _ bound G2) Hid2 fuel bins out Hf2 H) as (M & _).
  assert (M' : valid_mesh at_ (lenN vs) out) by (rewrite <- LN; exact M). split; [exact M'|]. apply (mesh_from vs2); auto.
  refine (proj1 (dt_ids fuel bins vs2 out _ H)). change (lenN (A := vertex) vs2) with (lenN vs2). lia.
Qed.

Lemma grid3_cdt cs out :
  constrained_triangulation_from_3d_planar_vertices (V := V) fuel bins vs nv cs = Ret out ->
  valid_mesh at_ (lenN vs) out /\ clockwise_from out /\
  (3 <= lenN vs -> noncrossing at_ cs -> forall c, In c cs -> ~ same_place (at_ (efrom c)) (at_ (eto c)) ->
     respects at_ (lenN vs) out (efrom c) (eto c)).
Proof.
  destruct (on_grid3_on_grid _ _ _ _ _ _ _ _ G) as (vs2 & Ht & L & G2). pose proof (lenN_eq _ _ L) as LN.
  unfold constrained_triangulation_from_3d_planar_vertices. fold V in Ht. change (@V3 F V) with (F * F * F)%type.
  destruct (lenN vs <? 3) eqn:L3.
  { intros H. apply Ret_inj in H. subst out. split; [|split; [intros ? ? ? []|apply N.ltb_lt in L3; lia]].
    split; simpl; try (intros; contradiction); [|constructor]. intros i j s t p _ H. destruct i; discriminate. }
  rewrite Ht. simpl bind. intros H.
  assert (Hid2 : 2 * lenN vs2 + 2 <= idmax) by (rewrite LN; exact Hid).
  assert (Hf2 : (4 * length vs2 + 12 <= fuel)%nat) by (rewrite L; exact Hf).
  pose proof (grid_cdt_valid vs2 _ _ bound (InputSpec.Input_grid vs2 _ bound G2) Hid2 fuel bins Hf2 cs out H) as M.
  assert (M' : valid_mesh at_ (lenN vs) out) by (rewrite <- LN; exact M). split; [exact M'|]. split.
  { apply (mesh_from vs2); auto. refine (proj1 (cdt_ids fuel bins vs2 cs out _ H)). change (lenN (A := vertex) vs2) with (lenN vs2). lia. }
  intros H3 Nc c Hc Hs. rewrite <- LN in H3 |- *.
  exact (proj1 (grid_cdt_edges vs2 _ _ bound (InputSpec.Input_grid vs2 _ bound G2) Hid2 fuel bins Hf2 cs c out H3 Nc Hc Hs H)).
Qed.
End Api3d.
