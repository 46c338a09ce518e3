(** * RoundCircleApi: the count of the circumcircle checker in f64 and f32. *)

From Coq Require Import ZArith NArith List Bool Lia QArith Qreals Lqa Reals Lra SpecFloat.
From Flocq Require Import Core.Core IEEE754.BinarySingleNaN.
From Verif Require Import Base BaseFacts Arith Types Utils F64 SFRep Grid64 GridNum Spec GridSpec InputSpec Triangulation GridApi PredApi ApiProps AnyDT LawsonGrid Space3d Quality SpecQuality
  QualityFacts QualityApi SpecRound3d Round3d SpecMargin RoundCircle.
Import ListNotations.
Local Open Scope R_scope.

Lemma forall2_len {A B} (R : A -> B -> Prop) l l' : Forall2 R l l' -> length l = length l'.
Proof. induction 1; simpl; auto. Qed.

Lemma forall2_nth {A B} (R : A -> B -> Prop) l l' d d' n : Forall2 R l l' -> (n < length l)%nat -> R (nth n l d) (nth n l' d').
Proof. intros H. revert n. induction H; intros [|n] K; simpl in *; try lia; auto. apply IHForall2. lia. Qed.

Lemma existsb_ext {A} (f g : A -> bool) l : (forall x, In x l -> f x = g x) -> existsb f l = existsb g l.
Proof. induction l as [|x l IH]; intros H; auto. simpl. rewrite H by now left. rewrite IH; auto. intros y Hy. apply H. now right. Qed.

Definition rltb (a b : R) : bool := if Rlt_dec a b then true else false.
Notation rinfo := (get_circumcircle_info R Rplus Rminus Rmult Rdiv sqrt 2).
Notation rin := (in_info R Rplus Rminus Rmult sqrt rltb).

Section SF.
Variables prec emax : Z.
Context (P : Prec_gt_0 prec) (L : Prec_lt_emax prec emax).
Hypothesis Hp : (24 <= prec <= 53)%Z.
Hypothesis He : (128 <= emax)%Z.
Variable G : Z.
Hypothesis G1 : (1 <= G <= 2 ^ 14)%Z.
Hypothesis G2 : (32 * (G * G * G) < 2 ^ prec)%Z.
Notation repR := (repR prec emax).
Notation finfo := (get_circumcircle_info spec_float (SFadd prec emax) (SFsub prec emax) (SFmul prec emax) (SFdiv prec emax) (SFsqrt prec emax) (sf_of_Z prec emax 2)).
Notation fin_ := (in_info spec_float (SFadd prec emax) (SFsub prec emax) (SFmul prec emax) (SFsqrt prec emax) SFltb).

(** The float vertex is the integer point, in range. *)
Definition is_pt (v : spec_float * spec_float) (p : Z * Z) : Prop :=
  repR (fst v) (IZR (fst p)) /\ repR (snd v) (IZR (snd p)) /\ (Z.abs (fst p) <= G)%Z /\ (Z.abs (snd p) <= G)%Z.
Definition rp (p : Z * Z) : rpoint := (IZR (fst p), IZR (snd p)).

Lemma two_R : repR (sf_of_Z prec emax 2) (IZR 2).
Proof.
  pose proof (rep_of_Z prec emax P L ltac:(lia) He 2 ltac:(pose proof (prec_pow prec ltac:(lia)); lia) ltac:(lia)) as H.
  destruct H as (b & A & F & V). exists b. split; auto. split; auto. rewrite V. unfold Q2R. simpl. field.
Qed.

Lemma diff_small p q : (Z.abs p <= G)%Z -> (Z.abs q <= G)%Z -> (Z.abs (p - q) <= 2 * G)%Z.
Proof. clear. lia. Qed.

Lemma diff_rep x y p q : repR x (IZR p) -> repR y (IZR q) -> (Z.abs p <= G)%Z -> (Z.abs q <= G)%Z -> repR (SFsub prec emax x y) (IZR (p - q)).
Proof.
  intros Hx Hy A B. apply (int_sub prec emax P L Hp He); auto. pose proof (diff_small _ _ A B) as K.
  assert (G <= G * G /\ G * G <= G * G * G)%Z as (Q1 & Q2) by (clear - G1; split; nia).
  remember (G * G)%Z as g2. remember (g2 * G)%Z as g3. clear - K Q1 Q2 G2 G1. lia.
Qed.

Lemma one_circle fa fb fc fv a b c v : is_pt fa a -> is_pt fb b -> is_pt fc c -> is_pt fv v ->
  not_flat (rp a) (rp b) (rp c) -> clear_of_circle prec G (rp a) (rp b) (rp c) (rp v) ->
  fin_ (finfo fa fb fc) fv = rin (rinfo (rp a) (rp b) (rp c)) (rp v).
Proof.
  intros Ha Hb Hc Hv Nf Clear.
  pose proof (center_dist _ _ _ Nf) as (E1 & E2). cbv zeta in E1, E2. specialize (Clear _ E1 E2). clear E1 E2.
  destruct fa as (fax, fay), fb as (fbx, fby), fc as (fcx, fcy), fv as (fvx, fvy).
  destruct a as (ax, ay), b as (bx, by_), c as (cx, cy), v as (vx, vy).
  destruct Ha as (Ax & Ay & Ax' & Ay'), Hb as (Bx & By & Bx' & By'), Hc as (Cx & Cy & Cx' & Cy'), Hv as (Vx & Vy & Vx' & Vy').
  cbn [fst snd] in *.
  pose proof (diff_small _ _ Bx' Ax') as S1. pose proof (diff_small _ _ By' Ay') as S2.
  pose proof (diff_small _ _ Cx' Ax') as S3. pose proof (diff_small _ _ Cy' Ay') as S4.
  pose proof (diff_rep _ _ _ _ Bx Ax Bx' Ax') as R1. pose proof (diff_rep _ _ _ _ By Ay By' Ay') as R2.
  pose proof (diff_rep _ _ _ _ Cx Ax Cx' Ax') as R3. pose proof (diff_rep _ _ _ _ Cy Ay Cy' Ay') as R4.
  assert (G0 : (1 <= G)%Z) by (clear - G1; lia).
  destruct (small_n prec Hp G (bx - ax)%Z (by_ - ay)%Z (cx - ax)%Z (cy - ay)%Z S1 S2 S3 S4) as (N1 & N2).
  destruct (rep_b2 prec emax P L Hp He G G0 G2 _ _ _ _ S1 S2 S3 S4 _ _ _ _ _ R1 R2 R3 R4 two_R) as (_ & _ & Rd).
  destruct (rep_n prec emax P L Hp He G G0 G2 _ _ _ _ S1 S2 S3 S4 _ _ _ _ _ R1 R2 R3 R4 two_R) as (RN1 & RN2).
  unfold not_flat, rp in Nf. cbn [fst snd] in Nf. rewrite <- !minus_IZR, <- !mult_IZR, <- minus_IZR in Nf.
  set (d := (2 * ((bx - ax) * (cy - ay) - (by_ - ay) * (cx - ax)))%Z) in *.
  set (nx := ((cy - ay) * ((bx - ax) * (bx - ax) + (by_ - ay) * (by_ - ay)) - (by_ - ay) * ((cx - ax) * (cx - ax) + (cy - ay) * (cy - ay)))%Z) in *.
  set (ny := ((bx - ax) * ((cx - ax) * (cx - ax) + (cy - ay) * (cy - ay)) - (cx - ax) * ((bx - ax) * (bx - ax) + (by_ - ay) * (by_ - ay)))%Z) in *.
  assert (Hd : (2 <= Z.abs d)%Z).
  { unfold d. rewrite Z.abs_mul. assert (Hz : ((bx - ax) * (cy - ay) - (by_ - ay) * (cx - ax) <> 0)%Z) by (intros Q; apply Nf; now rewrite Q).
    remember ((bx - ax) * (cy - ay) - (by_ - ay) * (cx - ax))%Z as z. clear - Hz. lia. }
  assert (Ei : rinfo (rp (ax, ay)) (rp (bx, by_)) (rp (cx, cy)) =
    ((IZR nx / IZR d + IZR ax, IZR ny / IZR d + IZR ay), sqrt (IZR nx / IZR d * (IZR nx / IZR d) + IZR ny / IZR d * (IZR ny / IZR d)))).
  { unfold get_circumcircle_info, rp. cbn [fst snd]. unfold nx, ny, d.
    repeat (rewrite ?mult_IZR, ?minus_IZR, ?plus_IZR). reflexivity. }
  rewrite Ei in Clear |- *. cbn [fst] in Clear.
  pose proof (compare_ok prec emax P L Hp He G G1 d nx ny Hd N1 N2 _ _ _ Rd RN1 RN2 ax ay vx vy Ax' Ay' Vx' Vy' fax fay fvx fvy Ax Ay Vx Vy Clear) as K.
  cbv zeta in K. unfold in_info, get_circumcircle_info. cbn [fst snd].
  apply eq_true_iff_eq. rewrite K. unfold rltb, rp. cbn [fst snd].
  assert (Pp : forall x y, 0 <= x * x + y * y) by (intros; pose proof (Rle_0_sqr x); pose proof (Rle_0_sqr y); unfold Rsqr in *; lra).
  set (ux := IZR nx / IZR d) in *. set (uy := IZR ny / IZR d) in *. unfold rsqdist. cbn [fst snd].
  replace ((ux + IZR ax - IZR ax) * (ux + IZR ax - IZR ax) + (uy + IZR ay - IZR ay) * (uy + IZR ay - IZR ay)) with (ux * ux + uy * uy) by ring.
  replace ((ux + IZR ax - IZR vx) * (ux + IZR ax - IZR vx) + (uy + IZR ay - IZR vy) * (uy + IZR ay - IZR vy))
    with ((IZR vx - (ux + IZR ax)) * (IZR vx - (ux + IZR ax)) + (IZR vy - (uy + IZR ay)) * (IZR vy - (uy + IZR ay))) by ring.
  destruct (Rlt_dec _ _) as [H|H]; split; intros Q; try discriminate; auto.
  - now apply sqrt_lt_0_alt.
  - exfalso. apply H. apply sqrt_lt_1_alt. split; auto.
Qed.

Variable vs : list (spec_float * spec_float).
Variable l : list (Z * Z).
Hypothesis HI : int_points prec emax G vs l.

Lemma points_at v : (v < lenN vs)%N -> is_pt (s_at spec_float (S754_zero false, S754_zero false) vs v) (nth (N.to_nat v) l (0, 0)%Z) /\
  s_at R (0, 0) (real_points l) v = rp (nth (N.to_nat v) l (0, 0)%Z).
Proof.
  destruct HI as (F2 & B). intros H. pose proof (forall2_len _ _ _ F2) as Hl. unfold lenN in H. split.
  - pose proof (forall2_nth _ _ _ (S754_zero false, S754_zero false) (0, 0)%Z (N.to_nat v) F2 ltac:(lia)) as (A & C).
    fold (s_at spec_float (S754_zero false, S754_zero false) vs v) in A, C.
    destruct (B (nth (N.to_nat v) l (0, 0)%Z)) as (D & E0); [apply nth_In; lia|].
    apply sf_is_R in A. apply sf_is_R in C.
    assert (Qz : forall z, Q2R (inject_Z z) = IZR z) by (intros; unfold Q2R; simpl; field). rewrite Qz in A, C. split; auto.
  - unfold s_at, real_points, rp. now rewrite <- (map_nth (fun p => (IZR (fst p), IZR (snd p)))).
Qed.

Lemma check_same ts : ids_in_range ts l ->
  (forall a b c, In (a, b, c) ts -> not_flat (rat (real_points l) a) (rat (real_points l) b) (rat (real_points l) c)) ->
  clear_mesh prec G (real_points l) ts ->
  check_circumcircles spec_float (SFadd prec emax) (SFsub prec emax) (SFmul prec emax) (SFdiv prec emax) (SFsqrt prec emax) (sf_of_Z prec emax 2) SFltb ts vs
  = r_check_circumcircles ts (real_points l).
Proof.
  intros Hr Nf Cl. destruct HI as (F2 & _). pose proof (forall2_len _ _ _ F2) as Hl.
  assert (Hr' : ids_in_range ts vs) by (intros t v Ht Hv; specialize (Hr t v Ht Hv); unfold lenN in *; lia).
  assert (Hr2 : ids_in_range ts (real_points l)).
  { intros t v Ht Hv. specialize (Hr t v Ht Hv). unfold lenN, real_points in *. now rewrite map_length. }
  unfold r_check_circumcircles. rewrite (check_val _ _ _ _ _ _ _ _ (S754_zero false, S754_zero false)) by auto.
  rewrite (check_val _ _ _ _ _ _ _ _ (0, 0)) by auto. do 2 f_equal. apply filter_ext_in.
  intros ((a, b), c) Ht. unfold badb. apply existsb_ext. intros t' Ht'. apply existsb_ext. intros v Hv.
  destruct (ownb (a, b, c) v) eqn:Eo; auto. simpl. apply list3_spec in Hv.
  assert (Iv : forall w, tri_corner (a, b, c) w -> (w < lenN vs)%N) by (intros w Hw; exact (Hr' _ _ Ht Hw)).
  destruct (points_at a) as (A1 & A2); [apply Iv; simpl; auto|]. destruct (points_at b) as (B1 & B2); [apply Iv; simpl; auto|].
  destruct (points_at c) as (C1 & C2); [apply Iv; simpl; auto|]. destruct (points_at v) as (V1 & V2); [exact (Hr' _ _ Ht' Hv)|].
  rewrite A2, B2, C2, V2. apply one_circle; auto.
  - rewrite <- A2, <- B2, <- C2. apply Nf. auto.
  - rewrite <- A2, <- B2, <- C2, <- V2. apply (Cl a b c t' v); auto. intros Q. apply ownb_spec in Q. congruence.
Qed.
End SF.

(** ** The two formats *)
Lemma format_ok prec emax G : checker_range prec emax G ->
  (Prec_gt_0 prec /\ Prec_lt_emax prec emax) /\ (24 <= prec <= 53 /\ 128 <= emax /\ 1 <= G <= 2 ^ 14 /\ 32 * (G * G * G) < 2 ^ prec)%Z.
Proof.
  assert (C : forall K g, (1 <= g <= K)%Z -> (g * g * g <= K * K * K)%Z).
  { intros K g H. apply Z.mul_le_mono_nonneg; try lia. apply Z.mul_le_mono_nonneg; lia. }
  intros [g H|g H]; (split; [split; reflexivity|]); (split; [split; discriminate|]); (split; [discriminate|]).
  - split; auto. specialize (C _ _ H). remember (g * g * g)%Z as k. clear - C.
    change (2 ^ 14 * 2 ^ 14 * 2 ^ 14)%Z with 4398046511104%Z in C. change (2 ^ 53)%Z with 9007199254740992%Z. lia.
  - split; [clear - H; change (2 ^ 6)%Z with 64%Z in H; change (2 ^ 14)%Z with 16384%Z; lia|]. specialize (C _ _ H). remember (g * g * g)%Z as k. clear - C.
    change (2 ^ 6 * 2 ^ 6 * 2 ^ 6)%Z with 262144%Z in C. change (2 ^ 24)%Z with 16777216%Z. lia.
Qed.

Lemma coords_ok prec emax maxid G : checker_range prec emax G ->
  exists b, (G <= b)%Z /\ exact_coords (sf_env prec emax maxid) (int_coord prec emax b).
Proof.
  intros [g H|g H].
  - exists (2 ^ 20)%Z. split; [|constructor]. change (2 ^ 14)%Z with 16384%Z in H. change (2 ^ 20)%Z with 1048576%Z. lia.
  - exists (2 ^ 6)%Z. split; [lia|constructor].
Qed.

Lemma degen_counts prec emax maxid G vs l ts : checker_range prec emax G -> int_points prec emax G vs l -> ids_in_range ts l ->
  check_degenerate_triangles (E := sf_env prec emax maxid) ts vs
  = Ret (lenN (filter (tri_flat (zpoint l)) ts), lenN (filter (tri_ccw (zpoint l)) ts)).
Proof.
  intros C (F2 & B) Hr. destruct (coords_ok prec emax maxid G C) as (b & Hb & Ec).
  set (ps := map (fun p => (inject_Z (fst p), inject_Z (snd p))) l).
  assert (F2' : Forall2 (vertex_is (E := sf_env prec emax maxid) (int_coord prec emax b)) vs ps).
  { unfold ps. clear - F2 B Hb. induction F2 as [|v p vs l H F2 IH]; simpl; constructor.
    - destruct H as (H1 & H2). destruct (B p ltac:(now left)) as (B1 & B2). split; (split; [assumption|]); eexists; (split; [reflexivity|lia]).
    - apply IH. intros q Hq. apply B. now right. }
  pose proof (forall2_len _ _ _ F2) as Hl.
  rewrite (api_degenerate (sf_env prec emax maxid) _ Ec vs ps ts F2').
  2:{ intros t Ht v Hv. specialize (Hr t v Ht Hv). unfold lenN in *. rewrite <- Hl in Hr. exact Hr. }
  assert (At : forall v, nth (N.to_nat v) ps (0, 0)%Q = zpoint l v).
  { intros v. unfold ps, zpoint. rewrite <- (map_nth (fun p => (inject_Z (fst p), inject_Z (snd p)))). reflexivity. }
  do 2 f_equal; f_equal; apply filter_ext; intros ((x, y), z); unfold tri_flat, tri_ccw; now rewrite !At.
Qed.

Lemma real_is_rpt l v : rat (real_points l) v = rpt (zpoint l v).
Proof.
  assert (Qz : forall z, Q2R (inject_Z z) = IZR z) by (intros; unfold Q2R; simpl; field).
  unfold rpt, zpoint. cbn [fst snd]. rewrite !Qz. unfold rat, real_points. now rewrite <- (map_nth (fun p => (IZR (fst p), IZR (snd p)))).
Qed.

Lemma rounded_check prec emax maxid G vs l ts : checker_range prec emax G -> int_points prec emax G vs l -> ids_in_range ts l ->
  (forall a b c, In (a, b, c) ts -> ~ (orient (zpoint l a) (zpoint l b) (zpoint l c) == 0)%Q) ->
  clear_mesh prec G (real_points l) ts ->
  exists bad, (forall t, In t ts -> (bad t = true <-> crowded (real_points l) ts t)) /\
    r_check_circumcircles ts (real_points l) = Ret (lenN (filter bad ts)) /\
    check_delaunay_optimal (E := sf_env prec emax maxid) (sf_sqrt prec emax) ts vs
    = Ret (0%N, lenN (filter (tri_ccw (zpoint l)) ts), lenN (filter bad ts)).
Proof.
  intros C HI Hr Nf Cl. destruct (format_ok _ _ _ C) as ((P & L) & Hp & He & G1 & G2).
  assert (Nf' : forall a b c, In (a, b, c) ts -> not_flat (rat (real_points l) a) (rat (real_points l) b) (rat (real_points l) c)).
  { intros a b c Ht. rewrite !real_is_rpt. apply qr_not_flat. auto. }
  assert (Hr2 : ids_in_range ts (real_points l)).
  { intros t v Ht Hv. specialize (Hr t v Ht Hv). unfold lenN, real_points in *. now rewrite map_length. }
  destruct (r_check ts (real_points l) Hr2 Nf') as (bad & Hb & Hc). exists bad. split; auto. split; auto.
  unfold check_delaunay_optimal. rewrite (degen_counts prec emax maxid G vs l ts C HI Hr). cbn [bind].
  rewrite (filter_none (tri_flat (zpoint l))).
  2:{ intros ((x, y), z) Ht. unfold tri_flat. apply not_true_is_false. intros K. apply Qeq_bool_iff in K. now apply (Nf x y z). }
  pose proof (check_same prec emax P L Hp He G G1 G2 vs l HI ts Hr Nf' Cl) as K. rewrite Hc in K.
  match goal with |- bind ?x _ = _ => replace x with (@Ret N (lenN (filter bad ts))) by (symmetry; exact K) end. reflexivity.
Qed.

Lemma ids_fit (n m : N) : (2 * n + 2 <= m -> n <= m + 1)%N.
Proof. lia. Qed.

Lemma rounded_passes prec emax maxid G vs l bound fuel bins out :
  let E := sf_env prec emax maxid in
  checker_range prec emax G -> int_points prec emax G vs l -> on_grid (E := E) vs l bound ->
  (2 * lenN vs + 2 <= maxid)%N -> (4 * length vs + 12 <= fuel)%nat ->
  triangulation_from_2d_vertices (E := E) fuel bins vs = Ret out ->
  locally_delaunay (zpoint l) out -> convex_area (zpoint l) out -> clear_mesh prec G (real_points l) out ->
  check_delaunay_optimal (E := E) (sf_sqrt prec emax) out vs = Ret (0, 0, 0)%N.
Proof.
  intros E C HI Hg Hid Hf Ho LD Cx Cl. pose proof (forall2_len _ _ _ (proj1 HI)) as Hl.
  pose proof (Input_grid (E := E) _ _ _ Hg) as Gi.
  pose proof (grid_valid (E := E) vs _ bound Gi Hid fuel bins out Hf Ho) as (VM & _).
  assert (Hr : ids_in_range out l).
  { intros ((x, y), z) v Ht Hv. destruct (dt_ids (E := E) fuel bins vs out) as (Ids & _); [exact (ids_fit _ _ Hid)|auto|].
    destruct (Ids _ _ _ Ht) as (I1 & I2 & I3). unfold lenN in *. rewrite <- Hl. simpl in Hv. destruct Hv as [->|[->| ->]]; auto. }
  assert (Cw : forall a b c, In (a, b, c) out -> (orient (zpoint l a) (zpoint l b) (zpoint l c) < 0)%Q).
  { intros a b c Ht. exact (vm_clockwise _ _ _ VM _ Ht). }
  destruct (rounded_check prec emax maxid G vs l out C HI Hr) as (bad & Hb & Hc & Hk); auto.
  { intros a b c Ht K. specialize (Cw _ _ _ Ht). Lqa.lra. }
  rewrite (filter_none (tri_ccw (zpoint l))) in Hk.
  2:{ intros ((x, y), z) Ht. unfold tri_ccw. apply negb_false_iff, Qle_bool_iff. apply Qlt_le_weak. now apply Cw. }
  pose proof (grid_passes (E := E) vs (fun v => fst (zpoint l v)) (fun v => snd (zpoint l v)) bound Gi Hid fuel bins out (real_points l) Hf Ho LD Cx) as Pz.
  rewrite Pz in Hc.
  - apply (f_equal (fun r => match r with Ret x => x | _ => 1%N end)) in Hc. cbn beta iota in Hc. rewrite <- Hc in Hk. exact Hk.
  - split; [unfold lenN, real_points; rewrite map_length; now apply f_equal|]. intros v _. rewrite real_is_rpt. reflexivity.
Qed.

(** ** A check on integers for being clear of a circle *)
Definition zclear (prec G : Z) (a b c v : Z * Z) : bool :=
  let px := (fst b - fst a)%Z in let py := (snd b - snd a)%Z in
  let qx := (fst c - fst a)%Z in let qy := (snd c - snd a)%Z in
  let wx := (fst v - fst a)%Z in let wy := (snd v - snd a)%Z in
  let d := (2 * (px * qy - py * qx))%Z in
  let nx := (qy * (px * px + py * py) - py * (qx * qx + qy * qy))%Z in
  let ny := (px * (qx * qx + qy * qy) - qx * (px * px + py * py))%Z in
  negb (d =? 0)%Z && (256 * (nx * nx + ny * ny + G * G * (d * d)) <=? 2 ^ prec * Z.abs (d * (d * (wx * wx + wy * wy) - 2 * (nx * wx + ny * wy))))%Z.

Lemma zclear_ok prec G a b c v : (0 <= prec)%Z -> zclear prec G a b c v = true -> clear_of_circle prec G (rp a) (rp b) (rp c) (rp v).
Proof.
  intros Hp H. destruct a as (ax, ay), b as (bx, by_), c as (cx, cy), v as (vx, vy). unfold zclear in H. cbn [fst snd] in H.
  apply andb_true_iff in H. destruct H as (Hd & H). apply negb_true_iff, Z.eqb_neq in Hd. apply Z.leb_le in H.
  intros (ox, oy) E1 E2. unfold rsqdist, rp in *. cbn [fst snd] in *.
  set (px := (bx - ax)%Z) in *. set (py := (by_ - ay)%Z) in *. set (qx := (cx - ax)%Z) in *. set (qy := (cy - ay)%Z) in *.
  set (wx := (vx - ax)%Z) in *. set (wy := (vy - ay)%Z) in *.
  set (d := (2 * (px * qy - py * qx))%Z) in *.
  set (nx := (qy * (px * px + py * py) - py * (qx * qx + qy * qy))%Z) in *.
  set (ny := (px * (qx * qx + qy * qy) - qx * (px * px + py * py))%Z) in *.
  set (ux := ox - IZR ax) in *. set (uy := oy - IZR ay) in *.
  assert (Px : IZR px = IZR bx - IZR ax) by (unfold px; apply minus_IZR). assert (Py : IZR py = IZR by_ - IZR ay) by (unfold py; apply minus_IZR).
  assert (Qx : IZR qx = IZR cx - IZR ax) by (unfold qx; apply minus_IZR). assert (Qy : IZR qy = IZR cy - IZR ay) by (unfold qy; apply minus_IZR).
  assert (Wx : IZR wx = IZR vx - IZR ax) by (unfold wx; apply minus_IZR). assert (Wy : IZR wy = IZR vy - IZR ay) by (unfold wy; apply minus_IZR).
  replace (ox - IZR bx) with (ux - IZR px) in E1 by (unfold ux; rewrite Px; ring).
  replace (oy - IZR by_) with (uy - IZR py) in E1 by (unfold uy; rewrite Py; ring).
  replace (ox - IZR cx) with (ux - IZR qx) in E2 by (unfold ux; rewrite Qx; ring).
  replace (oy - IZR cy) with (uy - IZR qy) in E2 by (unfold uy; rewrite Qy; ring).
  replace (ox - IZR vx) with (ux - IZR wx) by (unfold ux; rewrite Wx; ring).
  replace (oy - IZR vy) with (uy - IZR wy) by (unfold uy; rewrite Wy; ring).
  assert (L1 : 2 * (IZR px * ux + IZR py * uy) = IZR px * IZR px + IZR py * IZR py) by lra.
  assert (L2 : 2 * (IZR qx * ux + IZR qy * uy) = IZR qx * IZR qx + IZR qy * IZR qy) by lra.
  assert (Dd : IZR d = 2 * (IZR px * IZR qy - IZR py * IZR qx)) by (unfold d; now rewrite mult_IZR, minus_IZR, !mult_IZR).
  assert (Nx : IZR nx = IZR d * ux).
  { unfold nx. rewrite minus_IZR, !mult_IZR, !plus_IZR, !mult_IZR, Dd, <- L1, <- L2. ring. }
  assert (Ny : IZR ny = IZR d * uy).
  { unfold ny. rewrite minus_IZR, !mult_IZR, !plus_IZR, !mult_IZR, Dd, <- L1, <- L2. ring. }
  assert (D0 : IZR d <> 0) by now apply IZR_neq.
  assert (D2 : 0 < IZR d * IZR d) by (apply Rsqr_pos_lt; exact D0).
  apply IZR_le in H. rewrite !mult_IZR, !plus_IZR, !mult_IZR, abs_IZR, mult_IZR, minus_IZR, !mult_IZR, !plus_IZR, !mult_IZR in H.
  rewrite Nx, Ny in H.
  replace (IZR d * (IZR d * (IZR wx * IZR wx + IZR wy * IZR wy) - 2 * (IZR d * ux * IZR wx + IZR d * uy * IZR wy))) with
    (IZR d * IZR d * ((ux - IZR wx) * (ux - IZR wx) + (uy - IZR wy) * (uy - IZR wy) - (ux * ux + uy * uy))) in H by ring.
  rewrite (Rabs_mult (IZR d * IZR d)), (Rabs_pos_eq (IZR d * IZR d)) in H by lra.
  set (A := Rabs _) in *. unfold roundoff. set (p := IZR (2 ^ prec)) in *.
  assert (P0 : 0 < p) by (apply IZR_lt, Z.pow_pos_nonneg; lia).
  apply Rmult_le_reg_l with p; auto. apply Rmult_le_reg_l with (IZR d * IZR d); auto.
  replace (IZR d * IZR d * (p * (256 * / p * (ux * ux + uy * uy + IZR G * IZR G))))
    with (256 * (IZR d * ux * (IZR d * ux) + IZR d * uy * (IZR d * uy) + IZR G * IZR G * (IZR d * IZR d))) by (field; lra).
  replace (IZR d * IZR d * (p * A)) with (p * (IZR d * IZR d * A)) by ring. exact H.
Qed.

Definition zclear_mesh (prec G : Z) (l : list (Z * Z)) (ts : list (N * N * N)) : bool :=
  let at_ v := nth (N.to_nat v) l (0, 0)%Z in
  forallb (fun t => let '(a, b, c) := t in
    forallb (fun t' => forallb (fun v => ownb t v || zclear prec G (at_ a) (at_ b) (at_ c) (at_ v)) (list3 t')) ts) ts.

Lemma zclear_mesh_ok prec G l ts : (0 <= prec)%Z -> zclear_mesh prec G l ts = true -> clear_mesh prec G (real_points l) ts.
Proof.
  intros Hp H a b c t v Ht Ht' Hv Nv. unfold zclear_mesh in H.
  rewrite forallb_forall in H. specialize (H _ Ht). cbn beta iota in H. rewrite forallb_forall in H. specialize (H _ Ht').
  rewrite forallb_forall in H. specialize (H v ltac:(now apply list3_spec)). apply orb_true_iff in H.
  destruct H as [H|H]; [apply ownb_spec in H; contradiction|]. apply (zclear_ok prec G _ _ _ _ Hp) in H.
  assert (K : forall w, rat (real_points l) w = rp (nth (N.to_nat w) l (0, 0)%Z)).
  { intros w. unfold rat, real_points, rp. now rewrite <- (map_nth (fun p => (IZR (fst p), IZR (snd p)))). }
  now rewrite !K.
Qed.
