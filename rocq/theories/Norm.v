(** * Norm: normalisation and bin sort over arithmetics that round monotonically, and the
    exactness of the predicates on the normalised vertices of an integer grid. *)

From Coq Require Import ZArith NArith List Bool Lia QArith Qabs Qround Lqa.
From Verif Require Import Base BaseFacts Arith Types Utils Infinite Triangulation Geom Mesh Exact
  ExactC Rep GridExact Cross AnyDT DTOut.
Import ListNotations.
Local Open Scope Q_scope.

(** ** Change of scale and origin *)
Section Scale.
Context {E : Env}.
Variable vs : list vertex.
Variables ux uy px py : N -> Q.
Variables s cx cy : Q.
Hypothesis s0 : 0 < s.
Hypothesis Hlen : (lenN vs <= INF0)%N.
Hypothesis Hx : forall v p, nthN vs v = Some p -> px v == s * ux v + cx.
Hypothesis Hy : forall v p, nthN vs v = Some p -> py v == s * uy v + cy.

Notation U := (hpos ux uy).
Notation P := (hpos px py).

Lemma sc_fin v p : nthN vs v = Some p -> is_finite v = true.
Proof. intros H. apply nthN_lt in H. unfold is_finite. apply N.ltb_lt. lia. Qed.

Lemma sc_inf k : is_finite k = false -> P k = U k.
Proof. intros H. unfold hpos. now rewrite H. Qed.

Lemma sc_det a b c va vb vc : nthN vs a = Some va -> nthN vs b = Some vb -> nthN vs c = Some vc ->
  det (P a) (P b) (P c) == s * s * det (U a) (U b) (U c).
Proof.
  intros A B C. unfold hpos. rewrite (sc_fin _ _ A), (sc_fin _ _ B), (sc_fin _ _ C). unfold det; simpl.
  rewrite (Hx _ _ A), (Hx _ _ B), (Hx _ _ C), (Hy _ _ A), (Hy _ _ B), (Hy _ _ C). ring.
Qed.

Lemma sc_det1 a k c va vc : nthN vs a = Some va -> is_finite k = false -> nthN vs c = Some vc ->
  det (P a) (P k) (P c) == s * det (U a) (U k) (U c).
Proof.
  intros A K C. rewrite (sc_inf _ K). pose proof (hw_inf ux uy k K) as Z.
  destruct (U k) as [kx ky kw]. simpl in Z. subst kw.
  unfold hpos. rewrite (sc_fin _ _ A), (sc_fin _ _ C). unfold det; simpl.
  rewrite (Hx _ _ A), (Hx _ _ C), (Hy _ _ A), (Hy _ _ C). ring.
Qed.

Lemma sc_det1' a b k va vb : nthN vs a = Some va -> nthN vs b = Some vb -> is_finite k = false ->
  det (P a) (P b) (P k) == s * det (U a) (U b) (U k).
Proof.
  intros A B K. rewrite (sc_inf _ K). pose proof (hw_inf ux uy k K) as Z.
  destruct (U k) as [kx ky kw]. simpl in Z. subst kw.
  unfold hpos. rewrite (sc_fin _ _ A), (sc_fin _ _ B). unfold det; simpl.
  rewrite (Hx _ _ A), (Hx _ _ B), (Hy _ _ A), (Hy _ _ B). ring.
Qed.

Lemma sc_det2 a k k' va : nthN vs a = Some va -> is_finite k = false -> is_finite k' = false ->
  det (P a) (P k) (P k') == det (U a) (U k) (U k').
Proof.
  intros A K K'. rewrite (sc_inf _ K), (sc_inf _ K'). pose proof (hw_inf ux uy k K) as Z. pose proof (hw_inf ux uy k' K') as Z'.
  destruct (U k) as [kx ky kw]. destruct (U k') as [kx' ky' kw']. simpl in Z, Z'. subst kw kw'.
  unfold hpos. rewrite (sc_fin _ _ A). unfold det; simpl. ring.
Qed.

Lemma sc_incircle a b c d va vb vc vd :
  nthN vs a = Some va -> nthN vs b = Some vb -> nthN vs c = Some vc -> nthN vs d = Some vd ->
  incircle (px a) (py a) (px b) (py b) (px c) (py c) (px d) (py d) ==
  s * s * (s * s) * incircle (ux a) (uy a) (ux b) (uy b) (ux c) (uy c) (ux d) (uy d).
Proof.
  intros A B C D. unfold incircle.
  rewrite (Hx _ _ A), (Hx _ _ B), (Hx _ _ C), (Hx _ _ D), (Hy _ _ A), (Hy _ _ B), (Hy _ _ C), (Hy _ _ D). ring.
Qed.

Lemma pos_scale t d d' : 0 < t -> d' == t * d -> (0 < d' <-> 0 < d) /\ (d' < 0 <-> d < 0) /\ (d' == 0 <-> d == 0).
Proof.
  intros Ht ->. split; [|split]; split; intros H; try nra.
Qed.

Lemma ss0 : 0 < s * s.
Proof. nra. Qed.

Lemma ssss0 : 0 < s * s * (s * s).
Proof. pose proof ss0. nra. Qed.

Lemma inf_not_finite k q : infinite_vertex_local_quad_index k = Some q -> is_finite k = false.
Proof.
  unfold infinite_vertex_local_quad_index. destruct (is_finite k); [discriminate|reflexivity].
Qed.

Theorem Exact_scale : Exact vs ux uy -> Exact vs px py.
Proof.
  intros X. destruct X as [L I S1 S2 S3 S4 S5]. constructor; auto.
  - intros a b p va vb vp A B C s1 d1. destruct (S1 a b p va vb vp A B C) as (T1 & T2).
    pose proof (pos_scale _ _ _ ss0 (sc_det _ _ _ _ _ _ A B C)) as (R1 & R2 & R3). try (unfold s1, d1); try (fold s1 in T1, T2); tauto.
  - intros a k q p va vp A K C s1 d1. destruct (S2 a k q p va vp A K C) as (T1 & T2 & T3).
    pose proof (pos_scale _ _ _ s0 (sc_det1 _ _ _ _ _ A (inf_not_finite _ _ K) C)) as (R1 & R2 & R3). try (unfold s1, d1); try (fold s1 in T1, T2); tauto.
  - intros a b p va vb vp A B C. rewrite (S3 a b p va vb vp A B C).
    pose proof (pos_scale _ _ _ ss0 (sc_det _ _ _ _ _ _ A B C)) as (R1 & R2 & R3). tauto.
  - intros a b c d va vb vc vd A B C D H1 H2.
    pose proof (pos_scale _ _ _ ss0 (sc_det _ _ _ _ _ _ D A B)) as (R1 & R2 & R3).
    pose proof (pos_scale _ _ _ ss0 (sc_det _ _ _ _ _ _ B A C)) as (Q1 & Q2 & Q3).
    rewrite (S4 a b c d va vb vc vd A B C D (proj1 R2 H1) (proj1 Q2 H2)).
    pose proof (pos_scale _ _ _ ssss0 (sc_incircle _ _ _ _ _ _ _ _ A B C D)). tauto.
  - intros a p va vp A C. rewrite (S5 a p va vp A C). unfold samepos.
    rewrite (Hx _ _ A), (Hx _ _ C), (Hy _ _ A), (Hy _ _ C). split; intros (U1 & U2); split; nra.
Qed.

Lemma mul_scale t t' a b a' b' : 0 < t -> 0 < t' -> a' == t * a -> b' == t' * b -> (a' * b' < 0 <-> a * b < 0).
Proof.
  intros Ht Ht' -> ->. assert (H : t * a * (t' * b) == (t * t') * (a * b)) by ring. rewrite H.
  assert (0 < t * t') by nra. split; nra.
Qed.

Theorem ExactC_scale : ExactC vs ux uy -> ExactC vs px py.
Proof.
  intros X. destruct X as [S1 S2 S3]. pose proof ss0 as s2. assert (s1 : 0 < 1) by lra. constructor.
  - intros a b c d va vb vc vd A B C D. rewrite (S1 a b c d va vb vc vd A B C D). unfold crosses.
    rewrite (mul_scale _ _ _ _ _ _ s2 s2 (sc_det _ _ _ _ _ _ A B C) (sc_det _ _ _ _ _ _ A B D)).
    rewrite (mul_scale _ _ _ _ _ _ s2 s2 (sc_det _ _ _ _ _ _ C D A) (sc_det _ _ _ _ _ _ C D B)). tauto.
  - intros a b f k q va vb vf A B F0 K. rewrite (S2 a b f k q va vb vf A B F0 K). unfold crosses.
    pose proof (inf_not_finite _ _ K) as K'.
    rewrite (mul_scale _ _ _ _ _ _ s2 s0 (sc_det _ _ _ _ _ _ A B F0) (sc_det1' _ _ _ _ _ A B K')).
    rewrite (mul_scale _ _ _ _ _ _ s0 s0 (sc_det1 _ _ _ _ _ F0 K' A) (sc_det1 _ _ _ _ _ F0 K' B)). tauto.
  - intros f k q f' k' q' vf vf' A B K L. rewrite (S3 f k q f' k' q' vf vf' A B K L). unfold crosses.
    pose proof (inf_not_finite _ _ K) as K'. pose proof (inf_not_finite _ _ L) as L'.
    assert (J : forall x, x == 1 * x) by (intros; ring).
    pose proof (Qeq_trans _ _ _ (sc_det2 _ _ _ _ A K' L') (J _)) as M1.
    pose proof (Qeq_trans _ _ _ (sc_det2 _ _ _ _ B L' K') (J _)) as M2.
    rewrite (mul_scale _ _ _ _ _ _ s0 s1 (sc_det1 _ _ _ _ _ A K' B) M1).
    rewrite (mul_scale _ _ _ _ _ _ s0 s1 (sc_det1 _ _ _ _ _ B L' A) M2). tauto.
Qed.

End Scale.

(** ** Bounds *)
Section Norm.
Context {E : Env}.
Variable rep : F -> Q -> Prop.
Variable repr : Q -> Prop.
Variable pb : Z.
Variable ep : Q.
Hypothesis R : Rep rep repr pb ep.

Definition fold_min (l : list F) (a : F) : F := fold_left (fun m x => if flt x m then x else m) l a.
Definition fold_max (l : list F) (a : F) : F := fold_left (fun m x => if flt m x then x else m) l a.

Lemma fold_bounds : forall vs a b c d,
  fold_left bounds_step vs (a, b, c, d) =
  (fold_min (map vx vs) a, fold_min (map vy vs) b, fold_max (map vx vs) c, fold_max (map vy vs) d).
Proof. induction vs as [|v vs IH]; intros; [reflexivity|]. cbn [fold_left bounds_step map]. rewrite IH. reflexivity. Qed.

Lemma fold_min_spec : forall l ql a qa, Forall2 rep l ql -> rep a qa ->
  exists m, rep (fold_min l a) m /\ m <= qa /\ (forall x, In x ql -> m <= x) /\ (m = qa \/ In m ql).
Proof.
  induction l as [|x l IH]; intros ql a qa H A; inversion H as [|? q ? ql' Hx Hl]; subst.
  - exists qa. split; [exact A|]. split; [lra|]. split; [intros ? []|now left].
  - cbn [fold_min fold_left]. destruct (flt x a) eqn:C.
    + apply (rp_lt _ _ _ _ R _ _ _ _ Hx A) in C. destruct (IH _ _ _ Hl Hx) as (m & M1 & M2 & M3 & M4).
      exists m. split; [exact M1|]. split; [lra|]. split.
      * intros y [<- |Hy]; auto.
      * right. destruct M4 as [-> |M4]; [now left|now right].
    + apply (lt_false _ _ _ _ R _ _ _ _ Hx A) in C. destruct (IH _ _ _ Hl A) as (m & M1 & M2 & M3 & M4).
      exists m. split; [exact M1|]. split; [lra|]. split.
      * intros y [<- |Hy]; auto. lra.
      * destruct M4 as [-> |M4]; [now left|right; now right].
Qed.

Lemma fold_max_spec : forall l ql a qa, Forall2 rep l ql -> rep a qa ->
  exists m, rep (fold_max l a) m /\ qa <= m /\ (forall x, In x ql -> x <= m) /\ (m = qa \/ In m ql).
Proof.
  induction l as [|x l IH]; intros ql a qa H A; inversion H as [|? q ? ql' Hx Hl]; subst.
  - exists qa. split; [exact A|]. split; [lra|]. split; [intros ? []|now left].
  - cbn [fold_max fold_left]. destruct (flt a x) eqn:C.
    + apply (rp_lt _ _ _ _ R _ _ _ _ A Hx) in C. destruct (IH _ _ _ Hl Hx) as (m & M1 & M2 & M3 & M4).
      exists m. split; [exact M1|]. split; [lra|]. split.
      * intros y [<- |Hy]; auto.
      * right. destruct M4 as [-> |M4]; [now left|now right].
    + apply (lt_false _ _ _ _ R _ _ _ _ A Hx) in C. destruct (IH _ _ _ Hl A) as (m & M1 & M2 & M3 & M4).
      exists m. split; [exact M1|]. split; [lra|]. split.
      * intros y [<- |Hy]; auto. lra.
      * destruct M4 as [-> |M4]; [now left|right; now right].
Qed.

(** [m] is the least (greatest) number of the list. *)
Definition least (m : Q) (l : list Q) : Prop := In m l /\ forall x, In x l -> m <= x.
Definition greatest (m : Q) (l : list Q) : Prop := In m l /\ forall x, In x l -> x <= m.

Definition repv (v : vertex) (p : Q * Q) : Prop := rep (vx v) (fst p) /\ rep (vy v) (snd p).

Lemma repv_x vs ps : Forall2 repv vs ps -> Forall2 rep (map vx vs) (map fst ps).
Proof. induction 1 as [|? ? ? ? (A & B)]; constructor; auto. Qed.
Lemma repv_y vs ps : Forall2 repv vs ps -> Forall2 rep (map vy vs) (map snd ps).
Proof. induction 1 as [|? ? ? ? (A & B)]; constructor; auto. Qed.

Definition bounded (b : Q) (ps : list (Q * Q)) : Prop :=
  forall p, In p ps -> (- b < fst p < b) /\ (- b < snd p < b).

Lemma bounds_spec vs ps : Forall2 repv vs ps -> ps <> [] -> bounded big ps ->
  exists a b c d mx my Mx My, compute_bounds vs = (a, b, c, d) /\
    rep a mx /\ rep b my /\ rep c Mx /\ rep d My /\
    least mx (map fst ps) /\ least my (map snd ps) /\ greatest Mx (map fst ps) /\ greatest My (map snd ps).
Proof.
  intros H Hn Hb. unfold compute_bounds. rewrite fold_bounds.
  destruct (rp_MAX _ _ _ _ R) as (u & U1 & U2). destruct (rp_MIN _ _ _ _ R) as (l & L1 & L2).
  destruct (fold_min_spec _ _ _ _ (repv_x _ _ H) U1) as (mx & A1 & A2 & A3 & A4).
  destruct (fold_min_spec _ _ _ _ (repv_y _ _ H) U1) as (my & B1 & B2 & B3 & B4).
  destruct (fold_max_spec _ _ _ _ (repv_x _ _ H) L1) as (Mx & C1 & C2 & C3 & C4).
  destruct (fold_max_spec _ _ _ _ (repv_y _ _ H) L1) as (My & D1 & D2 & D3 & D4).
  do 4 eexists. exists mx, my, Mx, My. split; [reflexivity|].
  destruct ps as [|p ps]; [contradiction|]. destruct (Hb p ltac:(left; reflexivity)) as (P1 & P2).
  specialize (A3 (fst p) ltac:(left; reflexivity)) as A5. specialize (B3 (snd p) ltac:(left; reflexivity)) as B5.
  specialize (C3 (fst p) ltac:(left; reflexivity)) as C5. specialize (D3 (snd p) ltac:(left; reflexivity)) as D5.
  unfold least, greatest. repeat split; auto.
  - destruct A4 as [-> |]; auto. exfalso. lra.
  - destruct B4 as [-> |]; auto. exfalso. lra.
  - destruct C4 as [-> |]; auto. exfalso. lra.
  - destruct D4 as [-> |]; auto. exfalso. lra.
Qed.

(** ** The unit square (C05) *)
Definition half : Q := inject_Z (2 ^ 58).

Lemma half_big : half + half < big.
Proof. reflexivity. Qed.

Lemma Forall2_In_l {A B} (P : A -> B -> Prop) l l' x : Forall2 P l l' -> In x l -> exists y, In y l' /\ P x y.
Proof. induction 1; intros [].
  - subst. eexists. split; [now left|auto].
  - destruct (IHForall2 H1) as (z & Z1 & Z2). exists z. split; [now right|auto].
Qed.

Lemma repr_0 : repr 0.
Proof. apply (rr_compat _ _ _ _ R (inject_Z 0 / 128)); [apply (small_repr _ _ _ _ R); lia|reflexivity]. Qed.

Lemma repr_1 : repr 1.
Proof. apply (rr_compat _ _ _ _ R (inject_Z 128 / 128)); [apply (small_repr _ _ _ _ R); lia|reflexivity]. Qed.

Definition in_unit (v : vertex) : Prop :=
  exists x y, rep (vx v) x /\ rep (vy v) y /\ 0 <= x <= 1 /\ 0 <= y <= 1.

Lemma big_abs q : - half - half <= q -> q <= half + half -> Qabs q <= big.
Proof. intros A B. apply Qabs_Qle_condition. pose proof half_big. split; lra. Qed.

(** Rounded difference of two bounded numbers. *)
Lemma norm_diff x m qx qm : rep x qx -> rep m qm -> - half < qx < half -> - half < qm < half ->
  exists d, rep (fsub x m) d /\ rounds repr (qx - qm) d.
Proof. intros A B C D. apply (rp_sub _ _ _ _ R); auto. apply big_abs; lra. Qed.

Lemma unit_square vs ps : Forall2 repv vs ps -> bounded half ps ->
  (exists p p', In p ps /\ In p' ps /\ ~ (fst p == fst p' /\ snd p == snd p')) ->
  forall v, In v (normalized vs) -> in_unit v.
Proof.
  intros H Hb Hd.
  assert (Hb' : bounded big ps).
  { intros p Hp. specialize (Hb p Hp). pose proof half_big. unfold half, big in *. lra. }
  assert (Hn : ps <> []) by (destruct Hd as (p & _ & Hp & _); destruct ps; [contradiction|discriminate]).
  destruct (bounds_spec vs ps H Hn Hb') as (a & b & c & d & mx & my & Mx & My & E0 & A & B & C & D & La & Lb & Gc & Gd).
  unfold normalized, normalize_vertices_coordinates. rewrite E0. cbn [fst].
  intros v Hv. apply in_map_iff in Hv. destruct Hv as (w & <- & Hw).
  destruct (Forall2_In_l _ _ _ _ H Hw) as (p & Hp & (Wx & Wy)).
  destruct La as (La1 & La2), Lb as (Lb1 & Lb2), Gc as (Gc1 & Gc2), Gd as (Gd1 & Gd2).
  assert (Ix : forall p, In p ps -> In (fst p) (map fst ps)) by (intros; now apply in_map).
  assert (Iy : forall p, In p ps -> In (snd p) (map snd ps)) by (intros; now apply in_map).
  assert (Bx : forall q, In q (map fst ps) -> - half < q < half) by (intros q Hq; apply in_map_iff in Hq; destruct Hq as (u & <- & Hu); apply (Hb u Hu)).
  assert (By : forall q, In q (map snd ps) -> - half < q < half) by (intros q Hq; apply in_map_iff in Hq; destruct Hq as (u & <- & Hu); apply (Hb u Hu)).
  destruct (norm_diff _ _ _ _ C A (Bx _ Gc1) (Bx _ La1)) as (w1 & W1 & W1').
  destruct (norm_diff _ _ _ _ D B (By _ Gd1) (By _ Lb1)) as (h1 & H1 & H1').
  destruct (norm_diff _ _ _ _ Wx A (Bx _ (Ix _ Hp)) (Bx _ La1)) as (x1 & X1 & X1').
  destruct (norm_diff _ _ _ _ Wy B (By _ (Iy _ Hp)) (By _ Lb1)) as (y1 & Y1 & Y1').

  pose proof (repr_0) as R0. pose proof repr_1 as R1.
  assert (x0 : 0 <= x1) by (apply (X1' _ R0); pose proof (La2 _ (Ix _ Hp)); lra).
  assert (y0 : 0 <= y1) by (apply (Y1' _ R0); pose proof (Lb2 _ (Iy _ Hp)); lra).
  assert (xw : x1 <= w1).
  { apply (rp_le _ _ _ _ R _ _ _ _ X1 W1). eapply (rp_sub_mono _ _ _ _ R); try eassumption.
    - apply big_abs; pose proof (Bx _ (Ix _ Hp)); pose proof (Bx _ La1); lra.
    - apply big_abs; pose proof (Bx _ Gc1); pose proof (Bx _ La1); lra.
    - pose proof (Gc2 _ (Ix _ Hp)). lra. }
  assert (yh : y1 <= h1).
  { apply (rp_le _ _ _ _ R _ _ _ _ Y1 H1). eapply (rp_sub_mono _ _ _ _ R); try eassumption.
    - apply big_abs; pose proof (By _ (Iy _ Hp)); pose proof (By _ Lb1); lra.
    - apply big_abs; pose proof (By _ Gd1); pose proof (By _ Lb1); lra.
    - pose proof (Gd2 _ (Iy _ Hp)). lra. }
  assert (wpos : mx < Mx -> 0 < w1).
  { intros K. destruct (rr_gap _ _ _ _ R _ _ _ _ C A K) as (l & L1 & L2 & L3). destruct (W1' _ L1) as (L4 & _). lra. }
  assert (hpos : my < My -> 0 < h1).
  { intros K. destruct (rr_gap _ _ _ _ R _ _ _ _ D B K) as (l & L1 & L2 & L3). destruct (H1' _ L1) as (L4 & _). lra. }
  assert (pos : 0 < w1 \/ 0 < h1).
  { destruct Hd as (p1 & p2 & I1 & I2 & Ne).
    destruct (Qlt_le_dec mx Mx) as [K|K]; [left; auto|].
    destruct (Qlt_le_dec my My) as [K'|K']; [right; auto|]. exfalso. apply Ne.
    pose proof (La2 _ (Ix _ I1)). pose proof (La2 _ (Ix _ I2)). pose proof (Gc2 _ (Ix _ I1)). pose proof (Gc2 _ (Ix _ I2)).
    pose proof (Lb2 _ (Iy _ I1)). pose proof (Lb2 _ (Iy _ I2)). pose proof (Gd2 _ (Iy _ I1)). pose proof (Gd2 _ (Iy _ I2)).
    split; lra. }
  assert (sc : exists s, rep (fmax (fsub c a) (fsub d b)) s /\ 0 < s /\ w1 <= s /\ h1 <= s).
  { destruct (rp_max _ _ _ _ R _ _ _ _ W1 H1) as (K1 & K2). destruct (Qlt_le_dec w1 h1) as [K|K].
    - exists h1. split; [apply K2; lra|]. lra.
    - exists w1. split; [apply K1; lra|]. lra. }
  destruct sc as (s & Sr & S0 & Sw & Sh).
  assert (Dv : forall z, 0 <= z -> z <= s -> 0 <= z / s <= 1).
  { intros z Z0 Z1. split.
    - apply Qle_shift_div_l; auto. lra.
    - apply Qle_shift_div_r; auto. lra. }
  assert (Ab : forall q, 0 <= q <= 1 -> Qabs q <= big).
  { intros q Hq. rewrite Qabs_pos by lra. assert (1 <= big) by discriminate. lra. }
  destruct (rp_div _ _ _ _ R _ _ _ _ X1 Sr S0 (Ab _ (Dv _ x0 ltac:(lra)))) as (qx & Qx & Rx).
  destruct (rp_div _ _ _ _ R _ _ _ _ Y1 Sr S0 (Ab _ (Dv _ y0 ltac:(lra)))) as (qy & Qy & Ry).
  exists qx, qy. cbn [vx vy fst snd]. split; auto. split; auto.
  pose proof (Dv _ x0 ltac:(lra)) as Dx. pose proof (Dv _ y0 ltac:(lra)) as Dy.
  split; (split; [apply Rx, Dx || apply Ry, Dy; auto|apply Rx, Dx || apply Ry, Dy; auto]).
Qed.

(** ** The bin sort (C04) *)
Lemma bin_coord bins x q : (1 <= bins)%N -> (Z.of_N bins <= 2 ^ (pb - 10))%Z -> rep x q -> 0 <= q <= 1 ->
  (f_to_N (fmul (fmul f099 (f_of_N bins)) x) < bins)%N.
Proof.
  intros B1 B2 Hx Hq.
  destruct (rp_099 _ _ _ _ R) as (d & D1 & D2). pose proof (rp_of_N _ _ _ _ R _ B2) as Nb.
  set (nb := inject_Z (Z.of_N bins)) in *.
  assert (Nb1 : 1 <= nb) by (unfold nb; change 1 with (inject_Z 1); rewrite <- Zle_Qle; lia).
  assert (Nb2 : nb <= inject_Z (2 ^ (pb - 10))) by (unfold nb; rewrite <- Zle_Qle; lia).
  destruct (pb_pow _ _ _ _ R) as (Pb1 & Pb2).
  assert (Big : inject_Z (2 ^ (pb - 10)) <= big) by (unfold big; rewrite <- Zle_Qle; lia).
  assert (Rr : repr (inject_Z (127 * Z.of_N bins) / 128)) by (apply (rr_small _ _ _ _ R); lia).
  assert (Er : inject_Z (127 * Z.of_N bins) / 128 == (127 # 128) * nb).
  { rewrite inject_Z_mult. fold nb. change (inject_Z 127) with 127. field. }
  assert (P1 : 0 <= d * nb <= (127 # 128) * nb) by nra.
  destruct (rp_mul _ _ _ _ R _ _ _ _ D1 Nb) as (m & M1 & M2).
  { rewrite Qabs_pos by lra. nra. }
  assert (m0 : 0 <= m) by (apply (M2 _ repr_0); lra).
  assert (m1 : m <= (127 # 128) * nb).
  { rewrite <- Er. apply (M2 _ Rr). rewrite Er. lra. }
  destruct (rp_mul _ _ _ _ R _ _ _ _ M1 Hx) as (k & K1 & K2).
  { rewrite Qabs_pos by nra. nra. }
  assert (k0 : 0 <= k) by (apply (K2 _ repr_0); nra).
  assert (k1 : k <= (127 # 128) * nb).
  { rewrite <- Er. apply (K2 _ Rr). rewrite Er. nra. }
  rewrite (rp_to_N _ _ _ _ R _ _ K1 k0) by lra.
  assert (Fl : (Qfloor k < Z.of_N bins)%Z).
  { rewrite Zlt_Qlt. pose proof (Qfloor_le k). fold nb. lra. }
  assert (F0 : (0 <= Qfloor k)%Z).
  { change 0%Z with (Qfloor 0). now apply Qfloor_resp_le. }
  lia.
Qed.

Lemma bin_index_ok bins v : (1 <= bins)%N -> (Z.of_N bins <= 2 ^ (pb - 10))%Z -> in_unit v ->
  exists i, bin_index_from_vertex bins v = Some i /\ (i < bins * bins)%N.
Proof.
  intros B1 B2 (x & y & Hx & Hy & Bx & By). unfold bin_index_from_vertex, bin_index_from_bin_position.
  pose proof (bin_coord bins _ _ B1 B2 Hx Bx) as X. pose proof (bin_coord bins _ _ B1 B2 Hy By) as Y.
  set (bx := f_to_N (fmul (fmul f099 (f_of_N bins)) (vx v))) in *.
  set (by_ := f_to_N (fmul (fmul f099 (f_of_N bins)) (vy v))) in *. clearbody bx by_.
  destruct (N.even by_).
  - eexists. split; [reflexivity|]. nia.
  - assert (K : (bx + 1 <= (by_ + 1) * bins)%N) by nia. apply N.leb_le in K. rewrite K. apply N.leb_le in K.
    eexists. split; [reflexivity|]. nia.
Qed.

Lemma count_ok bins : forall vs c, (1 <= bins)%N -> (Z.of_N bins <= 2 ^ (pb - 10))%Z ->
  (forall v, In v vs -> in_unit v) -> lenN c = (bins * bins)%N ->
  exists idx c', count_bins bins vs c = Ret (idx, c').
Proof.
  induction vs as [|v vs IH]; intros c B1 B2 H L; [cbn [count_bins]; eauto|].
  cbn [count_bins]. destruct (bin_index_ok bins v B1 B2 (H v ltac:(left; reflexivity))) as (i & -> & Hi).
  destruct (nthN_Some c i) as (x & Hx); [lia|]. unfold getN. rewrite Hx. cbn [bind].
  rewrite (setN_Some _ _ _ _ Hx). cbn [bind].
  destruct (IH (updN c i (x + 1)%N) B1 B2) as (idx & c' & Ec).
  - intros w Hw. apply H. now right.
  - now rewrite lenN_updN.
  - rewrite Ec. cbn [bind]. eauto.
Qed.

Theorem bin_sort_total bins vs : (1 <= bins)%N -> (Z.of_N bins <= 2 ^ (pb - 10))%Z ->
  (forall v, In v vs -> in_unit v) -> exists order, bin_sort bins vs = Ret order.
Proof.
  intros B1 B2 H. destruct (count_ok bins vs (repeat 0%N (N.to_nat (bins * bins))) B1 B2 H) as (idx & c & Ec).
  - unfold lenN. rewrite repeat_length. lia.
  - destruct (bin_sort_after_count _ _ _ _ Ec) as (s & Es & _). eauto.
Qed.

(** ** Integer grids *)
Variable S : Z.
Hypothesis S1 : (1 <= S)%Z.
Hypothesis repr4 : forall q, G S 4 8 q -> repr q.
Hypothesis repr2 : forall q, G S 2 64 (8 * q) -> repr q.
Hypothesis Seps : ep <= / inject_Z (S ^ 2).

(** The float vertex [v] is the integer point [p]. *)
Definition repz (v : vertex) (p : Z * Z) : Prop :=
  rep (vx v) (inject_Z (fst p)) /\ rep (vy v) (inject_Z (snd p)).

(** The points fit in the square of side [S] whose lower left corner is (mx, my), and touch
    its left and lower sides and its right or upper side. *)
Definition extent (l : list (Z * Z)) (mx my : Z) : Prop :=
  (forall p, In p l -> (mx <= fst p <= mx + S)%Z /\ (my <= snd p <= my + S)%Z) /\
  (exists p, In p l /\ fst p = mx) /\ (exists p, In p l /\ snd p = my) /\
  (exists p, In p l /\ (fst p = mx + S \/ snd p = my + S)%Z).

Definition zq (p : Z * Z) : Q * Q := (inject_Z (fst p), inject_Z (snd p)).

Definition zpx (l : list (Z * Z)) (v : N) : Q := inject_Z (fst (nth (N.to_nat v) l (0, 0)%Z)).
Definition zpy (l : list (Z * Z)) (v : N) : Q := inject_Z (snd (nth (N.to_nat v) l (0, 0)%Z)).

Lemma repz_repv vs l : Forall2 repz vs l -> Forall2 repv vs (map zq l).
Proof. induction 1; constructor; auto. Qed.

Lemma repr_Z z : (Z.abs z <= 2 * 2 ^ (pb - 10))%Z -> repr (inject_Z z).
Proof.
  intros H. apply (rr_compat _ _ _ _ R (inject_Z (z * 128) / 128)); [apply (rr_small _ _ _ _ R); pose proof (pb_pow _ _ _ _ R); lia|].
  rewrite inject_Z_mult. change (inject_Z 128) with 128. field.
Qed.

Lemma abs_Z z : (Z.abs z <= 2 * 2 ^ (pb - 10))%Z -> Qabs (inject_Z z) <= big.
Proof. intros H. unfold big. change (Qabs (inject_Z z)) with (inject_Z (Z.abs z)). rewrite <- Zle_Qle. pose proof (pb_pow _ _ _ _ R); lia. Qed.

Lemma sub_Z x y a b : rep x (inject_Z a) -> rep y (inject_Z b) -> (Z.abs (a - b) <= 2 * 2 ^ (pb - 10))%Z ->
  rep (fsub x y) (inject_Z (a - b)).
Proof.
  intros A B H. assert (Q : inject_Z a - inject_Z b == inject_Z (a - b)).
  { unfold Zminus. rewrite inject_Z_plus, inject_Z_opp. ring. }
  eapply (rp_compat _ _ _ _ R); [|exact Q]. apply (sub_exact _ _ _ _ R); auto.
  - rewrite Q. now apply abs_Z.
  - apply (rr_compat _ _ _ _ R (inject_Z (a - b))); [now apply repr_Z|now symmetry].
Qed.

Lemma SQ : 0 < inject_Z S.
Proof. change 0 with (inject_Z 0). rewrite <- Zlt_Qlt. lia. Qed.

Lemma coord_div x s k : rep x (inject_Z k) -> rep s (inject_Z S) -> (0 <= k <= S)%Z ->
  coord rep S (fdiv x s) (inject_Z k / inject_Z S).
Proof.
  intros A B H. pose proof SQ as Sp.
  assert (Gk : G S 1 1 (inject_Z k / inject_Z S)).
  { exists k. change (Z.of_nat 1) with 1%Z. rewrite Z.pow_1_r. split; [lia|]. field. lra. }
  assert (K : 0 <= inject_Z k <= inject_Z S) by (change 0 with (inject_Z 0); rewrite <- !Zle_Qle; lia).
  assert (L0 : 0 <= inject_Z k / inject_Z S) by (apply Qle_shift_div_l; auto; lra).
  assert (L1 : inject_Z k / inject_Z S <= 1) by (apply Qle_shift_div_r; auto; lra).
  split; [|lra]. split; auto. apply (div_exact _ _ _ _ R); auto.
  - eapply G_big; eauto. lia.
  - eapply (repr_G repr S S1 repr4); eauto; lia.
Qed.

Definition ex (l : list (Z * Z)) (b : Z) : Prop := forall p, In p l -> (Z.abs (fst p) <= b)%Z /\ (Z.abs (snd p) <= b)%Z.

Lemma grid_normalized vs l mx my : Forall2 repz vs l -> extent l mx my -> ex l (2 ^ (pb - 10)) ->
  forall v p, nthN (normalized vs) v = Some p ->
    coord rep S (vx p) ((zpx l v - inject_Z mx) / inject_Z S) /\
    coord rep S (vy p) ((zpy l v - inject_Z my) / inject_Z S).
Proof.
  intros H (He & Hmx & Hmy & Hs) Hb v p Hv.
  assert (Hn : map zq l <> []) by (destruct Hmx as (q & Hq & _); destruct l; [contradiction|discriminate]).
  assert (Hbd : bounded big (map zq l)).
  { intros q Hq. apply in_map_iff in Hq. destruct Hq as (z & <- & Hz). destruct (Hb z Hz).
    unfold zq, big; cbn [fst snd]. rewrite <- inject_Z_opp, <- !Zlt_Qlt. pose proof (pb_pow _ _ _ _ R); lia. }
  destruct (bounds_spec vs _ (repz_repv _ _ H) Hn Hbd) as (a & b & c & d & qx & qy & Qx & Qy & E0 & A & B & C & D & La & Lb & Gc & Gd).
  assert (Ifst : forall z, In z l -> In (inject_Z (fst z)) (map fst (map zq l))).
  { intros z Hz. apply in_map_iff. exists (zq z). split; auto. now apply in_map. }
  assert (Isnd : forall z, In z l -> In (inject_Z (snd z)) (map snd (map zq l))).
  { intros z Hz. apply in_map_iff. exists (zq z). split; auto. now apply in_map. }
  assert (Jfst : forall q, In q (map fst (map zq l)) -> exists z, In z l /\ q = inject_Z (fst z)).
  { intros q Hq. apply in_map_iff in Hq. destruct Hq as (u & <- & Hu). apply in_map_iff in Hu. destruct Hu as (z & <- & Hz). eauto. }
  assert (Jsnd : forall q, In q (map snd (map zq l)) -> exists z, In z l /\ q = inject_Z (snd z)).
  { intros q Hq. apply in_map_iff in Hq. destruct Hq as (u & <- & Hu). apply in_map_iff in Hu. destruct Hu as (z & <- & Hz). eauto. }
  destruct La as (La1 & La2), Lb as (Lb1 & Lb2), Gc as (Gc1 & Gc2), Gd as (Gd1 & Gd2).
  destruct (Jfst _ La1) as (za & Za & ->). destruct (Jsnd _ Lb1) as (zb & Zb & ->).
  destruct (Jfst _ Gc1) as (zc & Zc & ->). destruct (Jsnd _ Gd1) as (zd & Zd & ->).
  assert (Ea : fst za = mx).
  { destruct Hmx as (q & Hq & <-). specialize (La2 _ (Ifst _ Hq)). rewrite <- Zle_Qle in La2. destruct (He za Za). destruct (He _ Hq). lia. }
  assert (Eb : snd zb = my).
  { destruct Hmy as (q & Hq & <-). specialize (Lb2 _ (Isnd _ Hq)). rewrite <- Zle_Qle in Lb2. destruct (He zb Zb). destruct (He _ Hq). lia. }
  rewrite Ea in A. rewrite Eb in B.
  destruct (He _ Zc) as (Ec & _). destruct (He _ Zd) as (_ & Ed).
  destruct (Hb _ Zc) as (Bc & _). destruct (Hb _ Zd) as (_ & Bd). destruct (Hb _ Za) as (Ba & _). destruct (Hb _ Zb) as (_ & Bb).
  rewrite Ea in Ba. rewrite Eb in Bb.
  pose proof (sub_Z _ _ _ _ C A ltac:(lia)) as W. pose proof (sub_Z _ _ _ _ D B ltac:(lia)) as Hh.
  assert (Sc : rep (fmax (fsub c a) (fsub d b)) (inject_Z S)).
  { destruct Hs as (q & Hq & Hs). destruct (He _ Hq) as (E1 & E2).
    pose proof (Gc2 _ (Ifst _ Hq)) as K1. pose proof (Gd2 _ (Isnd _ Hq)) as K2. rewrite <- Zle_Qle in K1, K2.
    destruct (rp_max _ _ _ _ R _ _ _ _ W Hh) as (M1 & M2). destruct Hs as [Hs|Hs].
    - replace S with (fst zc - mx)%Z by lia. apply M1. rewrite <- Zle_Qle. lia.
    - replace S with (snd zd - my)%Z by lia. apply M2. rewrite <- Zle_Qle. lia. }
  unfold normalized, normalize_vertices_coordinates in Hv. rewrite E0 in Hv. cbn [fst] in Hv.
  rewrite nthN_map in Hv. destruct (nthN vs v) as [w|] eqn:Ew; [|discriminate]. cbn [option_map] in Hv. injection Hv as <-.
  cbn [vx vy fst snd].
  assert (Hz : exists z, nth_error l (N.to_nat v) = Some z /\ repz w z).
  { rewrite nthN_nth_error in Ew. clear - H Ew. revert Ew. generalize (N.to_nat v). revert l H.
    induction vs as [|u vs IH]; intros l H [|n] K; inversion H as [|? z ? l' Hz Hl]; subst; try discriminate.
    - injection K as <-. exists z. split; [reflexivity|auto].
    - exact (IH _ Hl _ K). }
  destruct Hz as (z & Hz & (Rx & Ry)). pose proof (nth_error_In _ _ Hz) as Iz. destruct (He _ Iz) as (E1 & E2).
  destruct (Hb _ Iz) as (Bz1 & Bz2).
  unfold zpx, zpy. rewrite (nth_error_nth _ _ _ Hz).
  pose proof (sub_Z _ _ _ _ Rx A ltac:(lia)) as Dx. pose proof (sub_Z _ _ _ _ Ry B ltac:(lia)) as Dy.
  pose proof (coord_div _ _ _ Dx Sc ltac:(lia)) as Cx. pose proof (coord_div _ _ _ Dy Sc ltac:(lia)) as Cy.
  unfold Zminus in Cx, Cy. rewrite inject_Z_plus, inject_Z_opp in Cx, Cy. split; assumption.
Qed.

Lemma Forall2_len {A B} (P : A -> B -> Prop) l l' : Forall2 P l l' -> length l = length l'.
Proof. induction 1; simpl; auto. Qed.

(** ** Exactness for integer grids, in the original coordinates *)
Theorem int_grid_exact vs l mx my : Forall2 repz vs l -> extent l mx my -> ex l (2 ^ (pb - 10)) ->
  (lenN vs <= INF0)%N -> (3 <= idmax)%N ->
  Exact (normalized vs) (zpx l) (zpy l) /\ ExactC (normalized vs) (zpx l) (zpy l) /\
  (forall v, In v (normalized vs) -> in_unit v).
Proof.
  intros H He Hb Hl Hi. pose proof (grid_normalized vs l mx my H He Hb) as Gn.
  assert (Ln : lenN (normalized vs) = lenN vs).
  { unfold normalized. pose proof (normalize_length vs) as K.
    destruct (normalize_vertices_coordinates vs) as (((nvs, c1), c2), c3). specialize (K _ _ _ _ eq_refl). unfold lenN. cbn [fst]. now rewrite K. }
  rewrite <- Ln in Hl. pose proof SQ as Sp.
  assert (Ex : forall v p, nthN (normalized vs) v = Some p -> zpx l v == inject_Z S * ((zpx l v - inject_Z mx) / inject_Z S) + inject_Z mx).
  { intros v p Hv. field. lra. }
  assert (Ey : forall v p, nthN (normalized vs) v = Some p -> zpy l v == inject_Z S * ((zpy l v - inject_Z my) / inject_Z S) + inject_Z my).
  { intros v p Hv. field. lra. }
  split; [|split].
  - eapply (Exact_scale _ _ _ _ _ (inject_Z S)); [exact Sp|exact Hl|exact Ex|exact Ey|].
    eapply (grid_exact rep repr pb ep R S); eauto.
  - eapply (ExactC_scale _ _ _ _ _ (inject_Z S)); [exact Sp|exact Hl|exact Ex|exact Ey|].
    eapply (grid_exactC rep repr pb ep R S); eauto.
  - intros v Hv. apply In_nthN in Hv. destruct Hv as (i & Hi'). destruct (Gn _ _ Hi') as (((A & _) & B) & ((C & _) & D)).
    eexists. eexists. repeat split; try eassumption; tauto.
Qed.

End Norm.
