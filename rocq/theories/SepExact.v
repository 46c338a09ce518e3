(** * SepExact: the predicates decide correctly on vertices of the unit square that are well
    separated relative to the rounding error. *)

From Coq Require Import ZArith NArith List Bool Lia QArith Qabs Lqa.
From Verif Require Import Base BaseFacts Arith Types Utils Infinite Triangulation Geom Mesh Exact
  ExactC Rep GridExact Cross Near.
Import ListNotations.
Local Open Scope Q_scope.

Section Sep.
Context {E : Env}.
Variable rep : F -> Q -> Prop.
Variable repr : Q -> Prop.
Variable pb : Z.
Variable ep : Q.
Hypothesis R : Rep rep repr pb ep.
Variable rnd : Q -> Q -> Prop.
Variable u : Q.
Hypothesis Nr : Near rep rnd u.
Hypothesis Eu : ep == 2 * u.

Lemma u0 : 0 < u /\ u <= 1 # 16777216.
Proof. apply (nr_u _ _ _ Nr). Qed.

(** ** One operation *)
Lemma abs_le a b : - b <= a -> a <= b -> Qabs a <= b.
Proof. intros. now apply Qabs_Qle_condition. Qed.

Lemma le_abs a b : Qabs a <= b -> - b <= a /\ a <= b.
Proof. apply Qabs_Qle_condition. Qed.

Lemma mul_abs a b A B : Qabs a <= A -> Qabs b <= B -> Qabs (a * b) <= A * B.
Proof.
  intros HA HB. rewrite Qabs_Qmult. pose proof (Qabs_nonneg a). pose proof (Qabs_nonneg b).
  apply Qle_trans with (A * Qabs b); [apply Qmult_le_compat_r; lra|].
  rewrite (Qmult_comm A), (Qmult_comm A). apply Qmult_le_compat_r; lra.
Qed.

Lemma rnd_same e e' q q' : e == e' -> rnd e q -> rnd e' q' -> q == q'.
Proof.
  intros H A B. assert (q <= q') by (apply (nr_mono _ _ _ Nr e e'); auto; lra).
  assert (q' <= q) by (apply (nr_mono _ _ _ Nr e' e); auto; lra). lra.
Qed.

Lemma rnd_zero e q : e == 0 -> rnd e q -> q == 0.
Proof. intros H A. apply (rnd_same e 0); auto. apply (nr_fix _ _ _ Nr f0). apply (rp_0 _ _ _ _ R). Qed.

Ltac zero N := match type of N with rnd ?e ?q =>
  let Z := fresh in assert (Z : q == 0) by (apply (rnd_zero e q); [lra|exact N]); rewrite Z; clear Z end.

Lemma rnd_neg e e' q q' : e == - e' -> rnd e q -> rnd e' q' -> q == - q'.
Proof. intros H A B. apply (rnd_same e (- e')); auto. now apply (nr_opp _ _ _ Nr). Qed.

Lemma sub_near x y a' b' a b al be M g :
  rep x a' -> rep y b' -> Qabs (a' - a) <= al * u -> Qabs (b' - b) <= be * u ->
  Qabs (a' - b') <= M -> 1 <= M -> M <= 100 -> al + be + M <= g ->
  exists q, rep (fsub x y) q /\ rnd (a' - b') q /\ Qabs (q - (a - b)) <= g * u.
Proof.
  intros X Y A B HM M1 M2 Hg. pose proof u0 as (U0 & U1).
  assert (Hb : Qabs (a' - b') <= big).
  { apply Qle_trans with 100; [lra|discriminate]. }
  destruct (nr_sub _ _ _ Nr _ _ _ _ X Y Hb) as (q & Rq & Rn & _). exists q. split; auto. split; auto.
  pose proof (nr_err _ _ _ Nr _ _ _ Rn M1 HM) as Er. apply le_abs in A, B, Er.
  assert (K : (al + be + M) * u <= g * u) by (apply Qmult_le_compat_r; lra).
  apply abs_le; lra.
Qed.

Lemma add_near x y a' b' a b al be M g :
  rep x a' -> rep y b' -> Qabs (a' - a) <= al * u -> Qabs (b' - b) <= be * u ->
  Qabs (a' + b') <= M -> 1 <= M -> M <= 100 -> al + be + M <= g ->
  exists q, rep (fadd x y) q /\ rnd (a' + b') q /\ Qabs (q - (a + b)) <= g * u.
Proof.
  intros X Y A B HM M1 M2 Hg. pose proof u0 as (U0 & U1).
  assert (Hb : Qabs (a' + b') <= big).
  { apply Qle_trans with 100; [lra|discriminate]. }
  destruct (nr_add _ _ _ Nr _ _ _ _ X Y Hb) as (q & Rq & Rn). exists q. split; auto. split; auto.
  pose proof (nr_err _ _ _ Nr _ _ _ Rn M1 HM) as Er. apply le_abs in A, B, Er.
  assert (K : (al + be + M) * u <= g * u) by (apply Qmult_le_compat_r; lra).
  apply abs_le; lra.
Qed.

Lemma mul_near x y a' b' a b al be A' B' M g :
  rep x a' -> rep y b' -> Qabs (a' - a) <= al * u -> Qabs (b' - b) <= be * u ->
  Qabs a' <= A' -> Qabs b <= B' -> Qabs (a' * b') <= M -> 1 <= M -> M <= 100 -> 0 <= al -> 0 <= be ->
  al * B' + be * A' + M <= g ->
  exists q, rep (fmul x y) q /\ rnd (a' * b') q /\ Qabs (q - a * b) <= g * u.
Proof.
  intros X Y A B HA HB HM M1 M2 Al Be Hg. pose proof u0 as (U0 & U1).
  assert (Hb : Qabs (a' * b') <= big).
  { apply Qle_trans with 100; [lra|discriminate]. }
  destruct (nr_mul _ _ _ Nr _ _ _ _ X Y Hb) as (q & Rq & Rn). exists q. split; auto. split; auto.
  pose proof (nr_err _ _ _ Nr _ _ _ Rn M1 HM) as Er.
  pose proof (mul_abs _ _ _ _ A HB) as P1. pose proof (mul_abs _ _ _ _ HA B) as P2.
  assert (Id : a' * b' - a * b == (a' - a) * b + a' * (b' - b)) by ring.
  assert (K : (al * B' + be * A' + M) * u <= g * u) by (apply Qmult_le_compat_r; lra).
  apply le_abs in P1, P2, Er. apply abs_le; lra.
Qed.

(** ** Coordinates and their differences *)
Definition ucoord (x : F) (a : Q) : Prop := rep x a /\ 0 <= a <= 1.

Lemma diff x y a b : ucoord x a -> ucoord y b ->
  exists q, rep (fsub x y) q /\ rnd (a - b) q /\ Qabs (q - (a - b)) <= 1 * u /\ Qabs q <= 1 /\ Qabs (a - b) <= 1.
Proof.
  intros (X & HX) (Y & HY). pose proof u0 as (U0 & U1).
  assert (D1 : Qabs (a - b) <= 1) by (apply abs_le; lra).
  destruct (sub_near x y a b a b 0 0 1 1 X Y) as (q & Rq & Rn & Er); try (apply abs_le); try lra.
  exists q. split; auto. split; auto. split; auto. split; auto.
  assert (R1 : rnd 1 1).
  { destruct (nr_sub _ _ _ Nr f0 f0 0 0) as (z & Z1 & Z2 & _); try apply (rp_0 _ _ _ _ R); [discriminate|].
    apply (nr_fix _ _ _ Nr (f_of_N 1)). apply (rp_of_N _ _ _ _ R). 
    destruct (pb_pow _ _ _ _ R) as (_ & K). lia. }
  apply le_abs in D1. apply abs_le.
  - apply (nr_mono _ _ _ Nr (- (1)) (a - b)); auto; [lra|]. now apply (nr_opp _ _ _ Nr).
  - apply (nr_mono _ _ _ Nr (a - b) 1); auto; lra.
Qed.

(** A product of two differences: error 3 u. *)
Lemma diff2 x1 y1 x2 y2 a1 b1 a2 b2 : ucoord x1 a1 -> ucoord y1 b1 -> ucoord x2 a2 -> ucoord y2 b2 ->
  exists q1 q2 q, rnd (a1 - b1) q1 /\ rnd (a2 - b2) q2 /\ rep (fmul (fsub x1 y1) (fsub x2 y2)) q /\ rnd (q1 * q2) q /\
    Qabs (q - (a1 - b1) * (a2 - b2)) <= 3 * u /\ Qabs q <= 1 + 3 * u /\ Qabs ((a1 - b1) * (a2 - b2)) <= 1.
Proof.
  intros X1 Y1 X2 Y2. pose proof u0 as (U0 & U1).
  destruct (diff _ _ _ _ X1 Y1) as (q1 & R1 & N1 & E1 & B1 & D1).
  destruct (diff _ _ _ _ X2 Y2) as (q2 & R2 & N2 & E2 & B2 & D2).
  assert (P : Qabs ((a1 - b1) * (a2 - b2)) <= 1) by (apply Qle_trans with (1 * 1); [now apply mul_abs|lra]).
  destruct (mul_near _ _ _ _ _ _ 1 1 1 1 1 3 R1 R2 E1 E2 B1 D2) as (q & Rq & Nq & Eq); try lra.
  { apply Qle_trans with (1 * 1); [now apply mul_abs|lra]. }
  exists q1, q2, q. repeat split; auto.
  pose proof (le_abs _ _ P). apply le_abs in Eq. apply abs_le; lra.
Qed.

(** A difference (sum) of two products of differences: error 9 u. *)
Lemma cross_near x1 y1 x2 y2 x3 y3 x4 y4 a1 b1 a2 b2 a3 b3 a4 b4 :
  ucoord x1 a1 -> ucoord y1 b1 -> ucoord x2 a2 -> ucoord y2 b2 ->
  ucoord x3 a3 -> ucoord y3 b3 -> ucoord x4 a4 -> ucoord y4 b4 ->
  exists q1 q2 q3 q4 q,
    rnd (a1 - b1) q1 /\ rnd (a2 - b2) q2 /\ rnd (a3 - b3) q3 /\ rnd (a4 - b4) q4 /\
    rep (fsub (fmul (fsub x1 y1) (fsub x2 y2)) (fmul (fsub x3 y3) (fsub x4 y4))) q /\
    Qabs (q - ((a1 - b1) * (a2 - b2) - (a3 - b3) * (a4 - b4))) <= 9 * u /\
    (q1 * q2 == q3 * q4 -> q == 0).
Proof.
  intros X1 Y1 X2 Y2 X3 Y3 X4 Y4. pose proof u0 as (U0 & U1).
  destruct (diff2 _ _ _ _ _ _ _ _ X1 Y1 X2 Y2) as (q1 & q2 & p & N1 & N2 & Rp & Np & Ep & Bp & Pp).
  destruct (diff2 _ _ _ _ _ _ _ _ X3 Y3 X4 Y4) as (q3 & q4 & r & N3 & N4 & Rr & Nq & Er & Br & Pr).
  destruct (sub_near _ _ _ _ _ _ 3 3 3 9 Rp Rr Ep Er) as (q & Rq & Nqq & Eq); try lra.
  { apply le_abs in Bp, Br. apply abs_le; lra. }
  exists q1, q2, q3, q4, q. repeat split; auto.
  intros H. apply (rnd_zero (p - r)); auto. pose proof (rnd_same _ _ _ _ H Np Nq). lra.
Qed.

Lemma dot_near x1 y1 x2 y2 x3 y3 x4 y4 a1 b1 a2 b2 a3 b3 a4 b4 :
  ucoord x1 a1 -> ucoord y1 b1 -> ucoord x2 a2 -> ucoord y2 b2 ->
  ucoord x3 a3 -> ucoord y3 b3 -> ucoord x4 a4 -> ucoord y4 b4 ->
  exists q1 q2 q3 q4 q,
    rnd (a1 - b1) q1 /\ rnd (a2 - b2) q2 /\ rnd (a3 - b3) q3 /\ rnd (a4 - b4) q4 /\
    rep (fadd (fmul (fsub x1 y1) (fsub x2 y2)) (fmul (fsub x3 y3) (fsub x4 y4))) q /\
    Qabs (q - ((a1 - b1) * (a2 - b2) + (a3 - b3) * (a4 - b4))) <= 9 * u /\
    (q1 * q2 == 0 -> q3 * q4 == 0 -> q == 0).
Proof.
  intros X1 Y1 X2 Y2 X3 Y3 X4 Y4. pose proof u0 as (U0 & U1).
  destruct (diff2 _ _ _ _ _ _ _ _ X1 Y1 X2 Y2) as (q1 & q2 & p & N1 & N2 & Rp & Np & Ep & Bp & Pp).
  destruct (diff2 _ _ _ _ _ _ _ _ X3 Y3 X4 Y4) as (q3 & q4 & r & N3 & N4 & Rr & Nq & Er & Br & Pr).
  destruct (add_near _ _ _ _ _ _ 3 3 3 9 Rp Rr Ep Er) as (q & Rq & Nqq & Eq); try lra.
  { apply le_abs in Bp, Br. apply abs_le; lra. }
  exists q1, q2, q3, q4, q. repeat split; auto.
  intros H H'. apply (rnd_zero (p + r)); auto. pose proof (rnd_zero _ _ H Np). pose proof (rnd_zero _ _ H' Nq). lra.
Qed.

(** ** The vertices *)
Variable vs : list vertex.
Variables ux uy : N -> Q.
Hypothesis Hlen : (lenN vs <= INF0)%N.
Hypothesis Hid : (3 <= idmax)%N.
Hypothesis Hvs : forall v p, nthN vs v = Some p -> ucoord (vx p) (ux v) /\ ucoord (vy p) (uy v).

Notation pos := (hpos ux uy).
Notation D a b c := (det (pos a) (pos b) (pos c)).
Notation pos_index := (GridExact.pos_index vs ux uy Hlen).
Definition here (v : N) : Prop := exists p, nthN vs v = Some p.

(** Three vertices on one line for a reason no rounding can hide: two of them coincide, or
    they are on a line parallel to an axis. *)
Definition plain (a b c : N) : Prop :=
  samepos ux uy a b \/ samepos ux uy b c \/ samepos ux uy a c \/
  (ux a == ux b /\ ux b == ux c) \/ (uy a == uy b /\ uy b == uy c).

(** The circle through the four vertices is that of a rectangle with sides parallel to the
    axes and diagonal a b. *)
Definition box_corner (a b c : N) : Prop :=
  (ux c == ux a /\ uy c == uy b) \/ (ux c == ux b /\ uy c == uy a).

Hypothesis Gx : forall a b, here a -> here b -> ux a == ux b \/ 64 * u <= Qabs (ux a - ux b).
Hypothesis Gy : forall a b, here a -> here b -> uy a == uy b \/ 64 * u <= Qabs (uy a - uy b).
Hypothesis Go : forall a b c, here a -> here b -> here c -> plain a b c \/ 11 * u <= Qabs (D a b c).
Hypothesis Gc : forall a b c d, here a -> here b -> here c -> here d -> D d a b < 0 -> D b a c < 0 ->
  (box_corner a b c /\ box_corner a b d) \/
  96 * u <= Qabs (incircle (ux a) (uy a) (ux b) (uy b) (ux c) (uy c) (ux d) (uy d)).

Lemma D_fin a b c va vb vc : nthN vs a = Some va -> nthN vs b = Some vb -> nthN vs c = Some vc ->
  D a b c == (uy c - uy a) * (ux b - ux a) - (ux c - ux a) * (uy b - uy a).
Proof.
  intros A B C. rewrite (pos_index _ _ A), (pos_index _ _ B), (pos_index _ _ C). unfold det; simpl. ring.
Qed.

Lemma plain_zero a b c va vb vc : nthN vs a = Some va -> nthN vs b = Some vb -> nthN vs c = Some vc ->
  plain a b c -> D a b c == 0.
Proof.
  intros A B C H. rewrite (D_fin _ _ _ _ _ _ A B C).
  destruct H as [(X & Y)|[(X & Y)|[(X & Y)|[(X & Y)|(X & Y)]]]].
  - setoid_replace (ux b - ux a) with 0 by lra. setoid_replace (uy b - uy a) with 0 by lra. ring.
  - rewrite X, Y. ring.
  - rewrite X, Y. ring.
  - setoid_replace (ux b - ux a) with 0 by lra. setoid_replace (ux c - ux a) with 0 by lra. ring.
  - setoid_replace (uy b - uy a) with 0 by lra. setoid_replace (uy c - uy a) with 0 by lra. ring.
Qed.

(** ** The side test *)
Lemma side_val a b p va vb vp :
  nthN vs a = Some va -> nthN vs b = Some vb -> nthN vs p = Some vp ->
  exists q, rep (test_point_edge_side (va, vb) vp) q /\ Qabs (q - D a b p) <= 9 * u /\ (plain a b p -> q == 0).
Proof.
  intros A B P. destruct (Hvs _ _ A) as (A1 & A2). destruct (Hvs _ _ B) as (B1 & B2).
  destruct (Hvs _ _ P) as (P1 & P2). unfold test_point_edge_side.
  destruct (cross_near _ _ _ _ _ _ _ _ _ _ _ _ _ _ _ _ P2 A2 B1 A1 P1 A1 B2 A2)
    as (q1 & q2 & q3 & q4 & q & N1 & N2 & N3 & N4 & Rq & Eq & Zq).
  exists q. split; auto. split.
  { rewrite (D_fin _ _ _ _ _ _ A B P). exact Eq. }
  intros H. apply Zq.
  destruct H as [(X & Y)|[(X & Y)|[(X & Y)|[(X & Y)|(X & Y)]]]].
  - zero N2. zero N4. ring.
  - assert (Ha : q1 == q4) by (apply (fun H => rnd_same _ _ _ _ H N1 N4); rewrite Y; reflexivity).
    assert (Hb : q3 == q2) by (apply (fun H => rnd_same _ _ _ _ H N3 N2); rewrite X; reflexivity).
    rewrite Ha, Hb. ring.
  - zero N1. zero N3. ring.
  - zero N2. zero N3. ring.
  - zero N1. zero N4. ring.
Qed.

(** The value of the side test has the sign of the determinant, and is 0 or at least ep. *)
Lemma side_sign a b p va vb vp :
  nthN vs a = Some va -> nthN vs b = Some vb -> nthN vs p = Some vp ->
  exists q, rep (test_point_edge_side (va, vb) vp) q /\
    ((D a b p == 0 /\ q == 0) \/ (0 < D a b p /\ ep <= q) \/ (D a b p < 0 /\ q <= - ep)).
Proof.
  intros A B P. destruct (side_val _ _ _ _ _ _ A B P) as (q & Rq & Eq & Zq). exists q. split; auto.
  pose proof u0 as (U0 & U1). apply le_abs in Eq.
  destruct (Go a b p) as [H|H]; try (eexists; eassumption).
  - left. split; [eapply plain_zero; eauto|auto].
  - right. destruct (Qlt_le_dec 0 (D a b p)) as [K|K].
    + rewrite Qabs_pos in H by lra. left. split; auto. lra.
    + rewrite Qabs_neg in H by lra. right. split; lra.
Qed.

(** ** Rays *)
Definition ufar (x : F) (b : bool) : Prop :=
  exists e, rep x e /\ -(2) <= e <= 3 /\ (if b then 11 # 8 <= e else e <= - (3 # 8)).

Lemma add0 x a : ucoord x a -> ucoord (fadd x f0) a.
Proof.
  intros (X & HX). pose proof u0 as (U0 & U1). split; auto.
  destruct (nr_add _ _ _ Nr _ _ _ _ X (rp_0 _ _ _ _ R)) as (q & Rq & Nq).
  { apply (abs_big); lra. }
  apply (rp_compat _ _ _ _ R _ q); auto. apply (rnd_same (a + 0) a); auto; [ring|]. now apply (nr_fix _ _ _ Nr x).
Qed.

Lemma far_plus x a : ucoord x a -> ufar (fadd x fdelta) true.
Proof.
  intros (X & HX). pose proof u0 as (U0 & U1). destruct (rp_delta _ _ _ _ R) as (dl & Hd & L).
  destruct (add_near _ _ a dl a dl 0 0 3 3 X Hd) as (q & Rq & Nq & Eq); try (apply abs_le); try lra.
  exists q. split; auto. apply le_abs in Eq. lra.
Qed.

Lemma far_minus x a : ucoord x a -> ufar (fadd x (fneg fdelta)) false.
Proof.
  intros (X & HX). pose proof u0 as (U0 & U1). destruct (rp_delta _ _ _ _ R) as (dl & Hd & L).
  destruct (add_near _ _ a (- dl) a (- dl) 0 0 3 3 X (rp_neg _ _ _ _ R _ _ Hd)) as (q & Rq & Nq & Eq); try (apply abs_le); try lra.
  exists q. split; auto. apply le_abs in Eq. lra.
Qed.

Lemma far_spec f vf q : nthN vs f = Some vf ->
  match q with
  | Q1 => ufar (vx (far vf q)) false /\ ucoord (vy (far vf q)) (uy f)
  | Q2 => ucoord (vx (far vf q)) (ux f) /\ ufar (vy (far vf q)) true
  | Q3 => ufar (vx (far vf q)) true /\ ucoord (vy (far vf q)) (uy f)
  | Q4 => ucoord (vx (far vf q)) (ux f) /\ ufar (vy (far vf q)) false
  end.
Proof.
  intros H. destruct (Hvs _ _ H) as (A & B).
  destruct q; unfold far, edge_from_semi_infinite_edge; cbn [snd inf_dx inf_dy vx vy fst].
  - split; [exact (far_minus _ _ A)|now apply add0].
  - split; [now apply add0|exact (far_plus _ _ B)].
  - split; [exact (far_plus _ _ A)|now apply add0].
  - split; [now apply add0|exact (far_minus _ _ B)].
Qed.

(** far - y, and y - far: away from 0. *)
Lemma far_sub x b y a : ufar x b -> ucoord y a ->
  exists e q, rep x e /\ rep (fsub x y) q /\ Qabs (q - (e - a)) <= 3 * u /\ Qabs q <= 4 /\ Qabs (e - a) <= 3 /\
    (if b then 3 # 8 <= e - a else e - a <= - (3 # 8)) /\ (if b then 1 # 3 <= q else q <= - (1 # 3)) /\
    (if b then 11 # 8 <= e else e <= - (3 # 8)).
Proof.
  intros (e & Re & He & Hb) (Y & HY). pose proof u0 as (U0 & U1).
  destruct (sub_near _ _ e a e a 0 0 3 3 Re Y) as (q & Rq & Nq & Eq); try (apply abs_le); try lra.
  exists e, q. split; auto. split; auto. split; auto. apply le_abs in Eq.
  split; [apply abs_le; lra|]. split; [apply abs_le; lra|]. destruct b; repeat split; lra.
Qed.

(** w * (far - y), where w is 0 or at least 64 u: the sign of w, and at least 4 u. *)
Definition sig (m w : Q) : Prop := (w == 0 /\ m == 0) \/ (0 < w /\ 4 * u <= m) \/ (w < 0 /\ m <= - (4 * u)).

Lemma sig_compat m w w' : sig m w -> w == w' -> sig m w'.
Proof. intros H K. unfold sig in *. rewrite <- K. exact H. Qed.

Lemma far_val x b y a x' y' w c z :
  ufar x b -> ucoord y a -> ucoord x' w -> ucoord y' c -> rep z 0 -> (w == c \/ 64 * u <= Qabs (w - c)) ->
  (exists m, rep (fsub (fmul (fsub x' y') (fsub x y)) z) m /\ sig m (sgn b (w - c))) /\
  (exists m, rep (fsub z (fmul (fsub x' y') (fsub x y))) m /\ sig m (- sgn b (w - c))) /\
  (exists m, rep (fsub (fmul (fsub x y) (fsub x' y')) z) m /\ sig m (sgn b (w - c))) /\
  (exists m, rep (fsub z (fmul (fsub x y) (fsub x' y'))) m /\ sig m (- sgn b (w - c))).
Proof.
  intros Fx Y X' Y' Z Hw. pose proof u0 as (U0 & U1).
  destruct (far_sub _ _ _ _ Fx Y) as (e & q & _ & Rq & _ & Bq & _ & _ & Sq & _).
  destruct (diff _ _ _ _ X' Y') as (d & Rd & Nd & Ed & Bd & _).
  assert (Bm : Qabs (d * q) <= 4) by (apply Qle_trans with (1 * 4); [now apply mul_abs|lra]).
  assert (Bm' : Qabs (q * d) <= 4) by (rewrite Qmult_comm; exact Bm).
  destruct (mul_near _ _ d q d q 0 0 1 4 4 4 Rd Rq) as (m & Rm & Nm & Em); try (apply abs_le); try (apply le_abs in Bd, Bq); try lra.
  { apply le_abs in Bm. lra. } { apply le_abs in Bm. lra. }
  destruct (mul_near _ _ q d q d 0 0 4 1 4 4 Rq Rd) as (m' & Rm' & Nm' & Em'); try (apply abs_le); try lra.
  { apply le_abs in Bm'. lra. } { apply le_abs in Bm'. lra. }
  assert (Mm : m == m') by (apply (rnd_same (d * q) (q * d)); auto; ring).
  assert (Hd : sig m (sgn b (w - c)) /\ (- (5) <= m <= 5)).
  { apply le_abs in Em, Ed, Bm. split; [|lra].
    destruct Hw as [Hw|Hw].
    - left. split; [destruct b; unfold sgn; lra|]. assert (d == 0) by (apply (rnd_zero (w - c)); auto; lra).
      apply (rnd_zero (d * q)); auto. rewrite H. ring.
    - right. destruct (Qlt_le_dec 0 (w - c)) as [K|K].
      + rewrite Qabs_pos in Hw by lra. assert (63 * u <= d) by lra.
        destruct b; [left|right]; unfold sgn; (split; [lra|]).
        * assert (63 * u * (1 # 3) <= d * q) by (apply Qle_trans with (d * (1 # 3)); [lra|]; rewrite (Qmult_comm d q), (Qmult_comm d); apply Qmult_le_compat_r; lra). lra.
        * assert (63 * u * (1 # 3) <= d * - q) by (apply Qle_trans with (d * (1 # 3)); [lra|]; rewrite (Qmult_comm d (- q)), (Qmult_comm d); apply Qmult_le_compat_r; lra). lra.
      + rewrite Qabs_neg in Hw by lra. assert (63 * u <= - d) by lra.
        destruct b; [right|left]; unfold sgn; (split; [lra|]).
        * assert (63 * u * (1 # 3) <= - d * q) by (apply Qle_trans with (- d * (1 # 3)); [lra|]; rewrite (Qmult_comm (- d) q), (Qmult_comm (- d)); apply Qmult_le_compat_r; lra). lra.
        * assert (63 * u * (1 # 3) <= - d * - q) by (apply Qle_trans with (- d * (1 # 3)); [lra|]; rewrite (Qmult_comm (- d) (- q)), (Qmult_comm (- d)); apply Qmult_le_compat_r; lra). lra. }
  destruct Hd as (Sm & Bm5).
  assert (Fx' : rnd m m) by (eapply (nr_fix _ _ _ Nr); eauto).
  assert (Sub : forall f p, rep f p -> p == m -> (exists r, rep (fsub f z) r /\ sig r (sgn b (w - c))) /\ (exists r, rep (fsub z f) r /\ sig r (- sgn b (w - c)))).
  { intros f p Rf Hp. split.
    - destruct (nr_sub _ _ _ Nr _ _ _ _ Rf Z) as (r & Rr & Nrr & _); [apply abs_big; lra|]. exists r. split; auto.
      assert (r == m) by (apply (rnd_same (p - 0) m); auto; lra). unfold sig in *. lra.
    - destruct (nr_sub _ _ _ Nr _ _ _ _ Z Rf) as (r & Rr & Nrr & _); [apply abs_big; lra|]. exists r. split; auto.
      assert (r == - m) by (apply (rnd_neg (0 - p) m); auto; lra). unfold sig in *. lra. }
  destruct (Sub _ _ Rm ltac:(reflexivity)) as (S1 & S2). destruct (Sub _ _ Rm' ltac:(now symmetry)) as (S3 & S4). auto.
Qed.

(** A product with an exact zero. *)
Lemma same_sub x y a b : ucoord x a -> ucoord y b -> a == b -> rep (fsub x y) 0.
Proof.
  intros A B H. destruct (diff _ _ _ _ A B) as (q & Rq & Nq & _). apply (rp_compat _ _ _ _ R _ q); auto.
  apply (rnd_zero (a - b)); auto. lra.
Qed.

Lemma zero_l x y e : rep x 0 -> rep y e -> Qabs e <= 100 -> rep (fmul x y) 0.
Proof.
  intros A B H. apply le_abs in H. destruct (nr_mul _ _ _ Nr _ _ _ _ A B) as (q & Rq & Nq); [apply abs_big; lra|].
  apply (rp_compat _ _ _ _ R _ q); auto. apply (rnd_zero (0 * e)); auto. ring.
Qed.
Lemma zero_r x y e : rep x 0 -> rep y e -> Qabs e <= 100 -> rep (fmul y x) 0.
Proof.
  intros A B H. apply le_abs in H. destruct (nr_mul _ _ _ Nr _ _ _ _ B A) as (q & Rq & Nq); [apply abs_big; lra|].
  apply (rp_compat _ _ _ _ R _ q); auto. apply (rnd_zero (e * 0)); auto. ring.
Qed.

Lemma bnd x y a b : ucoord x a -> ucoord y b -> exists q, rep (fsub x y) q /\ Qabs q <= 100.
Proof. intros A B. destruct (diff _ _ _ _ A B) as (q & Rq & _ & _ & Bq & _). exists q. split; auto. lra. Qed.

Lemma bnd_far x y a b : ufar x b -> ucoord y a -> exists q, rep (fsub y x) q /\ Qabs q <= 100.
Proof.
  intros (e & Re & He & _) (Y & HY). pose proof u0 as (U0 & U1).
  destruct (sub_near _ _ a e a e 0 0 3 3 Y Re) as (q & Rq & _ & Eq); try (apply abs_le); try lra.
  exists q. split; auto. apply le_abs in Eq. apply abs_le; lra.
Qed.

Lemma bnd_far2 x y b b' : ufar x b -> ufar y b' -> exists q, rep (fsub x y) q /\ Qabs q <= 100.
Proof.
  intros (e & Re & He & _) (e' & Re' & He' & _). pose proof u0 as (U0 & U1).
  destruct (sub_near _ _ e e' e e' 0 0 5 5 Re Re') as (q & Rq & _ & Eq); try (apply abs_le); try lra.
  exists q. split; auto. apply le_abs in Eq. apply abs_le; lra.
Qed.

Lemma semi_sign a k q p va vp :
  nthN vs a = Some va -> infinite_vertex_local_quad_index k = Some q -> nthN vs p = Some vp ->
  exists m, rep (test_point_edge_side (edge_from_semi_infinite_edge va q) vp) m /\ sig m (D a k p).
Proof.
  intros A K P. destruct (Hvs _ _ A) as (A1 & A2). destruct (Hvs _ _ P) as (P1 & P2).
  assert (Ha : here a) by (eexists; eauto). assert (Hp : here p) by (eexists; eauto).
  destruct (inf_index ux uy _ _ K) as (_ & Ek). rewrite (pos_index _ _ A), (pos_index _ _ P), Ek.
  pose proof (far_spec _ _ q A) as Fs.
  change (edge_from_semi_infinite_edge va q) with (va, far va q). unfold test_point_edge_side.
  destruct q; destruct Fs as (F1 & F2).
  - destruct (bnd _ _ _ _ P1 A1) as (e & Re & Be).
    pose proof (zero_r _ _ _ (same_sub _ _ _ _ F2 A2 ltac:(reflexivity)) Re Be) as Z.
    destruct (far_val _ _ _ _ _ _ _ _ _ F1 A1 P2 A2 Z (Gy p a Hp Ha)) as ((m & Rm & Sm) & _).
    exists m. split; [exact Rm|]. eapply sig_compat; [exact Sm|]. unfold sgn, det; simpl. ring.
  - destruct (bnd _ _ _ _ P2 A2) as (e & Re & Be).
    pose proof (zero_r _ _ _ (same_sub _ _ _ _ F1 A1 ltac:(reflexivity)) Re Be) as Z.
    destruct (far_val _ _ _ _ _ _ _ _ _ F2 A2 P1 A1 Z (Gx p a Hp Ha)) as (_ & (m & Rm & Sm) & _).
    exists m. split; [exact Rm|]. eapply sig_compat; [exact Sm|]. unfold sgn, det; simpl. ring.
  - destruct (bnd _ _ _ _ P1 A1) as (e & Re & Be).
    pose proof (zero_r _ _ _ (same_sub _ _ _ _ F2 A2 ltac:(reflexivity)) Re Be) as Z.
    destruct (far_val _ _ _ _ _ _ _ _ _ F1 A1 P2 A2 Z (Gy p a Hp Ha)) as ((m & Rm & Sm) & _).
    exists m. split; [exact Rm|]. eapply sig_compat; [exact Sm|]. unfold sgn, det; simpl. ring.
  - destruct (bnd _ _ _ _ P2 A2) as (e & Re & Be).
    pose proof (zero_r _ _ _ (same_sub _ _ _ _ F1 A1 ltac:(reflexivity)) Re Be) as Z.
    destruct (far_val _ _ _ _ _ _ _ _ _ F2 A2 P1 A1 Z (Gx p a Hp Ha)) as (_ & (m & Rm & Sm) & _).
    exists m. split; [exact Rm|]. eapply sig_compat; [exact Sm|]. unfold sgn, det; simpl. ring.
Qed.

Lemma sig_tests x m w : rep x m -> sig m w ->
  (is_on_left_side x = true <-> 0 < w) /\ (is_on_right_side x = true <-> w < 0) /\ (is_near_edge x = true <-> w == 0).
Proof.
  intros Hx Hs. pose proof u0 as (U0 & U1). unfold is_on_left_side, is_on_right_side, is_near_edge.
  rewrite (rp_lt _ _ _ _ R _ _ _ _ (rp_0 _ _ _ _ R) Hx), (rp_lt _ _ _ _ R _ _ _ _ Hx (rp_0 _ _ _ _ R)).
  rewrite (rp_lt _ _ _ _ R _ _ _ _ (rp_abs _ _ _ _ R _ _ Hx) (rp_eps _ _ _ _ R)).
  destruct Hs as [(W & M)|[(W & M)|(W & M)]].
  - split; [lra|]. split; [lra|]. rewrite M. change (Qabs 0) with 0. lra.
  - split; [lra|]. split; [lra|]. rewrite Qabs_pos by lra. lra.
  - split; [lra|]. split; [lra|]. rewrite Qabs_neg by lra. lra.
Qed.

Lemma os_sig v m w s : rep v m -> sig m w -> s == - w ->
  os (if feq v f0 then Colinear else if flt f0 v then Clockwise else CounterClockwise) s.
Proof. intros Hv Hs E0. pose proof u0 as (U0 & U1). unfold sig in Hs. apply (os_val rep repr pb ep R v s m Hv); intros K; lra. Qed.

Lemma os_fin a b c va vb vc :
  nthN vs a = Some va -> nthN vs b = Some vb -> nthN vs c = Some vc ->
  os (triplet_orientation va vb vc) (D a b c).
Proof.
  intros A B C. destruct (Hvs _ _ A) as (A1 & A2). destruct (Hvs _ _ B) as (B1 & B2).
  destruct (Hvs _ _ C) as (C1 & C2). unfold triplet_orientation. pose proof u0 as (U0 & U1).
  destruct (cross_near _ _ _ _ _ _ _ _ _ _ _ _ _ _ _ _ B2 A2 C1 B1 B1 A1 C2 B2)
    as (q1 & q2 & q3 & q4 & q & N1 & N2 & N3 & N4 & Rq & Eq & Zq).
  assert (Ed : (uy b - uy a) * (ux c - ux b) - (ux b - ux a) * (uy c - uy b) == - D a b c).
  { rewrite (D_fin _ _ _ _ _ _ A B C). ring. }
  rewrite Ed in Eq. apply le_abs in Eq.
  assert (Zp : plain a b c -> q == 0).
  { intros H. apply Zq. destruct H as [(X & Y)|[(X & Y)|[(X & Y)|[(X & Y)|(X & Y)]]]].
    - zero N1. zero N3. ring.
    - zero N2. zero N4. ring.
    - assert (Ha : q2 == - q3) by (apply (fun H => rnd_neg _ _ _ _ H N2 N3); rewrite X; ring).
      assert (Hb : q4 == - q1) by (apply (fun H => rnd_neg _ _ _ _ H N4 N1); rewrite Y; ring).
      rewrite Ha, Hb. ring.
    - zero N2. zero N3. ring.
    - zero N1. zero N4. ring. }
  apply (os_val rep repr pb ep R _ _ q Rq).
  - intros K. apply Zp. destruct (Go a b c) as [H|H]; try (eexists; eassumption); auto.
    rewrite K in H. change (Qabs 0) with 0 in H. lra.
  - intros K. destruct (Go a b c) as [H|H]; try (eexists; eassumption).
    + pose proof (plain_zero _ _ _ _ _ _ A B C H). lra.
    + rewrite Qabs_neg in H by lra. lra.
  - intros K. destruct (Go a b c) as [H|H]; try (eexists; eassumption).
    + pose proof (plain_zero _ _ _ _ _ _ A B C H). lra.
    + rewrite Qabs_pos in H by lra. lra.
Qed.

Lemma os_ray f k q r vf vr :
  nthN vs f = Some vf -> infinite_vertex_local_quad_index k = Some q -> nthN vs r = Some vr ->
  os (triplet_orientation vf (far vf q) vr) (D f k r).
Proof.
  intros A K P. destruct (Hvs _ _ A) as (A1 & A2). destruct (Hvs _ _ P) as (P1 & P2).
  assert (Ha : here f) by (eexists; eauto). assert (Hp : here r) by (eexists; eauto).
  destruct (inf_index ux uy _ _ K) as (_ & Ek). rewrite (pos_index _ _ A), (pos_index _ _ P), Ek.
  pose proof (far_spec _ _ q A) as Fs. unfold triplet_orientation.
  destruct q; destruct Fs as (F1 & F2).
  - destruct (bnd_far _ _ _ _ F1 P1) as (b & Rb & Lb).
    pose proof (zero_l _ _ _ (same_sub _ _ _ _ F2 A2 ltac:(reflexivity)) Rb Lb) as Z.
    destruct (far_val _ _ _ _ _ _ _ _ _ F1 A1 P2 F2 Z (Gy r f Hp Ha)) as (_ & _ & _ & (m & Rm & Sm)).
    eapply os_sig; [exact Rm|exact Sm|]. unfold sgn, det; simpl. ring.
  - destruct (bnd_far _ _ _ _ F2 P2) as (b & Rb & Lb).
    pose proof (zero_l _ _ _ (same_sub _ _ _ _ F1 A1 ltac:(reflexivity)) Rb Lb) as Z.
    destruct (far_val _ _ _ _ _ _ _ _ _ F2 A2 P1 F1 Z (Gx r f Hp Ha)) as (_ & _ & (m & Rm & Sm) & _).
    eapply os_sig; [exact Rm|exact Sm|]. unfold sgn, det; simpl. ring.
  - destruct (bnd_far _ _ _ _ F1 P1) as (b & Rb & Lb).
    pose proof (zero_l _ _ _ (same_sub _ _ _ _ F2 A2 ltac:(reflexivity)) Rb Lb) as Z.
    destruct (far_val _ _ _ _ _ _ _ _ _ F1 A1 P2 F2 Z (Gy r f Hp Ha)) as (_ & _ & _ & (m & Rm & Sm)).
    eapply os_sig; [exact Rm|exact Sm|]. unfold sgn, det; simpl. ring.
  - destruct (bnd_far _ _ _ _ F2 P2) as (b & Rb & Lb).
    pose proof (zero_l _ _ _ (same_sub _ _ _ _ F1 A1 ltac:(reflexivity)) Rb Lb) as Z.
    destruct (far_val _ _ _ _ _ _ _ _ _ F2 A2 P1 F1 Z (Gx r f Hp Ha)) as (_ & _ & (m & Rm & Sm) & _).
    eapply os_sig; [exact Rm|exact Sm|]. unfold sgn, det; simpl. ring.
Qed.

(** A segment and the far end of a ray whose line it meets. *)
Lemma robust x b y a x' y' w c x2 y2 x3 y3 a2 b2 a3 b3 :
  ufar x b -> ucoord y a -> ucoord x' w -> ucoord y' c ->
  ucoord x2 a2 -> ucoord y2 b2 -> ucoord x3 a3 -> ucoord y3 b3 ->
  64 * u <= Qabs (w - c) ->
  (0 < sgn b (w - c) -> (a2 - b2) * (a3 - b3) <= (w - c) * bound1 b a) ->
  (sgn b (w - c) < 0 -> (w - c) * bound1 b a <= (a2 - b2) * (a3 - b3)) ->
  (exists m, rep (fsub (fmul (fsub x' y') (fsub x y)) (fmul (fsub x2 y2) (fsub x3 y3))) m /\ sig m (sgn b (w - c))) /\
  (exists m, rep (fsub (fmul (fsub x2 y2) (fsub x3 y3)) (fmul (fsub x' y') (fsub x y))) m /\ sig m (- sgn b (w - c))).
Proof.
  intros Fx Y X' Y' X2 Y2 X3 Y3 Hw H1 H2. pose proof u0 as (U0 & U1).
  destruct (far_sub _ _ _ _ Fx Y) as (e & q & _ & Rq & Eq & Bq & Be & Se & _ & Fe).
  destruct (diff _ _ _ _ X' Y') as (d & Rd & Nd & Ed & Bd & Bw).
  assert (Bm : Qabs (d * q) <= 4) by (apply Qle_trans with (1 * 4); [now apply mul_abs|lra]).
  destruct (mul_near _ _ d q (w - c) (e - a) 1 3 1 3 4 10 Rd Rq Ed Eq Bd Be Bm) as (m & Rm & Nm & Em); try lra.
  destruct (diff2 _ _ _ _ _ _ _ _ X2 Y2 X3 Y3) as (q2 & q3 & p & N2 & N3 & Rp & Np & Ep & Bp & Pp).
  set (v := (a2 - b2) * (a3 - b3)) in *. set (z := w - c) in *.
  assert (Bz : Qabs (z * (e - a)) <= 3) by (apply Qle_trans with (1 * 3); [now apply mul_abs|lra]).
  destruct Y as (_ & HY).
  assert (Lo : (0 < sgn b z /\ 24 * u <= z * (e - a) - v) \/ (sgn b z < 0 /\ z * (e - a) - v <= - (24 * u))).
  { destruct (Qlt_le_dec 0 z) as [K|K].
    - rewrite Qabs_pos in Hw by lra. destruct b; cbn [sgn bound1] in *.
      + left. split; auto. specialize (H1 K).
        assert (z * (3 # 8) <= z * (e - a) - z * (1 - a)).
        { setoid_replace (z * (e - a) - z * (1 - a)) with (z * (e - 1)) by ring. rewrite !(Qmult_comm z). apply Qmult_le_compat_r; lra. }
        lra.
      + right. split; [lra|]. assert (K' : - z < 0) by lra. specialize (H2 K').
        assert (z * (3 # 8) <= z * - a - z * (e - a)).
        { setoid_replace (z * - a - z * (e - a)) with (z * - e) by ring. rewrite !(Qmult_comm z). apply Qmult_le_compat_r; lra. }
        lra.
    - rewrite Qabs_neg in Hw by lra. destruct b; cbn [sgn bound1] in *.
      + right. assert (K' : z < 0) by lra. split; auto. specialize (H2 K').
        assert ((- z) * (3 # 8) <= (- z) * (e - a) - (- z) * (1 - a)).
        { setoid_replace ((- z) * (e - a) - (- z) * (1 - a)) with ((- z) * (e - 1)) by ring. rewrite !(Qmult_comm (- z)). apply Qmult_le_compat_r; lra. }
        lra.
      + left. assert (K' : 0 < - z) by lra. split; auto. specialize (H1 K').
        assert ((- z) * (3 # 8) <= (- z) * - a - (- z) * (e - a)).
        { setoid_replace ((- z) * - a - (- z) * (e - a)) with ((- z) * - e) by ring. rewrite !(Qmult_comm (- z)). apply Qmult_le_compat_r; lra. }
        lra. }
  pose proof (le_abs _ _ Bz) as Bz'. pose proof (le_abs _ _ Em) as Em'. pose proof (le_abs _ _ Bp) as Bp'. split.
  - destruct (sub_near _ _ m p (z * (e - a)) v 10 3 5 18 Rm Rp Em Ep) as (r & Rr & _ & Er); try lra.
    { apply abs_le; lra. }
    exists r. split; auto. apply le_abs in Er. unfold sig. lra.
  - destruct (sub_near _ _ p m v (z * (e - a)) 3 10 5 18 Rp Rm Ep Em) as (r & Rr & _ & Er); try lra.
    { apply abs_le; lra. }
    exists r. split; auto. apply le_abs in Er. unfold sig. lra.
Qed.

Lemma os_seg_far a b f k q va vb vf :
  nthN vs a = Some va -> nthN vs b = Some vb -> nthN vs f = Some vf ->
  infinite_vertex_local_quad_index k = Some q ->
  D f k a * D f k b <= 0 -> ~ (D f k a == 0 /\ D f k b == 0) ->
  os (triplet_orientation va vb (far vf q)) (D a b k) /\ ~ D a b k == 0.
Proof.
  intros A B Fv K. destruct (Hvs _ _ A) as (A1 & A2). destruct (Hvs _ _ B) as (B1 & B2). destruct (Hvs _ _ Fv) as (F1 & F2).
  assert (Ha : here a) by (eexists; eauto). assert (Hb : here b) by (eexists; eauto).
  destruct (inf_index ux uy _ _ K) as (_ & Ek). rewrite (pos_index _ _ A), (pos_index _ _ B), (pos_index _ _ Fv), Ek.
  pose proof (far_spec _ _ q Fv) as Fs. unfold triplet_orientation.
  pose proof A1 as (_ & a1). pose proof A2 as (_ & a2). pose proof B1 as (_ & b1). pose proof B2 as (_ & b2).
  pose proof F1 as (_ & f1). pose proof F2 as (_ & f2).
  destruct q; destruct Fs as (N1 & N2); intros Hs Hn; unfold det in Hs, Hn |- *; cbn [hx hy hw] in Hs, Hn |- *.
  - assert (W0 : ~ uy b - uy a == 0) by nra.
    destruct (Gy b a Hb Ha) as [Ge|Ge]; [lra|].
    destruct (robust _ _ _ _ _ _ _ _ _ _ _ _ _ _ _ _ N1 B1 B2 A2 B1 A1 N2 B2 Ge) as ((m & Rm & Sm) & _); cbn [sgn bound1].
    { intros W. assert (uy b - uy a < 0) by lra. assert (0 <= uy a - uy f) by nra. assert (0 <= uy f - uy b) by nra. nra. }
    { intros W. assert (0 < uy b - uy a) by lra. assert (0 <= uy f - uy a) by nra. assert (0 <= uy b - uy f) by nra. nra. }
    split; [eapply os_sig; [exact Rm|exact Sm|]; cbn [sgn]; ring|]. intros Q. apply W0. lra.
  - assert (W0 : ~ ux b - ux a == 0) by nra.
    destruct (Gx b a Hb Ha) as [Ge|Ge]; [lra|].
    destruct (robust _ _ _ _ _ _ _ _ _ _ _ _ _ _ _ _ N2 B2 B1 A1 B2 A2 N1 B1 Ge) as (_ & (m & Rm & Sm)); cbn [sgn bound1].
    { intros W. assert (0 <= ux f - ux a) by nra. assert (0 <= ux b - ux f) by nra. nra. }
    { intros W. assert (0 <= ux a - ux f) by nra. assert (0 <= ux f - ux b) by nra. nra. }
    split; [eapply os_sig; [exact Rm|exact Sm|]; cbn [sgn]; ring|]. intros Q. apply W0. lra.
  - assert (W0 : ~ uy b - uy a == 0) by nra.
    destruct (Gy b a Hb Ha) as [Ge|Ge]; [lra|].
    destruct (robust _ _ _ _ _ _ _ _ _ _ _ _ _ _ _ _ N1 B1 B2 A2 B1 A1 N2 B2 Ge) as ((m & Rm & Sm) & _); cbn [sgn bound1].
    { intros W. assert (0 <= uy f - uy a) by nra. assert (0 <= uy b - uy f) by nra. nra. }
    { intros W. assert (0 <= uy a - uy f) by nra. assert (0 <= uy f - uy b) by nra. nra. }
    split; [eapply os_sig; [exact Rm|exact Sm|]; cbn [sgn]; ring|]. intros Q. apply W0. lra.
  - assert (W0 : ~ ux b - ux a == 0) by nra.
    destruct (Gx b a Hb Ha) as [Ge|Ge]; [lra|].
    destruct (robust _ _ _ _ _ _ _ _ _ _ _ _ _ _ _ _ N2 B2 B1 A1 B2 A2 N1 B1 Ge) as (_ & (m & Rm & Sm)); cbn [sgn bound1].
    { intros W. assert (ux b - ux a < 0) by lra. assert (0 <= ux a - ux f) by nra. assert (0 <= ux f - ux b) by nra. nra. }
    { intros W. assert (0 < ux b - ux a) by lra. assert (0 <= ux f - ux a) by nra. assert (0 <= ux b - ux f) by nra. nra. }
    split; [eapply os_sig; [exact Rm|exact Sm|]; cbn [sgn]; ring|]. intros Q. apply W0. lra.
Qed.

(** The line of a ray and the far end of another ray. *)
Lemma far_far x b y a x' b' y' a' z : ufar x b -> ucoord y a -> ufar x' b' -> ucoord y' a' -> rep z 0 ->
  (exists q, rep (fsub (fmul (fsub x y) (fsub x' y')) z) q /\
     (if eqb b b' then 1 # 16 <= q else q <= - (1 # 16))) /\
  (exists q, rep (fsub z (fmul (fsub x y) (fsub x' y'))) q /\
     (if eqb b b' then q <= - (1 # 16) else 1 # 16 <= q)).
Proof.
  intros A B A' B' Hz. pose proof u0 as (U0 & U1).
  destruct (far_sub _ _ _ _ A B) as (_ & e & _ & Re & _ & Be & _ & _ & Se & _).
  destruct (far_sub _ _ _ _ A' B') as (_ & e' & _ & Re' & _ & Be' & _ & _ & Se' & _).
  assert (Bm : Qabs (e * e') <= 16) by (apply Qle_trans with (4 * 4); [now apply mul_abs|lra]).
  destruct (mul_near _ _ e e' e e' 0 0 4 4 16 16 Re Re') as (m & Rm & _ & Em); auto; try (apply abs_le); try lra.
  assert (Cm : if eqb b b' then 1 # 9 <= e * e' else e * e' <= - (1 # 9)).
  { clear - Se Se'. destruct b, b'; cbn [eqb]; nra. }
  pose proof (le_abs _ _ Em) as Em'. pose proof (le_abs _ _ Bm) as Bm'. split.
  - destruct (sub_near _ _ m 0 (e * e') 0 16 0 17 33 Rm Hz Em) as (r & Rr & _ & Er); try (apply abs_le); try lra.
    exists r. split; auto. apply le_abs in Er. destruct (eqb b b'); lra.
  - destruct (sub_near _ _ 0 m 0 (e * e') 0 16 17 33 Hz Rm) as (r & Rr & _ & Er); auto; try (apply abs_le); try lra.
    exists r. split; auto. apply le_abs in Er. destruct (eqb b b'); lra.
Qed.

Lemma os_const v m s : rep v m -> (m <= - (1 # 16) /\ 0 < s) \/ (1 # 16 <= m /\ s < 0) ->
  os (if feq v f0 then Colinear else if flt f0 v then Clockwise else CounterClockwise) s.
Proof. intros Hv H. apply (os_val rep repr pb ep R v s m Hv); intros K; lra. Qed.

Lemma os_ray_far f k q f' k' q' vf vf' :
  nthN vs f = Some vf -> nthN vs f' = Some vf' ->
  infinite_vertex_local_quad_index k = Some q -> infinite_vertex_local_quad_index k' = Some q' ->
  os (triplet_orientation vf (far vf q) (far vf' q')) (if eqb (horiz q) (horiz q') then D f k f' else D f k k').
Proof.
  intros A A' K K'. destruct (Hvs _ _ A) as (A1 & A2). destruct (Hvs _ _ A') as (A1' & A2').
  assert (Ha : here f) by (eexists; eauto). assert (Ha' : here f') by (eexists; eauto).
  destruct (inf_index ux uy _ _ K) as (_ & Ek). destruct (inf_index ux uy _ _ K') as (_ & Ek').
  rewrite (pos_index _ _ A), (pos_index _ _ A'), Ek, Ek'.
  pose proof (far_spec _ _ q A) as Fs. pose proof (far_spec _ _ q' A') as Fs'. unfold triplet_orientation.
  destruct q, q'; destruct Fs as (F1 & F2); destruct Fs' as (F1' & F2'); cbn [horiz eqb] in *;
    first
    [ (* horizontal, horizontal *)
      destruct (bnd_far2 _ _ _ _ F1' F1) as (e & Re & Be);
      pose proof (zero_l _ _ _ (same_sub _ _ _ _ F2 A2 ltac:(reflexivity)) Re Be) as Z;
      destruct (far_val _ _ _ _ _ _ _ _ _ F1 A1 F2' F2 Z (Gy f' f Ha' Ha)) as (_ & _ & _ & (m & Rm & Sm));
      (eapply os_sig; [exact Rm|exact Sm|]; unfold sgn, det; simpl; ring)
    | (* vertical, vertical *)
      destruct (bnd_far2 _ _ _ _ F2' F2) as (e & Re & Be);
      pose proof (zero_l _ _ _ (same_sub _ _ _ _ F1 A1 ltac:(reflexivity)) Re Be) as Z;
      destruct (far_val _ _ _ _ _ _ _ _ _ F2 A2 F1' F1 Z (Gx f' f Ha' Ha)) as (_ & _ & (m & Rm & Sm) & _);
      (eapply os_sig; [exact Rm|exact Sm|]; unfold sgn, det; simpl; ring)
    | (* horizontal, vertical *)
      destruct (bnd_far _ _ _ _ F1 F1') as (e & Re & Be);
      pose proof (zero_l _ _ _ (same_sub _ _ _ _ F2 A2 ltac:(reflexivity)) Re Be) as Z;
      destruct (far_far _ _ _ _ _ _ _ _ _ F1 A1 F2' F2 Z) as (_ & (m & Rm & Cm)); cbn [eqb] in Cm;
      apply (os_const _ _ _ Rm); unfold det; simpl; lra
    | (* vertical, horizontal *)
      destruct (bnd_far _ _ _ _ F2 F2') as (e & Re & Be);
      pose proof (zero_l _ _ _ (same_sub _ _ _ _ F1 A1 ltac:(reflexivity)) Re Be) as Z;
      destruct (far_far _ _ _ _ _ _ _ _ _ F2 A2 F1' F1 Z) as ((m & Rm & Cm) & _); cbn [eqb] in Cm;
      apply (os_const _ _ _ Rm); unfold det; simpl; lra ].
Qed.

Lemma far_pt f vf q : nthN vs f = Some vf -> exists e : Q * Q,
  pt_rep rep (far vf q) e /\ snd (rot q e) == snd (rot q (upt ux uy f)) /\
  (forall g vg, nthN vs g = Some vg -> fst (rot q (upt ux uy g)) < fst (rot q e)).
Proof.
  intros A. pose proof (far_spec _ _ q A) as Fs.
  destruct q; destruct Fs as (F1 & F2).
  - destruct F1 as (e & Re & _ & Le). destruct F2 as (R2 & _). exists (e, uy f).
    split; [split; auto|]. split; [reflexivity|]. intros g vg G0. destruct (Hvs _ _ G0) as ((_ & H1) & (_ & H2)).
    unfold rot, upt; cbn [fst snd]. lra.
  - destruct F2 as (e & Re & _ & Le). destruct F1 as (R1 & _). exists (ux f, e).
    split; [split; auto|]. split; [reflexivity|]. intros g vg G0. destruct (Hvs _ _ G0) as ((_ & H1) & (_ & H2)).
    unfold rot, upt; cbn [fst snd]. lra.
  - destruct F1 as (e & Re & _ & Le). destruct F2 as (R2 & _). exists (e, uy f).
    split; [split; auto|]. split; [reflexivity|]. intros g vg G0. destruct (Hvs _ _ G0) as ((_ & H1) & (_ & H2)).
    unfold rot, upt; cbn [fst snd]. lra.
  - destruct F2 as (e & Re & _ & Le). destruct F1 as (R1 & _). exists (ux f, e).
    split; [split; auto|]. split; [reflexivity|]. intros g vg G0. destruct (Hvs _ _ G0) as ((_ & H1) & (_ & H2)).
    unfold rot, upt; cbn [fst snd]. lra.
Qed.

Lemma pt_index v p : nthN vs v = Some p -> pt_rep rep p (upt ux uy v).
Proof. intros H. destruct (Hvs _ _ H) as ((A & _) & (B & _)). split; auto. Qed.

Theorem sep_exactC : ExactC vs ux uy.
Proof.
  apply (kernel_exactC rep repr pb ep R); auto.
  - exact pt_index.
  - exact os_fin.
  - exact os_ray.
  - exact os_seg_far.
  - exact os_ray_far.
  - exact far_pt.
Qed.

(** ** The circumcircle test *)
Lemma dot_bound p q r s : Qabs (p * q) <= 1 -> Qabs (r * s) <= 1 -> Qabs (p * q + r * s) <= 2 /\ Qabs (p * q - r * s) <= 2.
Proof. intros A B. apply le_abs in A, B. split; apply abs_le; lra. Qed.

Lemma circle_test a b c d va vb vc vd :
  nthN vs a = Some va -> nthN vs b = Some vb -> nthN vs c = Some vc -> nthN vs d = Some vd ->
  D d a b < 0 -> D b a c < 0 ->
  is_vertex_in_triangle_circumcircle va vb vc vd = true <->
  0 < incircle (ux a) (uy a) (ux b) (uy b) (ux c) (uy c) (ux d) (uy d).
Proof.
  intros A B C P H1 H2.
  pose proof (Gc a b c d ltac:(eexists; eauto) ltac:(eexists; eauto) ltac:(eexists; eauto) ltac:(eexists; eauto) H1 H2) as Hc.
  rewrite (pos_index _ _ A), (pos_index _ _ B), (pos_index _ _ C) in H2.
  rewrite (pos_index _ _ A), (pos_index _ _ B), (pos_index _ _ P) in H1.
  destruct (Hvs _ _ A) as (A1 & A2). destruct (Hvs _ _ B) as (B1 & B2).
  destruct (Hvs _ _ C) as (C1 & C2). destruct (Hvs _ _ P) as (P1 & P2). pose proof u0 as (U0 & U1).
  unfold is_vertex_in_triangle_circumcircle.
  destruct (dot_near _ _ _ _ _ _ _ _ _ _ _ _ _ _ _ _ A1 C1 B1 C1 A2 C2 B2 C2)
    as (x13 & x23 & y13 & y23 & qca & Nx13 & Nx23 & Ny13 & Ny23 & Rca & Eca & Zca).
  destruct (dot_near _ _ _ _ _ _ _ _ _ _ _ _ _ _ _ _ B1 P1 A1 P1 B2 P2 A2 P2)
    as (x24 & x14 & y24 & y14 & qcb & Nx24 & Nx14 & Ny24 & Ny14 & Rcb & Ecb & Zcb).
  destruct (cross_near _ _ _ _ _ _ _ _ _ _ _ _ _ _ _ _ A1 C1 B2 C2 B1 C1 A2 C2)
    as (_ & _ & _ & _ & qsa & _ & _ & _ & _ & Rsa & Esa & _).
  destruct (cross_near _ _ _ _ _ _ _ _ _ _ _ _ _ _ _ _ B1 P1 A2 P2 A1 P1 B2 P2)
    as (_ & _ & _ & _ & qsb & _ & _ & _ & _ & Rsb & Esb & _).
  assert (Bd : forall p q, 0 <= p <= 1 -> 0 <= q <= 1 -> Qabs (p - q) <= 1) by (intros; apply abs_le; lra).
  assert (B4 : forall p q r s, 0 <= p <= 1 -> 0 <= q <= 1 -> 0 <= r <= 1 -> 0 <= s <= 1 -> Qabs ((p - q) * (r - s)) <= 1).
  { intros. apply Qle_trans with (1 * 1); [apply mul_abs; auto|lra]. }
  destruct A1 as (_ & a1), A2 as (_ & a2), B1 as (_ & b1), B2 as (_ & b2), C1 as (_ & c1), C2 as (_ & c2), P1 as (_ & p1), P2 as (_ & p2).
  pose proof (proj1 (dot_bound _ _ _ _ (B4 _ _ _ _ a1 c1 b1 c1) (B4 _ _ _ _ a2 c2 b2 c2))) as Lca.
  pose proof (proj1 (dot_bound _ _ _ _ (B4 _ _ _ _ b1 p1 a1 p1) (B4 _ _ _ _ b2 p2 a2 p2))) as Lcb.
  pose proof (proj2 (dot_bound _ _ _ _ (B4 _ _ _ _ a1 c1 b2 c2) (B4 _ _ _ _ b1 c1 a2 c2))) as Lsa.
  pose proof (proj2 (dot_bound _ _ _ _ (B4 _ _ _ _ b1 p1 a2 p2) (B4 _ _ _ _ a1 p1 b2 p2))) as Lsb.
  set (fca := fadd (fmul (fsub (vx va) (vx vc)) (fsub (vx vb) (vx vc))) (fmul (fsub (vy va) (vy vc)) (fsub (vy vb) (vy vc)))) in *.
  set (fcb := fadd (fmul (fsub (vx vb) (vx vd)) (fsub (vx va) (vx vd))) (fmul (fsub (vy vb) (vy vd)) (fsub (vy va) (vy vd)))) in *.
  set (fsa := fsub (fmul (fsub (vx va) (vx vc)) (fsub (vy vb) (vy vc))) (fmul (fsub (vx vb) (vx vc)) (fsub (vy va) (vy vc)))) in *.
  set (fsb := fsub (fmul (fsub (vx vb) (vx vd)) (fsub (vy va) (vy vd))) (fmul (fsub (vx va) (vx vd)) (fsub (vy vb) (vy vd)))) in *.
  set (ca := (ux a - ux c) * (ux b - ux c) + (uy a - uy c) * (uy b - uy c)) in *.
  set (cb := (ux b - ux d) * (ux a - ux d) + (uy b - uy d) * (uy a - uy d)) in *.
  set (sa := (ux a - ux c) * (uy b - uy c) - (ux b - ux c) * (uy a - uy c)) in *.
  set (sb := (ux b - ux d) * (uy a - uy d) - (ux a - ux d) * (uy b - uy d)) in *.
  assert (Ea : sa == - det (P3 (ux b) (uy b) 1) (P3 (ux a) (uy a) 1) (P3 (ux c) (uy c) 1)).
  { unfold sa, det; simpl. ring. }
  assert (Eb : sb == - det (P3 (ux d) (uy d) 1) (P3 (ux a) (uy a) 1) (P3 (ux b) (uy b) 1)).
  { unfold sb, det; simpl. ring. }
  assert (Psa : 0 < sa) by (rewrite Ea; lra). assert (Psb : 0 < sb) by (rewrite Eb; lra).
  assert (Inc : incircle (ux a) (uy a) (ux b) (uy b) (ux c) (uy c) (ux d) (uy d) == - (sa * cb + sb * ca)).
  { unfold incircle, sa, sb, ca, cb. ring. }
  rewrite Inc in *. clear Inc Ea Eb H1 H2.
  pose proof (rp_0 _ _ _ _ R) as Z0.
  (* the sum of the two products *)
  pose proof (le_abs _ _ Lca) as Lca'. pose proof (le_abs _ _ Lcb) as Lcb'. pose proof (le_abs _ _ Lsa) as Lsa'. pose proof (le_abs _ _ Lsb) as Lsb'.
  pose proof (le_abs _ _ Eca) as Eca'. pose proof (le_abs _ _ Ecb) as Ecb'. pose proof (le_abs _ _ Esa) as Esa'. pose proof (le_abs _ _ Esb) as Esb'.
  assert (Qsa : Qabs qsa <= 21 # 10) by (apply abs_le; lra). assert (Qsb : Qabs qsb <= 21 # 10) by (apply abs_le; lra).
  assert (Qca : Qabs qca <= 21 # 10) by (apply abs_le; lra). assert (Qcb : Qabs qcb <= 21 # 10) by (apply abs_le; lra).
  assert (Q4 : forall p q, Qabs p <= 21 # 10 -> Qabs q <= 21 # 10 -> Qabs (p * q) <= 5).
  { intros p q Hp Hq. apply Qle_trans with ((21 # 10) * (21 # 10)); [now apply mul_abs|lra]. }
  destruct (mul_near _ _ _ _ _ _ 9 9 (21 # 10) 2 5 42 Rsa Rcb Esa Ecb Qsa Lcb (Q4 _ _ Qsa Qcb)) as (m1 & Rm1 & _ & Em1); try lra.
  destruct (mul_near _ _ _ _ _ _ 9 9 (21 # 10) 2 5 42 Rsb Rca Esb Eca Qsb Lca (Q4 _ _ Qsb Qca)) as (m2 & Rm2 & _ & Em2); try lra.
  pose proof (mul_abs _ _ _ _ Lsa Lcb) as T1. pose proof (mul_abs _ _ _ _ Lsb Lca) as T2.
  destruct (add_near _ _ _ _ _ _ 42 42 9 93 Rm1 Rm2 Em1 Em2) as (m & Rm & _ & Em); try lra.
  { apply le_abs in T1, T2. pose proof (le_abs _ _ Em1). pose proof (le_abs _ _ Em2). apply abs_le; lra. }
  apply le_abs in Em.
  destruct Hc as [(Bc & Bd')|Hc].
  - (* the corners of a rectangle *)
    assert (Zc : qca == 0 /\ ca == 0).
    { split.
      - destruct Bc as [(X & Y)|(X & Y)]; apply Zca.
        + zero Nx13. ring. + zero Ny23. ring. + zero Nx23. ring. + zero Ny13. ring.
      - unfold ca. destruct Bc as [(X & Y)|(X & Y)]; rewrite X, Y; ring. }
    assert (Zd : qcb == 0 /\ cb == 0).
    { split.
      - destruct Bd' as [(X & Y)|(X & Y)]; apply Zcb.
        + zero Nx14. ring. + zero Ny24. ring. + zero Nx24. ring. + zero Ny14. ring.
      - unfold cb. destruct Bd' as [(X & Y)|(X & Y)]; rewrite X, Y; ring. }
    assert (L1 : fle f0 fca = true) by (apply (rp_le _ _ _ _ R _ _ _ _ Z0 Rca); lra).
    assert (L2 : fle f0 fcb = true) by (apply (rp_le _ _ _ _ R _ _ _ _ Z0 Rcb); lra).
    rewrite L1, L2. cbn [andb]. split; [discriminate|]. intros K. exfalso.
    destruct Zc as (_ & Zc). destruct Zd as (_ & Zd). rewrite Zc, Zd in K. lra.
  - assert (Hs : forall t, (0 < t <= 2) -> forall z, - (9 * u) <= z -> - (18 * u) <= t * z).
    { intros t Ht z Hz. destruct (Qlt_le_dec z 0) as [K|K].
      - assert (t * - z <= 2 * - z) by (apply Qmult_le_compat_r; lra). lra.
      - assert (0 <= t * z) by (apply Qmult_le_0_compat; lra). lra. }
    destruct (fle f0 fca) eqn:L1.
    + apply (rp_le _ _ _ _ R _ _ _ _ Z0 Rca) in L1.
      assert (N1 : flt fca f0 = false) by (apply (lt_false _ _ _ _ R _ _ _ _ Rca Z0); lra). rewrite N1.
      destruct (fle f0 fcb) eqn:L2; cbn [andb].
      * apply (rp_le _ _ _ _ R _ _ _ _ Z0 Rcb) in L2. split; [discriminate|]. intros K. exfalso.
        rewrite Qabs_pos in Hc by lra. pose proof (Hs sa ltac:(lra) cb ltac:(lra)). pose proof (Hs sb ltac:(lra) ca ltac:(lra)). lra.
      * rewrite (rp_lt _ _ _ _ R _ _ _ _ Rm Z0). split; intros K.
        -- destruct (Qlt_le_dec 0 (- (sa * cb + sb * ca))) as [G0|G0]; auto. rewrite Qabs_neg in Hc by lra. exfalso. lra.
        -- rewrite Qabs_pos in Hc by lra. lra.
    + apply (le_false _ _ _ _ R _ _ _ _ Z0 Rca) in L1. cbn [andb].
      assert (N1 : flt fca f0 = true) by (apply (rp_lt _ _ _ _ R _ _ _ _ Rca Z0); lra). rewrite N1. cbn [andb].
      destruct (flt fcb f0) eqn:L2.
      * apply (rp_lt _ _ _ _ R _ _ _ _ Rcb Z0) in L2. split; auto. intros _.
        pose proof (Hs sa ltac:(lra) (- cb) ltac:(lra)). pose proof (Hs sb ltac:(lra) (- ca) ltac:(lra)).
        destruct (Qlt_le_dec 0 (- (sa * cb + sb * ca))) as [G0|G0]; auto. rewrite Qabs_neg in Hc by lra. exfalso. lra.
      * rewrite (rp_lt _ _ _ _ R _ _ _ _ Rm Z0). split; intros K.
        -- destruct (Qlt_le_dec 0 (- (sa * cb + sb * ca))) as [G0|G0]; auto. rewrite Qabs_neg in Hc by lra. exfalso. lra.
        -- rewrite Qabs_pos in Hc by lra. lra.
Qed.

(** ** All the predicates *)
Lemma near_zero x y a b : ucoord x a -> ucoord y b -> (a == b \/ 64 * u <= Qabs (a - b)) ->
  flt (fabs (fsub x y)) feps = true <-> a == b.
Proof.
  intros X Y H. pose proof u0 as (U0 & U1). destruct (diff _ _ _ _ X Y) as (q & Rq & Nq & Eq & _).
  rewrite (rp_lt _ _ _ _ R _ _ _ _ (rp_abs _ _ _ _ R _ _ Rq) (rp_eps _ _ _ _ R)).
  destruct H as [H|H].
  - split; auto. intros _. assert (Z : q == 0) by (apply (rnd_zero (a - b)); auto; lra).
    rewrite Z. change (Qabs 0) with 0. lra.
  - apply le_abs in Eq. split; intros K.
    + exfalso. apply Qlt_not_le in K. apply K. destruct (Qlt_le_dec 0 (a - b)) as [L|L].
      * rewrite Qabs_pos in H by lra. rewrite Qabs_pos by lra. lra.
      * rewrite Qabs_neg in H by lra. rewrite Qabs_neg by lra. lra.
    + exfalso. assert (Z : a - b == 0) by lra. rewrite Z in H. change (Qabs 0) with 0 in H. lra.
Qed.

Theorem sep_exact : Exact vs ux uy.
Proof.
  pose proof u0 as (U0 & U1).
  constructor; auto.
  - intros a b p va vb vp A B P s d. destruct (side_sign a b p va vb vp A B P) as (q & Rq & Sq). fold d in Sq. fold s in Rq.
    unfold is_on_left_side, is_near_edge.
    rewrite (rp_lt _ _ _ _ R _ _ _ _ (rp_0 _ _ _ _ R) Rq), (rp_lt _ _ _ _ R _ _ _ _ (rp_abs _ _ _ _ R _ _ Rq) (rp_eps _ _ _ _ R)).
    destruct Sq as [(K & M)|[(K & M)|(K & M)]].
    + split; [lra|]. rewrite M. change (Qabs 0) with 0. lra.
    + split; [lra|]. rewrite Qabs_pos by lra. lra.
    + split; [lra|]. rewrite Qabs_neg by lra. lra.
  - intros a k q p va vp A K P s d. destruct (semi_sign a k q p va vp A K P) as (m & Rm & Sm).
    exact (sig_tests _ _ _ Rm Sm).
  - intros a b p va vb vp A B P. destruct (side_sign a b p va vb vp A B P) as (q & Rq & Sq).
    unfold is_point_strictly_on_right_side_of_edge.
    rewrite (rp_le _ _ _ _ R _ _ _ _ Rq (rp_neg _ _ _ _ R _ _ (rp_eps _ _ _ _ R))).
    destruct Sq as [(K & M)|[(K & M)|(K & M)]]; lra.
  - exact circle_test.
  - intros a p va vp A P. destruct (Hvs _ _ A) as (A1 & A2). destruct (Hvs _ _ P) as (P1 & P2).
    assert (Ha : here a) by (eexists; eauto). assert (Hp : here p) by (eexists; eauto).
    unfold is_vertex_pair_too_close, samepos. rewrite andb_true_iff.
    now rewrite (near_zero _ _ _ _ A1 P1 (Gx a p Ha Hp)), (near_zero _ _ _ _ A2 P2 (Gy a p Ha Hp)).
Qed.
End Sep.
