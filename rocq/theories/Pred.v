(** * Pred: the predicates of src/utils.rs evaluated exactly, on their own (no mesh). *)

From Coq Require Import ZArith NArith List Bool Lia QArith Qabs Lqa.
From Verif Require Import Base BaseFacts Arith Types Utils Geom Exact Rep GridExact Spec QEnv QExact DTOut
  GridSpec GridNum.
Import ListNotations.
Local Open Scope Q_scope.

(** [L i x a]: the float [x] has exactly the value [a], and is small enough to be the result
    of [i] steps (0: coordinate, 1: difference, 2: product, 3: sum of products, 4: product of
    those, 5: sum of those). *)
Record Levels {E : Env} (L : nat -> F -> Q -> Prop) : Prop := {
  lv_sub0 : forall x y a b, L 0%nat x a -> L 0%nat y b -> L 1%nat (fsub x y) (a - b);
  lv_mul1 : forall x y a b, L 1%nat x a -> L 1%nat y b -> L 2%nat (fmul x y) (a * b);
  lv_sub2 : forall x y a b, L 2%nat x a -> L 2%nat y b -> L 3%nat (fsub x y) (a - b);
  lv_add2 : forall x y a b, L 2%nat x a -> L 2%nat y b -> L 3%nat (fadd x y) (a + b);
  lv_lt : forall i j x y a b, L i x a -> L j y b -> (flt x y = true <-> a < b);
  lv_le : forall i j x y a b, L i x a -> L j y b -> (fle x y = true <-> a <= b);
  lv_eq : forall i j x y a b, L i x a -> L j y b -> (feq x y = true <-> a == b);
  lv_0 : forall i, L i f0 0;
  lv_max : forall x y a b, L 0%nat x a -> L 0%nat y b ->
    (b <= a -> L 0%nat (fmax x y) a) /\ (a <= b -> L 0%nat (fmax x y) b);
  lv_min : forall x y a b, L 0%nat x a -> L 0%nat y b ->
    (a <= b -> L 0%nat (fmin x y) a) /\ (b <= a -> L 0%nat (fmin x y) b)
}.

Record Levels5 {E : Env} (L : nat -> F -> Q -> Prop) : Prop := {
  lv_mul3 : forall x y a b, L 3%nat x a -> L 3%nat y b -> L 4%nat (fmul x y) (a * b);
  lv_add4 : forall x y a b, L 4%nat x a -> L 4%nat y b -> L 5%nat (fadd x y) (a + b)
}.

Section Orient.
Context {E : Env}.
Variable L : nat -> F -> Q -> Prop.
Hypothesis H : Levels L.

Definition lpt (v : vertex) (p : point) : Prop := L 0%nat (vx v) (fst p) /\ L 0%nat (vy v) (snd p).

Lemma cross_level x1 x2 x3 x4 x5 x6 x7 x8 a1 a2 a3 a4 a5 a6 a7 a8 :
  L 0%nat x1 a1 -> L 0%nat x2 a2 -> L 0%nat x3 a3 -> L 0%nat x4 a4 ->
  L 0%nat x5 a5 -> L 0%nat x6 a6 -> L 0%nat x7 a7 -> L 0%nat x8 a8 ->
  L 3%nat (fsub (fmul (fsub x1 x2) (fsub x3 x4)) (fmul (fsub x5 x6) (fsub x7 x8)))
    ((a1 - a2) * (a3 - a4) - (a5 - a6) * (a7 - a8)).
Proof. intros. apply (lv_sub2 _ H); apply (lv_mul1 _ H); now apply (lv_sub0 _ H). Qed.

Lemma os_level v x s : L 3%nat v x -> x == - s ->
  os (if feq v f0 then Colinear else if flt f0 v then Clockwise else CounterClockwise) s.
Proof.
  intros V Q. pose proof (lv_eq _ H 3 3 _ _ _ _ V (lv_0 _ H 3%nat)) as Ke.
  pose proof (lv_lt _ H 3 3 _ _ _ _ (lv_0 _ H 3%nat) V) as Kl.
  destruct (feq v f0); [|destruct (flt f0 v)]; cbn [os].
  - assert (x == 0) by now apply Ke. lra.
  - assert (0 < x) by now apply Kl. lra.
  - destruct (Q_dec x 0) as [[K|K]|K]; [lra| |]; exfalso.
    + apply Kl in K. discriminate.
    + apply Ke in K. discriminate.
Qed.

Lemma orientation_exact vp vq vr p q r : lpt vp p -> lpt vq q -> lpt vr r ->
  os (triplet_orientation vp vq vr) (orient p q r).
Proof.
  intros (P1 & P2) (Q1 & Q2) (R1 & R2). unfold triplet_orientation.
  eapply os_level; [apply cross_level; eassumption|]. unfold orient. ring.
Qed.

Lemma side_exact va vb vp a b p : lpt va a -> lpt vb b -> lpt vp p ->
  let s := test_point_edge_side (va, vb) vp in
  (is_on_left_side s = true <-> 0 < orient a b p) /\ (is_on_right_side s = true <-> orient a b p < 0) /\
  (is_colinear s = true <-> orient a b p == 0) /\
  (is_point_on_right_side_of_edge (va, vb) vp = true <-> orient a b p <= 0).
Proof.
  intros (A1 & A2) (B1 & B2) (P1 & P2) s.
  assert (S : L 3%nat s ((snd p - snd a) * (fst b - fst a) - (fst p - fst a) * (snd b - snd a))).
  { unfold s, test_point_edge_side. apply cross_level; assumption. }
  set (w := (snd p - snd a) * (fst b - fst a) - (fst p - fst a) * (snd b - snd a)) in *.
  assert (Q : orient a b p == w) by (unfold orient, w; ring). rewrite Q.
  unfold is_on_left_side, is_on_right_side, is_colinear, is_point_on_right_side_of_edge. fold s.
  rewrite (lv_lt _ H _ _ _ _ _ _ (lv_0 _ H 3%nat) S), (lv_lt _ H _ _ _ _ _ _ S (lv_0 _ H 3%nat)),
    (lv_eq _ H _ _ _ _ _ _ S (lv_0 _ H 3%nat)), (lv_le _ H _ _ _ _ _ _ S (lv_0 _ H 3%nat)). tauto.
Qed.

Lemma l_axis x y z a b c : L 0%nat x a -> L 0%nat y b -> L 0%nat z c ->
  (fle y (fmax x z) = true /\ fle (fmin x z) y = true) <-> between a b c.
Proof.
  intros A B C. destruct (lv_max _ H _ _ _ _ A C) as (M1 & M2). destruct (lv_min _ H _ _ _ _ A C) as (N1 & N2).
  unfold between. destruct (Qlt_le_dec a c) as [K|K].
  - assert (K' : a <= c) by lra. specialize (M2 K'). specialize (N1 K').
    rewrite (lv_le _ H _ _ _ _ _ _ B M2), (lv_le _ H _ _ _ _ _ _ N1 B). split; [lra|]. intros; split; lra.
  - specialize (M1 K). specialize (N2 K).
    rewrite (lv_le _ H _ _ _ _ _ _ B M1), (lv_le _ H _ _ _ _ _ _ N2 B). split; [lra|]. intros; split; lra.
Qed.

Lemma l_segment vp vq vr p q r : lpt vp p -> lpt vq q -> lpt vr r ->
  on_segment vp vq vr = true <-> in_box p q r.
Proof.
  intros (A1 & A2) (B1 & B2) (C1 & C2). unfold on_segment, in_box. rewrite !andb_true_iff.
  pose proof (l_axis _ _ _ _ _ _ A1 B1 C1). pose proof (l_axis _ _ _ _ _ _ A2 B2 C2). tauto.
Qed.

Lemma l_eqb vp vq p q : lpt vp p -> lpt vq q -> vertex_eqb vp vq = true <-> same_place p q.
Proof.
  intros (A1 & A2) (B1 & B2). unfold vertex_eqb, same_place. rewrite andb_true_iff.
  now rewrite (lv_eq _ H _ _ _ _ _ _ A1 B1), (lv_eq _ H _ _ _ _ _ _ A2 B2).
Qed.

Lemma intersect_exact va vb vc vd a b c d : lpt va a -> lpt vb b -> lpt vc c -> lpt vd d ->
  let i := egdes_intersect (va, vb) (vc, vd) in
  (i = ICrossing <-> segments_cross a b c d) /\
  (i = ISharedEdges <-> same_place a c \/ same_place a d \/ same_place b c \/ same_place b d) /\
  (i = IOnEdgeTip <-> ~ (same_place a c \/ same_place a d \/ same_place b c \/ same_place b d) /\
     (on_closed_segment a b c \/ on_closed_segment a b d \/ on_closed_segment c d a \/ on_closed_segment c d b)).
Proof.
  intros A B C D i.
  pose proof (orientation_exact _ _ _ _ _ _ A B C) as O1. pose proof (orientation_exact _ _ _ _ _ _ A B D) as O2.
  pose proof (orientation_exact _ _ _ _ _ _ C D A) as O3. pose proof (orientation_exact _ _ _ _ _ _ C D B) as O4.
  pose proof (cross_fin_pure _ _ _ _ a b c d O1 O2 O3 O4) as Pure.
  assert (Seg : forall p q r o, os o (orient p q r) -> (on_closed_segment p q r <-> o = Colinear /\ in_box p r q)).
  { intros p q r o O. rewrite (os_col _ _ O). unfold on_closed_segment, in_box, between. split.
    - intros (Z & X & Y). split; auto.
    - intros (Z & X & Y). split; auto. }
  rewrite (Seg _ _ _ _ O1), (Seg _ _ _ _ O2), (Seg _ _ _ _ O3), (Seg _ _ _ _ O4).
  change (segments_cross a b c d) with (ori a b c * ori a b d < 0 /\ ori c d a * ori c d b < 0).
  rewrite <- Pure. clear Pure Seg.
  change (@same_pt) with same_place.
  unfold i, egdes_intersect.
  rewrite <- (l_eqb _ _ _ _ A C), <- (l_eqb _ _ _ _ A D), <- (l_eqb _ _ _ _ B C), <- (l_eqb _ _ _ _ B D).
  rewrite <- (l_segment _ _ _ _ _ _ A C B), <- (l_segment _ _ _ _ _ _ A D B),
    <- (l_segment _ _ _ _ _ _ C A D), <- (l_segment _ _ _ _ _ _ C B D).
  clear O1 O2 O3 O4.
  set (o1 := triplet_orientation va vb vc). set (o2 := triplet_orientation va vb vd).
  set (o3 := triplet_orientation vc vd va). set (o4 := triplet_orientation vc vd vb).
  rewrite <- (orientation_eqb_iff o1 Colinear), <- (orientation_eqb_iff o2 Colinear), <- (orientation_eqb_iff o3 Colinear), <- (orientation_eqb_iff o4 Colinear).
  rewrite <- (orientation_eqb_iff o1 o2), <- (orientation_eqb_iff o3 o4).
  generalize (vertex_eqb va vc) (vertex_eqb va vd) (vertex_eqb vb vc) (vertex_eqb vb vd)
    (on_segment va vc vb) (on_segment va vd vb) (on_segment vc va vd) (on_segment vc vb vd)
    (orientation_eqb o1 Colinear) (orientation_eqb o2 Colinear) (orientation_eqb o3 Colinear) (orientation_eqb o4 Colinear)
    (orientation_eqb o1 o2) (orientation_eqb o3 o4).
  clear. intros e1 e2 e3 e4 s1 s2 s3 s4 c1 c2 c3 c4 d1 d2.
  destruct (e1 || e2 || e3 || e4) eqn:Es.
  { rewrite !orb_true_iff in Es. split; [split; [discriminate|]|split; [tauto|split; [discriminate|tauto]]].
    intros ((N1 & N2 & N3 & N4) & _). tauto. }
  rewrite !orb_false_iff in Es. destruct Es as (((-> & ->) & ->) & ->).
  destruct (c1 && s1) eqn:K1; [apply andb_true_iff in K1|apply andb_false_iff in K1].
  { split; [split; [discriminate|tauto]|split; [split; [discriminate|intuition discriminate]|split; [|reflexivity]]].
    intros _. split; [intuition discriminate|tauto]. }
  destruct (c2 && s2) eqn:K2; [apply andb_true_iff in K2|apply andb_false_iff in K2].
  { split; [split; [discriminate|tauto]|split; [split; [discriminate|intuition discriminate]|split; [|reflexivity]]].
    intros _. split; [intuition discriminate|tauto]. }
  destruct (c3 && s3) eqn:K3; [apply andb_true_iff in K3|apply andb_false_iff in K3].
  { split; [split; [discriminate|tauto]|split; [split; [discriminate|intuition discriminate]|split; [|reflexivity]]].
    intros _. split; [intuition discriminate|tauto]. }
  destruct (c4 && s4) eqn:K4; [apply andb_true_iff in K4|apply andb_false_iff in K4].
  { split; [split; [discriminate|tauto]|split; [split; [discriminate|intuition discriminate]|split; [|reflexivity]]].
    intros _. split; [intuition discriminate|tauto]. }
  assert (Tip : ~ ((c1 = true /\ s1 = true) \/ (c2 = true /\ s2 = true) \/ (c3 = true /\ s3 = true) \/ (c4 = true /\ s4 = true)))
    by (intuition congruence).
  assert (Sh : ~ (false = true \/ false = true \/ false = true \/ false = true)) by intuition discriminate.
  destruct d1, d2; cbn [negb andb].
  - split; [split; [discriminate|intros (_ & _ & _ & _ & _ & W & _); tauto]|split; (split; [discriminate|tauto])].
  - split; [split; [discriminate|intros (_ & _ & _ & _ & _ & W & _); tauto]|split; (split; [discriminate|tauto])].
  - split; [split; [discriminate|intros (_ & _ & _ & _ & _ & _ & W); tauto]|split; (split; [discriminate|tauto])].
  - split; [split; [|reflexivity]|split; (split; [discriminate|tauto])].
    intros _. split; [intuition discriminate|]. repeat split; try tauto; discriminate.
Qed.

Hypothesis H5 : Levels5 L.

Lemma circle_level va vb vc vp a b c p : lpt va a -> lpt vb b -> lpt vc c -> lpt vp p ->
  orient p a b < 0 -> orient b a c < 0 ->
  is_vertex_in_triangle_circumcircle va vb vc vp = true <->
  0 < incircle (fst a) (snd a) (fst b) (snd b) (fst c) (snd c) (fst p) (snd p).
Proof.
  intros (A1 & A2) (B1 & B2) (C1 & C2) (P1 & P2) H1 H2. unfold is_vertex_in_triangle_circumcircle.
  pose proof (lv_sub0 _ H _ _ _ _ A1 C1) as X13. pose proof (lv_sub0 _ H _ _ _ _ B1 C1) as X23.
  pose proof (lv_sub0 _ H _ _ _ _ A2 C2) as Y13. pose proof (lv_sub0 _ H _ _ _ _ B2 C2) as Y23.
  pose proof (lv_sub0 _ H _ _ _ _ A1 P1) as X14. pose proof (lv_sub0 _ H _ _ _ _ B1 P1) as X24.
  pose proof (lv_sub0 _ H _ _ _ _ A2 P2) as Y14. pose proof (lv_sub0 _ H _ _ _ _ B2 P2) as Y24.
  pose proof (lv_add2 _ H _ _ _ _ (lv_mul1 _ H _ _ _ _ X13 X23) (lv_mul1 _ H _ _ _ _ Y13 Y23)) as Ca.
  pose proof (lv_add2 _ H _ _ _ _ (lv_mul1 _ H _ _ _ _ X24 X14) (lv_mul1 _ H _ _ _ _ Y24 Y14)) as Cb.
  pose proof (lv_sub2 _ H _ _ _ _ (lv_mul1 _ H _ _ _ _ X13 Y23) (lv_mul1 _ H _ _ _ _ X23 Y13)) as Sa.
  pose proof (lv_sub2 _ H _ _ _ _ (lv_mul1 _ H _ _ _ _ X24 Y14) (lv_mul1 _ H _ _ _ _ X14 Y24)) as Sb.
  pose proof (lv_add4 _ H5 _ _ _ _ (lv_mul3 _ H5 _ _ _ _ Sa Cb) (lv_mul3 _ H5 _ _ _ _ Sb Ca)) as Sab.
  clear X13 X23 Y13 Y23 X14 X24 Y14 Y24.
  match type of Ca with L _ ?f ?q => set (fca := f) in *; set (ca := q) in * end.
  match type of Cb with L _ ?f ?q => set (fcb := f) in *; set (cb := q) in * end.
  match type of Sa with L _ ?f ?q => set (fsa := f) in *; set (sa := q) in * end.
  match type of Sb with L _ ?f ?q => set (fsb := f) in *; set (sb := q) in * end.
  assert (Psa : 0 < sa).
  { assert (Q : sa == - orient b a c) by (unfold sa, orient; ring). rewrite Q. lra. }
  assert (Psb : 0 < sb).
  { assert (Q : sb == - orient p a b) by (unfold sb, orient; ring). rewrite Q. lra. }
  assert (Inc : incircle (fst a) (snd a) (fst b) (snd b) (fst c) (snd c) (fst p) (snd p) == - (sa * cb + sb * ca)).
  { unfold incircle, sa, sb, ca, cb. ring. }
  rewrite Inc. clear Inc H1 H2.
  pose proof (lv_0 _ H 0%nat) as Z0.
  pose proof (lv_le _ H _ _ _ _ _ _ Z0 Ca) as La. pose proof (lv_le _ H _ _ _ _ _ _ Z0 Cb) as Lb.
  pose proof (lv_lt _ H _ _ _ _ _ _ Ca Z0) as Ta. pose proof (lv_lt _ H _ _ _ _ _ _ Cb Z0) as Tb.
  pose proof (lv_lt _ H _ _ _ _ _ _ Sab Z0) as Ts.
  clearbody fca fcb fsa fsb ca cb sa sb. clear - La Lb Ta Tb Ts Psa Psb.
  destruct (fle f0 fca), (fle f0 fcb), (flt fca f0), (flt fcb f0); cbn [andb];
    repeat match goal with
    | X : true = true <-> _ |- _ => apply proj1 in X; specialize (X eq_refl)
    | X : false = true <-> ?P |- _ => assert (~ P) by (intros Y; apply X in Y; discriminate); clear X
    end; try (exfalso; lra); rewrite ?Ts; split; intros; try discriminate; try reflexivity; try lra; try nra.
Qed.

End Orient.

(** ** The circumcircle of three points *)
Lemma incircle_circle a b c p : orient p a b < 0 ->
  0 < incircle (fst a) (snd a) (fst b) (snd b) (fst c) (snd c) (fst p) (snd p) ->
  in_circumcircle p a b c.
Proof.
  destruct a as (xa, ya), b as (xb, yb), c as (xc, yc), p as (xd, yd). unfold orient; cbn [fst snd]. intros O I.
  set (ax := xa - xd) in *. set (ay := ya - yd) in *. set (bx := xb - xd) in *. set (by_ := yb - yd) in *.
  set (w := ax * by_ - ay * bx) in *.
  set (la := ax * ax + ay * ay). set (lb := bx * bx + by_ * by_).
  set (ox := (la * by_ - lb * ay) / (2 * w)). set (oy := (lb * ax - la * bx) / (2 * w)).
  assert (W : ~ w == 0) by lra.
  assert (E1 : ox * (2 * w) == la * by_ - lb * ay) by (unfold ox; field; lra).
  assert (E2 : oy * (2 * w) == lb * ax - la * bx) by (unfold oy; field; lra).
  assert (Fa : 2 * (ox * ax + oy * ay) == la).
  { assert (K : (2 * (ox * ax + oy * ay)) * w == la * w).
    { setoid_replace ((2 * (ox * ax + oy * ay)) * w) with ((ox * (2 * w)) * ax + (oy * (2 * w)) * ay) by ring.
      rewrite E1, E2. unfold w. ring. }
    now apply (Qmult_inj_r _ _ w W). }
  assert (Fb : 2 * (ox * bx + oy * by_) == lb).
  { assert (K : (2 * (ox * bx + oy * by_)) * w == lb * w).
    { setoid_replace ((2 * (ox * bx + oy * by_)) * w) with ((ox * (2 * w)) * bx + (oy * (2 * w)) * by_) by ring.
      rewrite E1, E2. unfold w. ring. }
    now apply (Qmult_inj_r _ _ w W). }
  exists (xd + ox, yd + oy). unfold sqdist; cbn [fst snd].
  assert (Da : (xd + ox - xa) * (xd + ox - xa) + (yd + oy - ya) * (yd + oy - ya) == ox * ox + oy * oy).
  { assert (K : (xd + ox - xa) * (xd + ox - xa) + (yd + oy - ya) * (yd + oy - ya) == ox * ox + oy * oy - 2 * (ox * ax + oy * ay) + la) by (unfold la, ax, ay; ring).
    rewrite K, Fa. ring. }
  assert (Db : (xd + ox - xb) * (xd + ox - xb) + (yd + oy - yb) * (yd + oy - yb) == ox * ox + oy * oy).
  { assert (K : (xd + ox - xb) * (xd + ox - xb) + (yd + oy - yb) * (yd + oy - yb) == ox * ox + oy * oy - 2 * (ox * bx + oy * by_) + lb) by (unfold lb, bx, by_; ring).
    rewrite K, Fb. ring. }
  assert (Dd : (xd + ox - xd) * (xd + ox - xd) + (yd + oy - yd) * (yd + oy - yd) == ox * ox + oy * oy) by ring.
  rewrite Da, Db, Dd. split; [reflexivity|]. split; [reflexivity|].
  set (cx := xc - xd). set (cy := yc - yd). set (lc := cx * cx + cy * cy).
  assert (Dc : (xd + ox - xc) * (xd + ox - xc) + (yd + oy - yc) * (yd + oy - yc) == ox * ox + oy * oy - 2 * (ox * cx + oy * cy) + lc) by (unfold lc, cx, cy; ring).
  rewrite Dc.
  assert (In : incircle xa ya xb yb xc yc xd yd == (lc - 2 * (ox * cx + oy * cy)) * w).
  { setoid_replace ((lc - 2 * (ox * cx + oy * cy)) * w) with (lc * w - (ox * (2 * w)) * cx - (oy * (2 * w)) * cy) by ring.
    rewrite E1, E2. unfold incircle, lc, la, lb, w, ax, ay, bx, by_, cx, cy. ring. }
  rewrite In in I. clearbody ox oy cx cy lc w. clear - I O.
  set (t := lc - 2 * (ox * cx + oy * cy)) in *.
  assert (T : t < 0) by (clearbody t; nra). unfold t in T. lra.
Qed.

Lemma in_circle_iff a b c p : orient p a b < 0 ->
  (0 < incircle (fst a) (snd a) (fst b) (snd b) (fst c) (snd c) (fst p) (snd p) <-> in_circumcircle p a b c).
Proof. intros O. split; [now apply incircle_circle|now apply circle_incircle]. Qed.

(** ** Exact rationals: every level is equality *)
Definition LQ (_ : nat) (x a : Q) : Prop := x == a.

Lemma Q_levels maxid : @Levels (envQ maxid) LQ.
Proof.
  unfold LQ. constructor; cbn [fadd fsub fmul flt fle feq fmax fmin f0 envQ].
  - intros x y a b A B. rewrite Qred_correct, A, B. reflexivity.
  - intros x y a b A B. rewrite Qred_correct, A, B. reflexivity.
  - intros x y a b A B. rewrite Qred_correct, A, B. reflexivity.
  - intros x y a b A B. rewrite Qred_correct, A, B. reflexivity.
  - intros _ _ x y a b A B. rewrite qlt_iff, A, B. reflexivity.
  - intros _ _ x y a b A B. rewrite Qle_bool_iff, A, B. reflexivity.
  - intros _ _ x y a b A B. rewrite Qeq_bool_iff, A, B. reflexivity.
  - reflexivity.
  - exact (rp_max _ _ _ _ (Q_rep maxid)).
  - exact (rp_min _ _ _ _ (Q_rep maxid)).
Qed.

Lemma Q_levels5 maxid : @Levels5 (envQ maxid) LQ.
Proof.
  unfold LQ. constructor; cbn [fadd fmul envQ]; intros x y a b A B; rewrite Qred_correct, A, B; reflexivity.
Qed.

(** ** Integers *)
Section Ints.
Context {E : Env}.
Variables (rep : F -> Q -> Prop) (repr : Q -> Prop) (pb : Z) (ep : Q).
Hypothesis R : Rep rep repr pb ep.
Variable B : Z.
Hypothesis B0 : (0 <= B)%Z.

Definition lbound (i : nat) : Z :=
  match i with
  | 0%nat => B | 1%nat => 2 * B | 2%nat => 4 * B ^ 2 | 3%nat => 8 * B ^ 2 | 4%nat => 64 * B ^ 4 | _ => 128 * B ^ 4
  end.

Definition LZ (i : nat) (x : F) (a : Q) : Prop :=
  exists z, (Z.abs z <= lbound i)%Z /\ rep x (inject_Z z) /\ a == inject_Z z.

Lemma int_repr z : (Z.abs z <= 2 ^ (pb - 7))%Z -> repr (inject_Z z).
Proof.
  intros Hz. assert (Hp : (2 ^ pb = 128 * 2 ^ (pb - 7))%Z).
  { pose proof (rr_bits _ _ _ _ R). replace pb with (7 + (pb - 7))%Z at 1 by ring. rewrite Z.pow_add_r by lia. reflexivity. }
  apply (rr_compat _ _ _ _ R (inject_Z (z * 128) / 128)).
  - apply (rr_small _ _ _ _ R). lia.
  - rewrite inject_Z_mult. change (inject_Z 128) with 128. field.
Qed.

Lemma int_big z : (Z.abs z <= 2 ^ (pb - 7))%Z -> Qabs (inject_Z z) <= big.
Proof.
  intros Hz. assert (K : (2 ^ (pb - 7) <= 2 ^ 60)%Z).
  { pose proof (rr_bits _ _ _ _ R). apply Z.pow_le_mono_r; lia. }
  unfold big. change (Qabs (inject_Z z)) with (inject_Z (Z.abs z)). rewrite <- Zle_Qle. lia.
Qed.

Lemma LZ_sub i j x y a b : (2 * lbound i <= lbound j)%Z -> (lbound j <= 2 ^ (pb - 7))%Z ->
  LZ i x a -> LZ i y b -> LZ j (fsub x y) (a - b).
Proof.
  intros H1 H2 (z & Z1 & Z2 & Z3) (w & W1 & W2 & W3). exists (z - w)%Z.
  assert (K : (Z.abs (z - w) <= lbound j)%Z) by lia.
  assert (Q : inject_Z (z - w) == inject_Z z - inject_Z w).
  { unfold Z.sub, Qminus. rewrite inject_Z_plus, inject_Z_opp. reflexivity. }
  split; auto. split; [|rewrite Q, Z3, W3; reflexivity].
  apply (rp_compat _ _ _ _ R _ (inject_Z z - inject_Z w)); [|now rewrite Q].
  apply (sub_exact _ _ _ _ R); auto; [rewrite <- Q; apply int_big; lia|].
  apply (rr_compat _ _ _ _ R (inject_Z (z - w))); [apply int_repr; lia|exact Q].
Qed.

Lemma LZ_add i j x y a b : (2 * lbound i <= lbound j)%Z -> (lbound j <= 2 ^ (pb - 7))%Z ->
  LZ i x a -> LZ i y b -> LZ j (fadd x y) (a + b).
Proof.
  intros H1 H2 (z & Z1 & Z2 & Z3) (w & W1 & W2 & W3). exists (z + w)%Z.
  assert (K : (Z.abs (z + w) <= lbound j)%Z) by lia.
  assert (Q : inject_Z (z + w) == inject_Z z + inject_Z w) by (rewrite inject_Z_plus; reflexivity).
  split; auto. split; [|rewrite Q, Z3, W3; reflexivity].
  apply (rp_compat _ _ _ _ R _ (inject_Z z + inject_Z w)); [|now rewrite Q].
  apply (add_exact _ _ _ _ R); auto; [rewrite <- Q; apply int_big; lia|].
  apply (rr_compat _ _ _ _ R (inject_Z (z + w))); [apply int_repr; lia|exact Q].
Qed.

Lemma LZ_mul i j x y a b : (lbound i * lbound i <= lbound j)%Z -> (lbound j <= 2 ^ (pb - 7))%Z ->
  LZ i x a -> LZ i y b -> LZ j (fmul x y) (a * b).
Proof.
  intros H1 H2 (z & Z1 & Z2 & Z3) (w & W1 & W2 & W3). exists (z * w)%Z.
  assert (K : (Z.abs (z * w) <= lbound j)%Z) by (rewrite Z.abs_mul; nia).
  assert (Q : inject_Z (z * w) == inject_Z z * inject_Z w) by (rewrite inject_Z_mult; reflexivity).
  split; auto. split; [|rewrite Q, Z3, W3; reflexivity].
  apply (rp_compat _ _ _ _ R _ (inject_Z z * inject_Z w)); [|now rewrite Q].
  apply (mul_exact _ _ _ _ R); auto; [rewrite <- Q; apply int_big; lia|].
  apply (rr_compat _ _ _ _ R (inject_Z (z * w))); [apply int_repr; lia|exact Q].
Qed.

Lemma LZ_levels : (8 * B ^ 2 <= 2 ^ (pb - 7))%Z -> Levels LZ.
Proof.
  intros HB. assert (B2 : (B ^ 2 = B * B)%Z) by ring. assert (Bs : (2 * B <= 8 * B ^ 2)%Z) by nia.
  assert (Bp : (0 <= B ^ 2)%Z) by nia.
  constructor.
  - intros x y a b. apply (LZ_sub 0 1); cbn [lbound]; lia.
  - intros x y a b. apply (LZ_mul 1 2); cbn [lbound]; [nia|lia].
  - intros x y a b. apply (LZ_sub 2 3); cbn [lbound]; lia.
  - intros x y a b. apply (LZ_add 2 3); cbn [lbound]; lia.
  - intros i j x y a b (z & _ & Z2 & Z3) (w & _ & W2 & W3). rewrite Z3, W3. now apply (rp_lt _ _ _ _ R).
  - intros i j x y a b (z & _ & Z2 & Z3) (w & _ & W2 & W3). rewrite Z3, W3. now apply (rp_le _ _ _ _ R).
  - intros i j x y a b (z & _ & Z2 & Z3) (w & _ & W2 & W3). rewrite Z3, W3. now apply (rp_eq _ _ _ _ R).
  - intros i. exists 0%Z. split; [|split; [exact (rp_0 _ _ _ _ R)|reflexivity]].
    assert (0 <= B ^ 4)%Z by (apply Z.pow_nonneg; auto).
    change (Z.abs 0) with 0%Z. destruct i as [|[|[|[|[|i]]]]]; cbn [lbound]; lia.
  - intros x y a b (z & Z1 & Z2 & Z3) (w & W1 & W2 & W3). destruct (rp_max _ _ _ _ R _ _ _ _ Z2 W2) as (M1 & M2).
    split; intros K; rewrite Z3, W3 in K; [exists z|exists w]; auto.
  - intros x y a b (z & Z1 & Z2 & Z3) (w & W1 & W2 & W3). destruct (rp_min _ _ _ _ R _ _ _ _ Z2 W2) as (M1 & M2).
    split; intros K; rewrite Z3, W3 in K; [exists z|exists w]; auto.
Qed.

Lemma LZ_levels5 : (128 * B ^ 4 <= 2 ^ (pb - 7))%Z -> Levels5 LZ.
Proof.
  intros HB. assert (B4 : (B ^ 4 = B ^ 2 * B ^ 2)%Z) by ring. assert (0 <= B ^ 2)%Z by (apply Z.pow_nonneg; auto).
  constructor.
  - intros x y a b. apply (LZ_mul 3 4); cbn [lbound]; nia.
  - intros x y a b. apply (LZ_add 4 5); cbn [lbound]; lia.
Qed.

End Ints.
