(** * Tube: segments that do not meet stay apart when they are moved a little. *)

From Coq Require Import ZArith NArith List Bool QArith Qminmax Lqa Lia.
From Verif Require Import Types Spec SpecDomain SpecWinding Winding Inside TallyGrid.
Import ListNotations.
Local Open Scope Q_scope.

Lemma steady al be mu : 0 < mu -> exists d, 0 < d /\
  forall p q, square p d q -> - mu < al * (fst q - fst p) + be * (snd q - snd p) < mu.
Proof.
  intros M. destruct (small (mu * (1#3)) al be) as (d & D & (A1 & A2) & (B1 & B2)); [lra|]. exists d. split; [lra|].
  intros p q ((X1 & X2) & Y1 & Y2). set (x := fst q - fst p) in *. set (y := snd q - snd p) in *. clearbody x y.
  assert (K : forall z w, - (mu * (1#3)) <= d * z -> d * z <= mu * (1#3) -> - d <= w -> w <= d -> - (mu * (1#3)) <= z * w <= mu * (1#3)).
  { clear - D. intros z w Z1 Z2 W1 W2. destruct (Qlt_le_dec z 0) as [L|L].
    - assert (z * d <= z * w) by nra. assert (z * w <= z * (- d)) by nra. split; lra.
    - assert (z * w <= z * d) by nra. assert (z * (- d) <= z * w) by nra. split; lra. }
  pose proof (K al x A1 A2 X1 X2). pose proof (K be y B1 B2 Y1 Y2). lra.
Qed.

(** A line with one segment on it or before it and the other one behind it. *)
Lemma split_line a b f g al be ga lo hi : lo < hi ->
  al * fst a + be * snd a + ga <= lo -> al * fst b + be * snd b + ga <= lo ->
  hi <= al * fst f + be * snd f + ga -> hi <= al * fst g + be * snd g + ga ->
  exists d, 0 < d /\ forall s x r, 0 <= s <= 1 -> 0 <= r <= 1 -> square (along a b s) d x -> ~ same_place x (along f g r).
Proof.
  intros L A B F G. destruct (steady al be (hi - lo)) as (d & D & K); [lra|]. exists d. split; [exact D|].
  intros s x r S R Sq (P1 & P2). specialize (K _ _ Sq). rewrite P1, P2 in K. unfold along in K. cbn [fst snd] in K.
  set (la := al * fst a + be * snd a + ga) in *. set (lb := al * fst b + be * snd b + ga) in *.
  set (lf := al * fst f + be * snd f + ga) in *. set (lg := al * fst g + be * snd g + ga) in *.
  assert (E : al * (fst f + r * (fst g - fst f) - (fst a + s * (fst b - fst a))) + be * (snd f + r * (snd g - snd f) - (snd a + s * (snd b - snd a))) ==
    ((1 - r) * lf + r * lg) - ((1 - s) * la + s * lb)) by (unfold la, lb, lf, lg; ring).
  rewrite E in K. clearbody la lb lf lg. clear E P1 P2 Sq.
  assert ((1 - s) * la + s * lb <= lo) by nra. assert (hi <= (1 - r) * lf + r * lg) by nra. lra.
Qed.

Lemma split_line_back a b f g al be ga lo hi : lo < hi ->
  al * fst f + be * snd f + ga <= lo -> al * fst g + be * snd g + ga <= lo ->
  hi <= al * fst a + be * snd a + ga -> hi <= al * fst b + be * snd b + ga ->
  exists d, 0 < d /\ forall s x r, 0 <= s <= 1 -> 0 <= r <= 1 -> square (along a b s) d x -> ~ same_place x (along f g r).
Proof.
  intros L F G A B. apply (split_line a b f g (- al) (- be) (- ga) (- hi) (- lo)); lra.
Qed.

Definition dot (a b p : point) : Q := (fst b - fst a) * (fst p - fst a) + (snd b - snd a) * (snd p - snd a).

Lemma square_pos a b : ~ same_place a b -> 0 < dot a b b.
Proof.
  intros N. unfold dot. set (x := fst b - fst a). set (y := snd b - snd a).
  assert (K : ~ x == 0 \/ ~ y == 0).
  { destruct (Qeq_dec x 0) as [X|X]; [right; intros Y; apply N; unfold x, y in *; split; lra|now left]. }
  clearbody x y. destruct (Q_dec x 0) as [[L|L]|L]; [nra|nra|]. destruct (Q_dec y 0) as [[M|M]|M]; [nra|nra|]. tauto.
Qed.

Lemma on_line_dot a b p : ~ same_place a b -> orient a b p == 0 -> 0 <= dot a b p <= dot a b b ->
  exists s, 0 <= s <= 1 /\ same_place (along a b s) p.
Proof.
  intros N O D. pose proof (square_pos a b N) as S. set (w := dot a b b) in *. set (k := dot a b p) in *.
  exists (k / w). assert (E : k / w * w == k) by (field; lra). split.
  { set (z := k / w) in *. split; apply Qnot_lt_le; intros L; nra. }
  assert (X : w * (fst p - fst a) == k * (fst b - fst a)).
  { assert (Z : w * (fst p - fst a) - k * (fst b - fst a) == - orient a b p * (snd b - snd a)) by (unfold w, k, dot, orient; ring). rewrite O in Z. lra. }
  assert (Y : w * (snd p - snd a) == k * (snd b - snd a)).
  { assert (Z : w * (snd p - snd a) - k * (snd b - snd a) == orient a b p * (fst b - fst a)) by (unfold w, k, dot, orient; ring). rewrite O in Z. lra. }
  assert (W : ~ w == 0) by lra. unfold along, same_place. cbn [fst snd]. split.
  - assert (Z : w * (fst a + k / w * (fst b - fst a) - fst p) == 0).
    { assert (Z' : w * (fst a + k / w * (fst b - fst a) - fst p) == k * (fst b - fst a) - w * (fst p - fst a)) by (field; exact W). rewrite Z', X. ring. }
    destruct (Qmult_integral _ _ Z); [contradiction|lra].
  - assert (Z : w * (snd a + k / w * (snd b - snd a) - snd p) == 0).
    { assert (Z' : w * (snd a + k / w * (snd b - snd a) - snd p) == k * (snd b - snd a) - w * (snd p - snd a)) by (field; exact W). rewrite Z', Y. ring. }
    destruct (Qmult_integral _ _ Z); [contradiction|lra].
Qed.

Lemma signs x y : (0 < x /\ 0 < y) \/ (x < 0 /\ y < 0) \/ exists k, 0 <= k <= 1 /\ (1 - k) * x + k * y == 0.
Proof.
  destruct (Qlt_le_dec 0 x) as [A|A].
  - destruct (Qlt_le_dec 0 y) as [B|B]; [left; auto|right; right].
    destruct (zero_between y x) as (k & K & Z); [exact B|lra|]. exists (1 - k). split; [lra|]. rewrite <- Z. ring.
  - destruct (Qlt_le_dec y 0) as [B|B].
    + destruct (Qlt_le_dec x 0) as [C|C]; [right; left; auto|]. right. right. exists 0. split; [lra|]. assert (x == 0) by lra. rewrite H. ring.
    + right. right. exact (zero_between x y A B).
Qed.

Lemma disjoint_away a b f g : ~ same_place a b -> ~ same_place f g ->
  (forall s r, 0 <= s <= 1 -> 0 <= r <= 1 -> ~ same_place (along a b s) (along f g r)) ->
  exists d, 0 < d /\ forall s x r, 0 <= s <= 1 -> 0 <= r <= 1 -> square (along a b s) d x -> ~ same_place x (along f g r).
Proof.
  intros Nab Nfg H.
  assert (Lin : forall p q z, orient p q z == (- (snd q - snd p)) * fst z + (fst q - fst p) * snd z + ((snd q - snd p) * fst p - (fst q - fst p) * snd p)) by (intros; unfold orient; ring).
  destruct (signs (orient f g a) (orient f g b)) as [(A & B)|[(A & B)|(k & K & Z)]].
  { pose proof (Lin f g a) as La. pose proof (Lin f g b) as Lb. pose proof (Lin f g f) as Lf. pose proof (Lin f g g) as Lg.
    assert (Of : orient f g f == 0) by (unfold orient; ring). assert (Og : orient f g g == 0) by (unfold orient; ring).
    apply (split_line_back a b f g _ _ _ 0 (Qmin (orient f g a) (orient f g b))
      ltac:(destruct (Q.min_spec (orient f g a) (orient f g b)) as [(_ & ->)|(_ & ->)]; lra) ltac:(rewrite <- Lf; lra) ltac:(rewrite <- Lg; lra)
      ltac:(rewrite <- La; apply Q.le_min_l) ltac:(rewrite <- Lb; apply Q.le_min_r)). }
  { pose proof (Lin f g a) as La. pose proof (Lin f g b) as Lb. pose proof (Lin f g f) as Lf. pose proof (Lin f g g) as Lg.
    assert (Of : orient f g f == 0) by (unfold orient; ring). assert (Og : orient f g g == 0) by (unfold orient; ring).
    apply (split_line a b f g _ _ _ (Qmax (orient f g a) (orient f g b)) 0
      ltac:(destruct (Q.max_spec (orient f g a) (orient f g b)) as [(_ & ->)|(_ & ->)]; lra)
      ltac:(rewrite <- La; apply Q.le_max_l) ltac:(rewrite <- Lb; apply Q.le_max_r) ltac:(rewrite <- Lf; lra) ltac:(rewrite <- Lg; lra)). }
  destruct (signs (orient a b f) (orient a b g)) as [(C & D)|[(C & D)|(l & L & Y)]].
  { pose proof (Lin a b a) as La. pose proof (Lin a b b) as Lb. pose proof (Lin a b f) as Lf. pose proof (Lin a b g) as Lg.
    assert (Of : orient a b a == 0) by (unfold orient; ring). assert (Og : orient a b b == 0) by (unfold orient; ring).
    apply (split_line a b f g _ _ _ 0 (Qmin (orient a b f) (orient a b g))
      ltac:(destruct (Q.min_spec (orient a b f) (orient a b g)) as [(_ & ->)|(_ & ->)]; lra) ltac:(rewrite <- La; lra) ltac:(rewrite <- Lb; lra)
      ltac:(rewrite <- Lf; apply Q.le_min_l) ltac:(rewrite <- Lg; apply Q.le_min_r)). }
  { pose proof (Lin a b a) as La. pose proof (Lin a b b) as Lb. pose proof (Lin a b f) as Lf. pose proof (Lin a b g) as Lg.
    assert (Of : orient a b a == 0) by (unfold orient; ring). assert (Og : orient a b b == 0) by (unfold orient; ring).
    apply (split_line_back a b f g _ _ _ (Qmax (orient a b f) (orient a b g)) 0
      ltac:(destruct (Q.max_spec (orient a b f) (orient a b g)) as [(_ & ->)|(_ & ->)]; lra)
      ltac:(rewrite <- Lf; apply Q.le_max_l) ltac:(rewrite <- Lg; apply Q.le_max_r) ltac:(rewrite <- La; lra) ltac:(rewrite <- Lb; lra)). }
  (* both lines are met *)
  rewrite <- orient_along in Z, Y. set (x := along a b k) in *. set (y := along f g l) in *.
  set (X := (fst b - fst a) * (snd g - snd f) - (snd b - snd a) * (fst g - fst f)).
  assert (Ox : orient a b x == 0) by (unfold x, orient, along; cbn [fst snd]; ring).
  assert (Oy : orient f g y == 0) by (unfold y, orient, along; cbn [fst snd]; ring).
  destruct (Qeq_dec X 0) as [Par|Par].
  - (* all four on one line *)
    pose proof (square_pos a b Nab) as W.
    assert (Oall : orient a b f == 0 /\ orient a b g == 0).
    { assert (U : orient a b g - orient a b f == X) by (unfold X, orient; ring).
      assert (V : orient a b y == (1 - l) * orient a b f + l * orient a b g) by (unfold y; rewrite orient_along; reflexivity).
      rewrite Par in U. rewrite Y in V. assert (orient a b g == orient a b f) by lra. rewrite H0 in V. split; lra. }
    destruct Oall as (Of & Og).
    assert (Ld : forall z, dot a b z == (fst b - fst a) * fst z + (snd b - snd a) * snd z + (- (fst b - fst a) * fst a - (snd b - snd a) * snd a)) by (intros; unfold dot; ring).
    assert (Da : dot a b a == 0) by (unfold dot; ring).
    assert (Out : forall r, 0 <= r <= 1 -> dot a b (along f g r) < 0 \/ dot a b b < dot a b (along f g r)).
    { intros r R. destruct (Qlt_le_dec (dot a b (along f g r)) 0) as [M1|M1]; [now left|].
      destruct (Qlt_le_dec (dot a b b) (dot a b (along f g r))) as [M2|M2]; [now right|]. exfalso.
      destruct (on_line_dot a b (along f g r) Nab) as (s & S & P).
      - rewrite orient_along, Of, Og. ring.
      - split; assumption.
      - exact (H s r S R P). }
    assert (D0 : dot a b (along f g 0) == dot a b f) by (unfold dot, along; cbn [fst snd]; ring).
    assert (D1 : dot a b (along f g 1) == dot a b g) by (unfold dot, along; cbn [fst snd]; ring).
    pose proof (Out 0 ltac:(lra)) as O0. pose proof (Out 1 ltac:(lra)) as O1. rewrite D0 in O0. rewrite D1 in O1.
    assert (Mid : forall r, dot a b (along f g r) == (1 - r) * dot a b f + r * dot a b g) by (intros; unfold dot, along; cbn [fst snd]; ring).
    destruct O0 as [O0|O0]; destruct O1 as [O1|O1].
    + apply (split_line_back a b f g _ _ _ (Qmax (dot a b f) (dot a b g)) 0
        ltac:(destruct (Q.max_spec (dot a b f) (dot a b g)) as [(_ & ->)|(_ & ->)]; lra)
        ltac:(rewrite <- Ld; apply Q.le_max_l) ltac:(rewrite <- Ld; apply Q.le_max_r) ltac:(rewrite <- Ld; lra) ltac:(rewrite <- Ld; lra)).
    + exfalso. destruct (zero_between (dot a b f) (dot a b g)) as (r & R & V); [lra|lra|].
      rewrite <- Mid in V. destruct (Out r R); lra.
    + exfalso. destruct (zero_between (dot a b g) (dot a b f)) as (r & R & V); [lra|lra|].
      assert (V' : dot a b (along f g (1 - r)) == 0) by (rewrite Mid, <- V; ring). destruct (Out (1 - r) ltac:(lra)); lra.
    + apply (split_line a b f g _ _ _ (dot a b b) (Qmin (dot a b f) (dot a b g))
        ltac:(destruct (Q.min_spec (dot a b f) (dot a b g)) as [(_ & ->)|(_ & ->)]; lra)
        ltac:(rewrite <- Ld; lra) ltac:(rewrite <- Ld; lra) ltac:(rewrite <- Ld; apply Q.le_min_l) ltac:(rewrite <- Ld; apply Q.le_min_r)).
  - exfalso. apply (H k l K L). fold x y.
    assert (E1 : orient a b x - orient a b y == (fst b - fst a) * (snd x - snd y) - (snd b - snd a) * (fst x - fst y)) by (unfold orient; ring).
    assert (E2 : orient f g x - orient f g y == (fst g - fst f) * (snd x - snd y) - (snd g - snd f) * (fst x - fst y)) by (unfold orient; ring).
    rewrite Ox, Y in E1. rewrite Z, Oy in E2.
    assert (F1 : X * (fst x - fst y) == 0).
    { assert (V : X * (fst x - fst y) == (fst g - fst f) * ((fst b - fst a) * (snd x - snd y) - (snd b - snd a) * (fst x - fst y)) - (fst b - fst a) * ((fst g - fst f) * (snd x - snd y) - (snd g - snd f) * (fst x - fst y))) by (unfold X; ring).
      rewrite V, <- E1, <- E2. ring. }
    assert (F2 : X * (snd x - snd y) == 0).
    { assert (V : X * (snd x - snd y) == (snd g - snd f) * ((fst b - fst a) * (snd x - snd y) - (snd b - snd a) * (fst x - fst y)) - (snd b - snd a) * ((fst g - fst f) * (snd x - snd y) - (snd g - snd f) * (fst x - fst y))) by (unfold X; ring).
      rewrite V, <- E1, <- E2. ring. }
    destruct (Qmult_integral _ _ F1); [contradiction|]. destruct (Qmult_integral _ _ F2); [contradiction|]. split; lra.
Qed.
