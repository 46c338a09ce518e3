(** * Angle: the triangle of another triangulation in which an edge of a Delaunay triangle
    starts. *)

From Coq Require Import NArith List Bool QArith Lqa Lia.
From Verif Require Import Spec SpecUnique SpecAngle Unique.
Import ListNotations.
Local Open Scope Q_scope.

(** ** Signs near a point *)
Definition lex (l0 l1 l2 : Q) : Prop := l0 < 0 \/ l0 == 0 /\ (l1 < 0 \/ l1 == 0 /\ l2 <= 0).

Lemma q_abs x : exists m, 0 <= m /\ - m <= x /\ x <= m.
Proof. destruct (Qlt_le_dec x 0); [exists (- x)|exists x]; lra. Qed.

Lemma small p m : 0 < p -> 0 <= m -> exists e, 0 < e /\ e <= 1 /\ forall s, 0 < s <= e -> s * m < p.
Proof.
  intros Hp Hm. assert (K : 0 < p / (m + 1 + p)) by (apply Qlt_shift_div_l; lra).
  exists (p / (m + 1 + p)). split; auto.
  assert (Ed : p / (m + 1 + p) * (m + 1 + p) == p) by (field; lra). set (e := p / (m + 1 + p)) in *.
  split; [|intros s Hs]; nra.
Qed.

Lemma lex_near l0 l1 l2 : exists e, 0 < e /\ forall s, 0 < s <= e -> l0 + s * l1 + s * s * l2 <= 0 -> lex l0 l1 l2.
Proof.
  unfold lex. destruct (q_abs l1) as (m1 & M1 & N1 & P1). destruct (q_abs l2) as (m2 & M2 & N2 & P2).
  destruct (Qlt_le_dec l0 0) as [A|A]; [exists 1; split; [lra|auto]|].
  destruct (Qlt_le_dec 0 l0) as [B|B].
  { destruct (small l0 (m1 + m2) B) as (e & E1 & E2 & E3); [lra|]. exists e. split; auto. intros s Hs K. exfalso.
    specialize (E3 s Hs). assert (- m1 * s <= s * l1) by nra. assert (0 <= s * s <= s) by nra.
    assert (- m2 * s <= s * s * l2) by nra. nra. }
  assert (Z : l0 == 0) by lra.
  destruct (Qlt_le_dec l1 0) as [C|C]; [exists 1; split; [lra|auto]|].
  destruct (Qlt_le_dec 0 l1) as [D|D].
  { destruct (small l1 m2 D M2) as (e & E1 & E2 & E3). exists e. split; auto. intros s Hs K. exfalso.
    specialize (E3 s Hs). assert (0 < s * (l1 + s * l2)); [|lra]. apply Qmult_lt_0_compat; [lra|]. nra. }
  assert (Z1 : l1 == 0) by lra. exists 1. split; [lra|]. intros s Hs K. right. split; auto. right. split; auto.
  rewrite Z, Z1 in K. assert (0 < s * s) by (apply Qmult_lt_0_compat; lra). nra.
Qed.

(** The points near [a], towards [b] and a little towards [c]. *)
Definition near (a b c : point) (s : Q) : point :=
  (fst a + s * (fst b - fst a) + s * s * (fst c - fst a), snd a + s * (snd b - snd a) + s * s * (snd c - snd a)).

Definition lexo (a b c x y : point) : Prop :=
  lex (orient x y a) (orient x y b - orient x y a) (orient x y c - orient x y a).

Lemma lexo_near a b c x y : exists e, 0 < e /\ forall s, 0 < s <= e -> orient x y (near a b c s) <= 0 -> lexo a b c x y.
Proof.
  destruct (lex_near (orient x y a) (orient x y b - orient x y a) (orient x y c - orient x y a)) as (e & He & H).
  exists e. split; auto. intros s Hs K. apply (H s Hs).
  assert (Eq : orient x y (near a b c s) == orient x y a + s * (orient x y b - orient x y a) + s * s * (orient x y c - orient x y a))
    by (unfold orient, near; cbn [fst snd]; ring).
  lra.
Qed.

Definition lext (at_ : N -> point) (a b c : point) (t : N * N * N) : Prop :=
  let '(x, y, z) := t in lexo a b c (at_ x) (at_ y) /\ lexo a b c (at_ y) (at_ z) /\ lexo a b c (at_ z) (at_ x).

Lemma lext_near at_ a b c (T : list (N * N * N)) : exists e, 0 < e /\
  forall s t, 0 < s <= e -> In t T -> tri_inside_or_on at_ t (near a b c s) -> lext at_ a b c t.
Proof.
  induction T as [|((x, y), z) T (e & He & IH)]; [exists 1; split; [lra|intros s t _ []]|].
  destruct (lexo_near a b c (at_ x) (at_ y)) as (e1 & E1 & H1). destruct (lexo_near a b c (at_ y) (at_ z)) as (e2 & E2 & H2).
  destruct (lexo_near a b c (at_ z) (at_ x)) as (e3 & E3 & H3).
  assert (M : exists m, 0 < m /\ m <= e /\ m <= e1 /\ m <= e2 /\ m <= e3).
  { destruct (Qlt_le_dec e e1), (Qlt_le_dec e2 e3), (Qlt_le_dec e e2), (Qlt_le_dec e e3), (Qlt_le_dec e1 e2), (Qlt_le_dec e1 e3);
      first [exists e; lra|exists e1; lra|exists e2; lra|exists e3; lra]. }
  destruct M as (m & M0 & M1 & M2 & M3 & M4). exists m. split; auto. intros s t Hs [<-|Ht] I.
  - destruct I as (I1 & I2 & I3). split; [apply (H1 s); auto; lra|]. split; [apply (H2 s); auto; lra|apply (H3 s); auto; lra].
  - apply (IH s t); auto. lra.
Qed.

Lemma mul_neg k o : 0 < k -> o < 0 -> k * o < 0.
Proof. intros. nra. Qed.

Lemma near_inside a b c s : clockwise a b c -> 0 < s <= 1 # 2 -> strictly_inside a b c (near a b c s).
Proof.
  unfold clockwise. intros C Hs. assert (0 < s * s) by nra. assert (s * s <= 1 # 4) by nra.
  assert (E1 : orient a b (near a b c s) == s * s * orient a b c) by (unfold orient, near; cbn [fst snd]; ring).
  assert (E2 : orient b c (near a b c s) == (1 - s - s * s) * orient a b c) by (unfold orient, near; cbn [fst snd]; ring).
  assert (E3 : orient c a (near a b c s) == s * orient a b c) by (unfold orient, near; cbn [fst snd]; ring).
  unfold strictly_inside. rewrite E1, E2, E3. repeat split; apply mul_neg; lra.
Qed.

(** ** The triangle that starts at [a] towards [b] *)
Section Start.
Variables (at_ : N -> point) (n : N) (T : list (N * N * N)).
Hypothesis Tc : forall t, In t T -> tri_clockwise at_ t.
Hypothesis Te : forall t v, In t T -> (v < n)%N -> tri_inside_or_on at_ t (at_ v) ->
  exists c, tri_corner t c /\ same_place (at_ c) (at_ v).

Lemma lexo_le a b c x y : lexo a b c x y -> orient x y a <= 0.
Proof. unfold lexo, lex. intros [H|(H & _)]; lra. Qed.

Lemma start a b c p : (a < n)%N -> lext at_ (at_ a) b c p -> In p T ->
  exists x y z, is_tri T x y z /\ (is_tri [p] x y z) /\ same_place (at_ x) (at_ a) /\ clockwise (at_ a) (at_ y) (at_ z) /\
    (orient (at_ a) (at_ y) b < 0 \/ orient (at_ a) (at_ y) b == 0 /\ orient (at_ a) (at_ y) c <= 0) /\
    (orient (at_ z) (at_ a) b < 0 \/ orient (at_ z) (at_ a) b == 0 /\ orient (at_ z) (at_ a) c <= 0).
Proof.
  intros La L Hp. destruct p as ((x, y), z). destruct L as (L1 & L2 & L3).
  pose proof (Tc _ Hp) as C. cbn in C.
  destruct (Te _ a Hp La) as (w & Hw & Sw).
  { split; [now apply (lexo_le _ b c)|]. split; now apply (lexo_le _ b c). }
  assert (Cone : forall x y z, same_place (at_ x) (at_ a) -> clockwise (at_ x) (at_ y) (at_ z) ->
    lexo (at_ a) b c (at_ x) (at_ y) -> lexo (at_ a) b c (at_ z) (at_ x) ->
    clockwise (at_ a) (at_ y) (at_ z) /\
    (orient (at_ a) (at_ y) b < 0 \/ orient (at_ a) (at_ y) b == 0 /\ orient (at_ a) (at_ y) c <= 0) /\
    (orient (at_ z) (at_ a) b < 0 \/ orient (at_ z) (at_ a) b == 0 /\ orient (at_ z) (at_ a) c <= 0)).
  { clear. intros x y z S C. destruct S as (S1 & S2). unfold clockwise, lexo, lex, orient in *.
    rewrite ?S1, ?S2 in *.
    intros K1 K2. split; auto. split.
    - destruct K1 as [K1|(_ & [K1|(K1 & K1')])]; [exfalso; lra|left; lra|right; split; lra].
    - destruct K2 as [K2|(_ & [K2|(K2 & K2')])]; [exfalso; lra|left; lra|right; split; lra]. }
  assert (Rot : forall u v w, clockwise u v w -> clockwise v w u).
  { unfold clockwise. intros u v w0 K. assert (orient v w0 u == orient u v w0) by (unfold orient; ring). lra. }
  cbn in Hw. destruct Hw as [ -> |[ -> | -> ]].
  - exists x, y, z. split; [unfold is_tri; auto|]. split; [unfold is_tri; cbn; auto|]. split; auto. apply (Cone x); auto.
  - exists y, z, x. split; [unfold is_tri; auto|]. split; [unfold is_tri; cbn; auto|]. split; auto. apply (Cone y); auto.
  - exists z, x, y. split; [unfold is_tri; auto|]. split; [unfold is_tri; cbn; auto|]. split; auto. apply (Cone z); auto.
Qed.

Lemma empty_tri x y z v : is_tri T x y z -> (v < n)%N -> inside_or_on (at_ x) (at_ y) (at_ z) (at_ v) ->
  same_place (at_ x) (at_ v) \/ same_place (at_ y) (at_ v) \/ same_place (at_ z) (at_ v).
Proof.
  intros [H|[H|H]] Lv (I1 & I2 & I3);
    (destruct (Te _ v H Lv) as (c & [ -> |[ -> | -> ]] & Hc); [repeat split; auto|auto|auto|auto]).
Qed.
End Start.

(** ** Angles *)

(** On the same side of a b: a point outside the circle of a b c sees a b at a smaller angle. *)
Lemma inscribed a b c z : clockwise a b c -> clockwise a b z -> ~ in_circumcircle a b c z ->
  scalar b c a * - orient a b z <= scalar b z a * - orient a b c.
Proof.
  intros C Cz H. destruct (center_exists a b c) as (o & O1 & O2); [unfold clockwise in C; lra|].
  assert (P : sqdist o a <= sqdist o z).
  { apply Qnot_lt_le. intros L. apply H. exists o. auto. }
  assert (K : scalar b z a * - orient a b c - scalar b c a * - orient a b z ==
    (sqdist o z - sqdist o c) * - orient a b c
      - ((sqdist o a - sqdist o c) * orient b z c + (sqdist o b - sqdist o c) * orient z a c)).
  { unfold scalar, orient, sqdist. ring. }
  unfold clockwise in *. rewrite O1 in K, P. rewrite O2 in K, P.
  assert (0 <= (sqdist o z - sqdist o c) * - orient a b c) by (apply Qmult_le_0_compat; lra). lra.
Qed.

Lemma sqdist_ge a b : 0 <= sqdist a b.
Proof.
  unfold sqdist. assert (Sq : forall u : Q, 0 <= u * u) by (intros u; nra).
  pose proof (Sq (fst a - fst b)). pose proof (Sq (snd a - snd b)). lra.
Qed.

(** The point y is in the angle between a and b at z: it is at a smaller angle to a. *)
Lemma sub_angle a b y z : 0 <= orient y z b -> scalar b z a * - orient a y z <= scalar y z a * - orient a b z.
Proof.
  intros H. assert (K : scalar y z a * - orient a b z - scalar b z a * - orient a y z == sqdist z a * orient y z b)
    by (unfold scalar, orient, sqdist; ring).
  pose proof (sqdist_ge z a). assert (0 <= sqdist z a * orient y z b) by (apply Qmult_le_0_compat; auto). lra.
Qed.

Lemma cot_trans sc sz sy c z y : 0 < c -> 0 < z -> 0 < y -> sc * z <= sz * c -> sz * y <= sy * z -> sc * y <= sy * c.
Proof.
  intros Hc Hz Hy A B. apply (Qmult_le_l _ _ z Hz).
  assert (A' : y * (sc * z) <= y * (sz * c)) by (apply Qmult_le_l; auto).
  assert (B' : c * (sz * y) <= c * (sy * z)) by (apply Qmult_le_l; auto). lra.
Qed.

(** A point between a and b is inside every circle through a and b. *)
Lemma between_power o a b s : sqdist o a == sqdist o b ->
  sqdist o (along a b s) == sqdist o a - s * (1 - s) * sqdist a b.
Proof.
  intros H. assert (K : sqdist o (along a b s) == (1 - s) * sqdist o a + s * sqdist o b - s * (1 - s) * sqdist a b)
    by (unfold sqdist, along; cbn [fst snd]; ring).
  rewrite K, <- H. ring.
Qed.

(** b is on the ray from a through y, beyond the line from y to z: y is between a and b. *)
Lemma ray_between a b y z : clockwise a y z -> orient a y b == 0 -> orient z a b < 0 -> 0 < orient y z b ->
  exists s, 0 < s < 1 /\ same_place y (along a b s).
Proof.
  unfold clockwise. intros C H0 H1 H2.
  assert (Sum : orient a y b + orient y z b + orient z a b == orient a y z) by (unfold orient; ring).
  set (s := orient a y z / orient z a b).
  assert (Hs : s * orient z a b == orient a y z) by (unfold s; field; lra).
  exists s. split.
  - split.
    + destruct (Qlt_le_dec 0 s); auto. nra.
    + destruct (Qlt_le_dec s 1); auto. nra.
  - assert (Kx : orient z a b * (fst y - fst a) == orient a y z * (fst b - fst a) + orient a y b * (fst a - fst z)) by (unfold orient; ring).
    assert (Ky : orient z a b * (snd y - snd a) == orient a y z * (snd b - snd a) + orient a y b * (snd a - snd z)) by (unfold orient; ring).
    rewrite H0, <- Hs in Kx, Ky.
    assert (Nz : ~ orient z a b == 0) by lra.
    split; cbn [fst snd along].
    + assert (K : orient z a b * (fst y - fst a - s * (fst b - fst a)) == 0) by lra.
      apply Qmult_integral in K. destruct K; [contradiction|lra].
    + assert (K : orient z a b * (snd y - snd a - s * (snd b - snd a)) == 0) by lra.
      apply Qmult_integral in K. destruct K; [contradiction|lra].
Qed.

Section Smaller.
Variables (at_ : N -> point) (n : N) (T : list (N * N * N)).
Hypothesis Te : forall t v, In t T -> (v < n)%N -> tri_inside_or_on at_ t (at_ v) ->
  exists c, tri_corner t c /\ same_place (at_ c) (at_ v).

Lemma sqdist_pos a b : ~ same_place a b -> 0 < sqdist a b.
Proof.
  intros H. destruct (Qlt_le_dec 0 (sqdist a b)) as [L|L]; auto. exfalso. apply H. unfold sqdist in L.
  assert (Sq : forall u : Q, 0 <= u * u) by (intros u; nra).
  pose proof (Sq (fst a - fst b)). pose proof (Sq (snd a - snd b)).
  assert (Z : forall u : Q, u * u == 0 -> u == 0) by (intros u K; apply Qmult_integral in K; tauto).
  split; [assert (fst a - fst b == 0) by (apply Z; lra)|assert (snd a - snd b == 0) by (apply Z; lra)]; lra.
Qed.

Lemma smaller_angle a b c x y z : (b < n)%N -> clockwise (at_ a) (at_ b) (at_ c) ->
  is_tri T x y z -> same_place (at_ x) (at_ a) -> clockwise (at_ a) (at_ y) (at_ z) ->
  (orient (at_ a) (at_ y) (at_ b) < 0 \/ orient (at_ a) (at_ y) (at_ b) == 0 /\ orient (at_ a) (at_ y) (at_ c) <= 0) ->
  (orient (at_ z) (at_ a) (at_ b) < 0 \/ orient (at_ z) (at_ a) (at_ b) == 0 /\ orient (at_ z) (at_ a) (at_ c) <= 0) ->
  ~ in_circumcircle (at_ a) (at_ b) (at_ c) (at_ z) ->
  scalar (at_ b) (at_ c) (at_ a) * - orient (at_ y) (at_ z) (at_ x) <=
    scalar (at_ y) (at_ z) (at_ x) * - orient (at_ b) (at_ c) (at_ a).
Proof.
  intros Lb C Ht Sx Cy Hy Hz Nz.
  assert (R1 : scalar (at_ y) (at_ z) (at_ x) == scalar (at_ y) (at_ z) (at_ a)).
  { destruct Sx as (S1 & S2). unfold scalar. now rewrite S1, S2. }
  assert (R2 : orient (at_ y) (at_ z) (at_ x) == orient (at_ a) (at_ y) (at_ z)).
  { destruct Sx as (S1 & S2). unfold orient. rewrite S1, S2. ring. }
  assert (R3 : orient (at_ b) (at_ c) (at_ a) == orient (at_ a) (at_ b) (at_ c)) by (unfold orient; ring).
  rewrite R1, R2, R3.
  assert (Em : inside_or_on (at_ a) (at_ y) (at_ z) (at_ b) -> same_place (at_ x) (at_ b) \/ same_place (at_ y) (at_ b) \/ same_place (at_ z) (at_ b)).
  { intros I. apply (empty_tri at_ n T Te x y z b); auto. destruct Sx as (S1 & S2). unfold inside_or_on, orient in *. now rewrite S1, S2. }
  assert (Nab : ~ same_place (at_ x) (at_ b)).
  { intros (Q1 & Q2). destruct Sx as (S1 & S2). unfold clockwise, orient in C. rewrite <- Q1, <- Q2, S1, S2 in C. lra. }
  assert (Rot : orient (at_ z) (at_ a) (at_ b) == orient (at_ a) (at_ b) (at_ z)) by (unfold orient; ring).
  (* b is not on the ray from a through z, since c is on its right *)
  assert (Hz' : orient (at_ z) (at_ a) (at_ b) < 0).
  { destruct Hz as [K|(K & K')]; auto. exfalso.
    assert (Z : orient (at_ a) (at_ z) (at_ b) == 0) by (assert (orient (at_ a) (at_ z) (at_ b) == - orient (at_ z) (at_ a) (at_ b)) by (unfold orient; ring); lra).
    assert (K0 : orient (at_ a) (at_ y) (at_ z) * orient (at_ a) (at_ b) (at_ c) ==
       orient (at_ a) (at_ y) (at_ b) * orient (at_ a) (at_ z) (at_ c) - orient (at_ a) (at_ z) (at_ b) * orient (at_ a) (at_ y) (at_ c))
      by (unfold orient; ring).
    assert (K1 : orient (at_ a) (at_ z) (at_ c) == - orient (at_ z) (at_ a) (at_ c)) by (unfold orient; ring).
    rewrite Z, K1 in K0. unfold clockwise in *.
    assert (0 < orient (at_ a) (at_ y) (at_ z) * orient (at_ a) (at_ b) (at_ c)) by nra.
    destruct Hy as [Hy|(Hy & _)]; [nra|rewrite Hy in K0; lra]. }
  assert (Cz : clockwise (at_ a) (at_ b) (at_ z)) by (unfold clockwise; lra).
  apply (cot_trans _ (scalar (at_ b) (at_ z) (at_ a)) _ _ (- orient (at_ a) (at_ b) (at_ z)));
    [unfold clockwise in *; lra|unfold clockwise in *; lra|unfold clockwise in *; lra|now apply inscribed|].
  apply sub_angle.
  destruct (Qlt_le_dec (orient (at_ y) (at_ z) (at_ b)) 0) as [Lo|Lo]; auto.
  exfalso. destruct Em as [K|[K|K]].
  - repeat split; [destruct Hy as [Hy|(Hy & _)]|..]; lra.
  - auto.
  - destruct K as (Q1 & Q2). unfold orient in Lo. rewrite <- Q1, <- Q2 in Lo. lra.
  - destruct K as (Q1 & Q2). unfold orient in Lo. rewrite <- Q1, <- Q2 in Lo. lra.
Qed.
End Smaller.
