(** * Empty: a locally Delaunay mesh whose finite area is convex is Delaunay.

    If some finite triangle had a vertex v of the area strictly inside its circumcircle, so
    would the next triangle towards v, and the one after, until v itself. *)

From Coq Require Import NArith List Bool Lia QArith Lqa.
From Verif Require Import Base BaseFacts Arith Types Utils Infinite Triangulation Geom Mesh
  MeshOps Exact AnyDT MeshVerts Walk Insert DTExact DTOut Spec Lifted Lawson.
Import ListNotations.
Local Open Scope N_scope.

(** ** Small parameters *)
Section Small.
Local Open Scope Q_scope.

Lemma quad_neg a b c : a < 0 -> exists d, 0 < d /\ forall e, 0 < e -> e <= d -> a + e * b + e * e * c < 0.
Proof.
  intros H. set (m := 1 + (if Qlt_le_dec 0 b then b else 0) + (if Qlt_le_dec 0 c then c else 0)).
  assert (M : 1 <= m /\ b <= m /\ c <= m /\ b + c <= m).
  { unfold m. destruct (Qlt_le_dec 0 b), (Qlt_le_dec 0 c); repeat split; lra. }
  destruct M as (M1 & M2 & M3 & M4).
  set (d0 := - a / (2 * m)).
  assert (D0 : d0 * m == - a / 2) by (unfold d0; field; lra).
  assert (P0 : 0 < d0).
  { destruct (Qlt_le_dec 0 d0) as [K|K]; auto. exfalso.
    assert (- a / 2 == (1 # 2) * - a) by field. nra. }
  exists (if Qlt_le_dec d0 1 then d0 else 1). split; [destruct (Qlt_le_dec d0 1); lra|].
  intros e E1 E2. assert (E3 : e <= d0 /\ e <= 1) by (destruct (Qlt_le_dec d0 1); lra).
  destruct E3 as (E3 & E4).
  assert (H1 : e * b + e * e * c <= e * m).
  { assert (K : e * (b + e * c) <= e * m); [|lra].
    apply (Qmult_le_l _ _ e); [exact E1|].
    destruct (Qlt_le_dec 0 c); [assert (e * c <= c) by nra; lra|assert (e * c <= 0) by nra; lra]. }
  assert (H2 : e * m <= d0 * m) by (apply Qmult_le_compat_r; lra).
  assert (- a / 2 == (1 # 2) * - a) by field. lra.
Qed.

Lemma quad_nonzero a b c : ~ (a == 0 /\ b == 0 /\ c == 0) ->
  exists d, 0 < d /\ forall e, 0 < e -> e <= d -> ~ a + e * b + e * e * c == 0.
Proof.
  intros H.
  assert (Main : forall a b c, ~ a == 0 -> exists d, 0 < d /\ forall e, 0 < e -> e <= d -> ~ a + e * b + e * e * c == 0).
  { clear. intros a b c H. destruct (Qlt_le_dec a 0) as [N|N].
    - destruct (quad_neg a b c N) as (d & Hd & K). exists d. split; auto. intros e E1 E2 Q. specialize (K e E1 E2). lra.
    - destruct (quad_neg (- a) (- b) (- c)) as (d & Hd & K).
      { destruct (Qlt_le_dec (- a) 0); auto. exfalso. apply H. lra. }
      exists d. split; auto. intros e E1 E2 Q. specialize (K e E1 E2). lra. }
  destruct (Qeq_dec a 0) as [A|A]; [|now apply Main].
  destruct (Qeq_dec b 0) as [B|B].
  - destruct (Qeq_dec c 0) as [C|C]; [exfalso; auto|].
    exists 1. split; [lra|]. intros e E1 E2 Q. rewrite A, B in Q.
    assert (K : e * (e * c) == 0) by lra. apply Qmult_integral in K. destruct K as [K|K]; [lra|].
    apply Qmult_integral in K. destruct K; [lra|auto].
  - destruct (Main b c 0 B) as (d & Hd & K). exists d. split; auto. intros e E1 E2 Q. rewrite A in Q.
    apply (K e E1 E2). assert (Q' : e * (b + e * c) == 0) by lra. apply Qmult_integral in Q'. destruct Q'; lra.
Qed.

Lemma quad_list {A} (f : A -> Q * Q * Q) (good : Q * Q * Q -> Q -> Prop) (l : list A) :
  (forall x, In x l -> exists d, 0 < d /\ forall e, 0 < e -> e <= d -> good (f x) e) ->
  exists d, 0 < d /\ forall e, 0 < e -> e <= d -> forall x, In x l -> good (f x) e.
Proof.
  induction l as [|x l IH]; intros H.
  - exists 1. split; [lra|]. intros e _ _ y [].
  - destruct IH as (d & Hd & K); [intros; apply H; now right|].
    destruct (H x (or_introl eq_refl)) as (d' & Hd' & K').
    exists (if Qlt_le_dec d d' then d else d'). split; [destruct (Qlt_le_dec d d'); auto|].
    intros e E1 E2 y [<-|Hy].
    + apply K'; auto. destruct (Qlt_le_dec d d'); lra.
    + apply K; auto. destruct (Qlt_le_dec d d'); lra.
Qed.

(** Affine functions of one parameter. *)
Lemma cross_at a b : a < 0 -> 0 < b -> exists t, 0 < t /\ t < 1 /\ (1 - t) * a + t * b == 0.
Proof.
  intros A B. exists (- a / (b - a)). assert (N : 0 < b - a) by lra.
  assert (K : - a / (b - a) * (b - a) == - a) by (field; lra).
  set (t := - a / (b - a)) in *. repeat split; nra.
Qed.
End Small.

Section WithEnv.
Context {E : Env}.
Variable vs : list vertex.
Variables px py : N -> Q.

Notation pos := (hpos px py).
Notation D a b c := (det (pos a) (pos b) (pos c)).
Notation Mesh := (Mesh pos).
Notation fin v := (is_finite v = true).
Notation z := (z px py).
Notation ev := (ev px py).
Notation ldel := (ldel px py).
Notation reg := (reg px py).

(** Near a point, strictly on the right of some lines, there is one that is also aligned with v
    and no other given vertex. *)
Lemma generic_near x0 y0 (hs : list (N * N)) v l : fin v ->
  (forall u w, In (u, w) hs -> fin u /\ fin w /\ (det (pos u) (pos w) (P3 x0 y0 1) < 0)%Q) ->
  (forall w, In w l -> fin w) ->
  exists x y, (forall u w, In (u, w) hs -> (det (pos u) (pos w) (P3 x y 1) < 0)%Q) /\
    forall w, In w l -> ~ samepos px py w v -> ~ (det (pos v) (pos w) (P3 x y 1) == 0)%Q.
Proof.
  intros Fv Hh Hl.
  assert (Dp : forall u w e, fin u -> fin w ->
     (det (pos u) (pos w) (P3 (x0 + e) (y0 + e * e) 1) ==
      det (pos u) (pos w) (P3 x0 y0 1) + e * (py u - py w) + e * e * (px w - px u))%Q).
  { intros u w e Fu Fw. rewrite (hpos_fin px py u Fu), (hpos_fin px py w Fw). unfold det; simpl. ring. }
  set (f0 := fun uw : N * N => (det (pos (fst uw)) (pos (snd uw)) (P3 x0 y0 1), py (fst uw) - py (snd uw), px (snd uw) - px (fst uw))%Q).
  set (neg := fun (t : Q * Q * Q) e => let '(p, q, r) := t in (p + e * q + e * e * r < 0)%Q).
  destruct (quad_list f0 neg hs) as (d1 & P1 & K1).
  { intros (u, w) Hw. destruct (Hh u w Hw) as (_ & _ & Hneg). exact (quad_neg _ _ _ Hneg). }
  set (f := fun w => (det (pos v) (pos w) (P3 x0 y0 1), py v - py w, px w - px v)%Q).
  set (good := fun (t : Q * Q * Q) e => let '(p, q, r) := t in ~ (p + e * q + e * e * r == 0)%Q).
  set (samep := fun w => (Qeq_bool (px w) (px v) && Qeq_bool (py w) (py v))%bool).
  assert (Hsame : forall w, samep w = true <-> samepos px py w v).
  { intros w. unfold samep, samepos. rewrite andb_true_iff, !Qeq_bool_iff. tauto. }
  destruct (quad_list f good (filter (fun w => negb (samep w)) l)) as (d4 & P4 & K4).
  { intros w Hw. apply filter_In in Hw. destruct Hw as (_ & Hw). apply quad_nonzero. intros (_ & Q1 & Q2).
    apply negb_true_iff in Hw. assert (K : samep w = true); [|congruence].
    apply Hsame. split; lra. }
  set (e := if Qlt_le_dec d1 d4 then d1 else d4).
  assert (He : (0 < e /\ e <= d1 /\ e <= d4)%Q) by (unfold e; destruct (Qlt_le_dec d1 d4); repeat split; lra).
  destruct He as (E0 & E1 & E4).
  exists (x0 + e)%Q, (y0 + e * e)%Q. split.
  - intros u w Hw. destruct (Hh u w Hw) as (Fu & Fw & _). rewrite Dp by auto. exact (K1 e E0 E1 (u, w) Hw).
  - intros w Hw Hns. rewrite Dp by auto. specialize (K4 e E0 E4 w).
    apply K4. apply filter_In. split; auto. apply negb_true_iff. destruct (samep w) eqn:Q; auto.
    exfalso. apply Hns. now apply Hsame.
Qed.

(** A point of an open triangle that is aligned with v and no other given vertex. *)
Lemma generic_point a b c v l : fin a -> fin b -> fin c -> fin v -> (D a b c < 0)%Q ->
  (forall w, In w l -> fin w) ->
  exists x y, in_open (pos a) (pos b) (pos c) (P3 x y 1) /\
    forall w, In w l -> ~ samepos px py w v -> ~ (det (pos v) (pos w) (P3 x y 1) == 0)%Q.
Proof.
  intros Fa Fb Fc Fv C Hl.
  set (x0 := ((px a + px b + px c) / 3)%Q). set (y0 := ((py a + py b + py c) / 3)%Q).
  assert (Ex : (3 * x0 == px a + px b + px c)%Q) by (unfold x0; field).
  assert (Ey : (3 * y0 == py a + py b + py c)%Q) by (unfold y0; field).
  assert (Cen : forall u w, fin u -> fin w ->
     (3 * det (pos u) (pos w) (P3 x0 y0 1) == D u w a + D u w b + D u w c)%Q).
  { intros u w Fu Fw. rewrite (hpos_fin px py u Fu), (hpos_fin px py w Fw), (hpos_fin px py a Fa),
      (hpos_fin px py b Fb), (hpos_fin px py c Fc).
    set (X0 := x0) in *. set (Y0 := y0) in *. unfold det; cbn [hx hy hw].
    transitivity ((px u * (py w * 3 - 1 * (3 * Y0)) - py u * (px w * 3 - 1 * (3 * X0)) + 1 * (px w * (3 * Y0) - py w * (3 * X0)))%Q); [ring|].
    rewrite Ex, Ey. ring. }
  pose proof (det_zero (pos a) (pos b)) as Za. pose proof (det_zero (pos b) (pos a)) as Za'.
  pose proof (det_zero (pos b) (pos c)) as Zb. pose proof (det_zero (pos c) (pos b)) as Zb'.
  pose proof (det_zero (pos c) (pos a)) as Zc. pose proof (det_zero (pos a) (pos c)) as Zc'.
  pose proof (det_rot3 (pos a) (pos b) (pos c)) as Rt.
  assert (Na : (det (pos a) (pos b) (P3 x0 y0 1) < 0)%Q) by (pose proof (Cen a b Fa Fb); lra).
  assert (Nb : (det (pos b) (pos c) (P3 x0 y0 1) < 0)%Q) by (pose proof (Cen b c Fb Fc); lra).
  assert (Nc : (det (pos c) (pos a) (P3 x0 y0 1) < 0)%Q) by (pose proof (Cen c a Fc Fa); lra).
  destruct (generic_near x0 y0 [(a, b); (b, c); (c, a)] v l Fv) as (x & y & H & Gen); auto.
  { intros u w [Q|[Q|[Q|[]]]]; injection Q as <- <-; auto. }
  exists x, y. split; [|exact Gen]. split; [|split]; apply H; cbn [In]; auto.
Qed.

(** ** The walk *)

Lemma exit_time n v : (n < 0)%Q ->
  exists t, (0 < t /\ t <= 1)%Q /\ (forall r, 0 <= r -> r <= t -> (1 - r) * n + r * v <= 0)%Q /\
    ((0 < v)%Q -> (t < 1)%Q) /\ ((t < 1)%Q -> (0 < v)%Q /\ ((1 - t) * n + t * v == 0)%Q).
Proof.
  intros N. destruct (Qlt_le_dec 0 v) as [V|V].
  - destruct (cross_at n v N V) as (t & T0 & T1 & Q). exists t. split; [lra|]. split; [|split; auto; lra].
    intros r R0 R1.
    assert (K : ((1 - r) * n + r * v == ((1 - t) * n + t * v) + (t - r) * (n - v))%Q) by ring.
    rewrite K, Q. nra.
  - exists 1%Q. split; [lra|]. split; [|split; lra]. intros r R0 R1. nra.
Qed.

Lemma min3 (p q r : Q) : exists m, (m <= p /\ m <= q /\ m <= r)%Q /\ (m = p \/ m = q \/ m = r).
Proof.
  destruct (Qlt_le_dec p q), (Qlt_le_dec p r), (Qlt_le_dec q r);
    first [exists p; repeat split; try lra; auto; fail|exists q; repeat split; try lra; auto; fail|
           exists r; repeat split; try lra; auto].
Qed.

Section Walk.
Variable ts : list tri.
Hypothesis MI : MInv vs px py ts.
Variable v : N.
Hypothesis Fv : fin v.
Hypothesis Cv : hascorner ts v.
Variables x y : Q.
Hypothesis Gen : forall w, hascorner ts w -> fin w -> ~ samepos px py w v -> ~ (det (pos v) (pos w) (P3 x y 1) == 0)%Q.

Definition onway (t : Q) : pt3 := P3 (x + t * (px v - x)) (y + t * (py v - y)) 1.

(** The edges between finite triangles that the way crosses are locally Delaunay, and the
    triangles on the way are finite. *)
Hypothesis AL : forall i j a b c d t, (0 <= t)%Q -> (t < 1)%Q -> tri3 ts i a b c -> tri3 ts j b a d ->
  fin a -> fin b -> fin c -> fin d -> (det (pos a) (pos b) (onway t) == 0)%Q ->
  (det (pos b) (pos c) (onway t) < 0)%Q -> (det (pos c) (pos a) (onway t) < 0)%Q -> ldel a b c d.
Hypothesis Area : forall t i a b c, (0 <= t)%Q -> (t < 1)%Q -> inT pos ts i (onway t) -> tri3 ts i a b c ->
  fin a /\ fin b /\ fin c.

Lemma det_onway a b t : fin a -> fin b ->
  (det (pos a) (pos b) (onway t) == (1 - t) * det (pos a) (pos b) (P3 x y 1) + t * D a b v)%Q.
Proof.
  intros A B. rewrite (hpos_fin px py a A), (hpos_fin px py b B), (hpos_fin px py v Fv).
  unfold det, onway; simpl. ring.
Qed.

Lemma det_onway2 a b s t : fin a -> fin b ->
  (det (pos a) (pos b) (onway (s + t * (1 - s))) == (1 - t) * det (pos a) (pos b) (onway s) + t * D a b v)%Q.
Proof. intros A B. rewrite !det_onway by auto. ring. Qed.

(** Triangle number i is finite, contains [onway s] and its circumcircle contains v. *)
Definition bad (i : N) (s : Q) : Prop :=
  exists a b c f, tri3 ts i a b c /\ fin a /\ fin b /\ fin c /\
    (ev f a == z a)%Q /\ (ev f b == z b)%Q /\ (ev f c == z c)%Q /\ (z v < ev f v)%Q /\
    in_open (pos a) (pos b) (pos c) (onway s).

Definition passed (i : N) (s : Q) : Prop :=
  forall t, (s <= t)%Q -> ~ inT pos ts i (onway t).

(** The way crosses the edge ab, between its ends, into the triangle on the other side. *)
Definition crossed (i : N) (s : Q) (a b c : N) : Prop :=
  exists n d e s', (s < e)%Q /\ (e < s')%Q /\ (s' < 1)%Q /\ tri3 ts n b a d /\
    (det (pos a) (pos b) (onway e) == 0)%Q /\ (det (pos b) (pos c) (onway e) < 0)%Q /\ (det (pos c) (pos a) (onway e) < 0)%Q /\
    in_open (pos b) (pos a) (pos d) (onway s') /\ passed i s' /\ (0 < D a b v)%Q.

Lemma leave i s a b c t :
  (0 <= s)%Q -> (s < 1)%Q -> tri3 ts i a b c -> fin a -> fin b -> fin c ->
  in_open (pos a) (pos b) (pos c) (onway s) ->
  (0 < t)%Q -> (t < 1)%Q -> (0 < D a b v)%Q ->
  (det (pos a) (pos b) (onway (s + t * (1 - s))) == 0)%Q ->
  (det (pos b) (pos c) (onway (s + t * (1 - s))) <= 0)%Q ->
  (det (pos c) (pos a) (onway (s + t * (1 - s))) <= 0)%Q ->
  crossed i s a b c.
Proof.
  intros S0 S1 T Fa Fb Fc (I1 & I2 & I3) T0 T1 Hv Z1 Z2 Z3.
  pose proof MI as [M I J O].
  pose proof (tri3_cw px py _ _ _ _ _ M T) as C.
  set (e := (s + t * (1 - s))%Q) in *.
  assert (E0 : (s < e)%Q) by (unfold e; nra). assert (E1 : (e < 1)%Q) by (unfold e; nra).
  assert (Corner : forall w, (det (pos v) (pos w) (onway e) == 0)%Q -> hascorner ts w -> fin w -> samepos px py w v).
  { intros w Q Cw Fw. rewrite det_onway in Q by auto.
    pose proof (det_zero (pos v) (pos w)) as (_ & Q0 & _). rewrite Q0 in Q.
    destruct (Qeq_dec (px w) (px v)) as [X1|X1]; [destruct (Qeq_dec (py w) (py v)) as [X2|X2]|];
      [split; auto| |]; exfalso; apply (Gen w Cw Fw).
    - intros (_ & K). auto.
    - assert (Q1 : ((1 - e) * det (pos v) (pos w) (P3 x y 1) == 0)%Q) by lra.
      apply Qmult_integral in Q1. destruct Q1; lra.
    - intros (K & _). auto.
    - assert (Q1 : ((1 - e) * det (pos v) (pos w) (P3 x y 1) == 0)%Q) by lra.
      apply Qmult_integral in Q1. destruct Q1; lra. }
  assert (Hab : forall w, w = a \/ w = b -> hascorner ts w).
  { destruct T as (n1 & n2 & n3 & V). destruct (view_he _ _ _ _ _ _ _ _ V) as (H1 & H2 & _).
    intros w [->| ->]; exists i; eexists; eexists; eauto. }
  pose proof (cramer (pos a) (pos b) (pos c) (onway e)) as Cr.
  assert (G2 : (det (pos b) (pos c) (onway e) < 0)%Q).
  { apply lt_of; auto. intros Q. pose proof (Cr (pos v) (pos b)) as K. rewrite Q, Z1 in K.
    pose proof (det_zero (pos b) (pos v)) as (_ & _ & Q0). rewrite Q0 in K.
    assert (K' : (D a b c * det (pos v) (pos b) (onway e) == 0)%Q) by lra.
    apply Qmult_integral in K'. destruct K' as [K'|K']; [lra|].
    destruct (Corner b K' (Hab b (or_intror eq_refl)) Fb) as (Q1 & Q2).
    pose proof (det_same px py b v a b Fb Fv (conj Q1 Q2)) as Q3.
    pose proof (det_zero (pos b) (pos a)) as (_ & _ & Q4). lra. }
  assert (G3 : (det (pos c) (pos a) (onway e) < 0)%Q).
  { apply lt_of; auto. intros Q. pose proof (Cr (pos v) (pos a)) as K. rewrite Q, Z1 in K.
    pose proof (det_zero (pos a) (pos v)) as (_ & _ & Q0). rewrite Q0 in K.
    assert (K' : (D a b c * det (pos v) (pos a) (onway e) == 0)%Q) by lra.
    apply Qmult_integral in K'. destruct K' as [K'|K']; [lra|].
    destruct (Corner a K' (Hab a (or_introl eq_refl)) Fa) as (Q1 & Q2).
    pose proof (det_same px py a v a b Fa Fv (conj Q1 Q2)) as Q3.
    pose proof (det_zero (pos a) (pos b)) as (_ & Q4 & _). lra. }
  (* the triangle across ab *)
  pose proof T as (n1 & n2 & n3 & V). destruct (view_he _ _ _ _ _ _ _ _ V) as (H1 & _).
  assert (G : he ts n1 b a i).
  { destruct (M_glue _ _ M _ _ _ _ H1) as [(_ & Q & _)|G]; auto. rewrite inf_not_fin, Fa in Q. discriminate. }
  destruct G as (d & n4 & n5 & V'). pose proof (M_cw _ _ M _ _ _ _ _ _ _ V') as C'.
  destruct (split2_other _ _ _ (onway e) C Z1 G2 G3 (pos d) C') as (O1 & O2).
  (* a little further *)
  set (g := fun r a b => ((1 - r) * det (pos a) (pos b) (onway e) + r * D a b v)%Q).
  assert (Gd : forall r p q, (det (pos p) (pos q) (onway (e + r * (1 - e))) ==
               det (pos p) (pos q) (onway e) + r * (D p q v - det (pos p) (pos q) (onway e)))%Q).
  { intros r p q. rewrite (hpos_fin px py v Fv). unfold det, onway; simpl. ring. }
  destruct (small_delta [(det (pos a) (pos d) (onway e), D a d v - det (pos a) (pos d) (onway e));
                         (det (pos d) (pos b) (onway e), D d b v - det (pos d) (pos b) (onway e))]%Q) as (dl & Hd & Hall).
  { simpl. intros xy [<-|[<-|[]]]; auto. }
  set (r := if Qlt_le_dec dl (1 # 2) then dl else (1 # 2)).
  assert (R0 : (0 < r /\ r <= dl /\ r < 1)%Q) by (unfold r; destruct (Qlt_le_dec dl (1 # 2)); repeat split; lra).
  destruct R0 as (R0 & R1 & R2).
  pose proof (Hall r R0 R1 _ (or_introl eq_refl)) as N1. pose proof (Hall r R0 R1 _ (or_intror (or_introl eq_refl))) as N2.
  cbn [fst snd] in N1, N2. rewrite <- Gd in N1, N2.
  pose proof (Gd r a b) as N3. rewrite Z1 in N3.
  set (s' := (e + r * (1 - e))%Q) in *.
  assert (S0' : (e < s')%Q) by (unfold s'; nra). assert (S1' : (s' < 1)%Q) by (unfold s'; nra).
  assert (In' : in_open (pos b) (pos a) (pos d) (onway s')).
  { pose proof (det_swap (pos a) (pos b) (onway s')). repeat split; auto. nra. }
  exists n1, d, e, s'. split; [lra|]. split; [lra|]. split; [lra|]. split; [do 3 eexists; exact V'|].
  split; [exact Z1|]. split; [exact G2|]. split; [exact G3|]. split; [exact In'|]. split; [|exact Hv].
  intros q Hq Hin. apply (inT_view _ _ _ _ _ _ _ _ _ _ V) in Hin. destruct Hin as (K & _).
    assert (Kq : (det (pos a) (pos b) (onway q) == (q - e) * (D a b v - det (pos a) (pos b) (P3 x y 1)))%Q).
    { pose proof (det_onway a b e Fa Fb) as Q1. pose proof (det_onway a b q Fa Fb) as Q2. rewrite Z1 in Q1. lra. }
    assert (Hp : (0 < D a b v - det (pos a) (pos b) (P3 x y 1))%Q).
    { pose proof (det_onway a b s Fa Fb) as Q1. pose proof (det_onway a b e Fa Fb) as Q2. rewrite Z1 in Q2. nra. }
    nra.
Qed.

(** From a triangle the way leads to one of its corners, or through one of its edges. *)
Lemma way_out i s a b c : (0 <= s)%Q -> (s < 1)%Q -> tri3 ts i a b c -> fin a -> fin b -> fin c ->
  in_open (pos a) (pos b) (pos c) (onway s) ->
  v = a \/ v = b \/ v = c \/ crossed i s a b c \/ crossed i s b c a \/ crossed i s c a b.
Proof.
  intros S0 S1 T Fa Fb Fc In_.
  pose proof MI as [M I J O]. pose proof In_ as (I1 & I2 & I3).
  destruct (exit_time _ (D a b v) I1) as (t1 & A1 & B1 & P1 & Q1).
  destruct (exit_time _ (D b c v) I2) as (t2 & A2 & B2 & P2 & Q2).
  destruct (exit_time _ (D c a v) I3) as (t3 & A3 & B3 & P3 & Q3).
  assert (Out : (v = a \/ v = b \/ v = c) \/ (0 < D a b v \/ 0 < D b c v \/ 0 < D c a v)%Q).
  { destruct (Qlt_le_dec 0 (D a b v)) as [|K1]; auto. destruct (Qlt_le_dec 0 (D b c v)) as [|K2]; auto.
    destruct (Qlt_le_dec 0 (D c a v)) as [|K3]; auto. left.
    destruct Cv as (j & Cj). pose proof T as (n1 & n2 & n3 & V).
    destruct (vertex_in_closed px py ts i a b c n1 n2 n3 j v M V Cj Fv) as (u & Hu & Fu & Sp); [repeat split; auto|].
    destruct (view_he _ _ _ _ _ _ _ _ V) as (H1 & H2 & H3).
    assert (Cu : corner ts i u) by (destruct Hu as [->|[->| ->]]; eexists; eexists; eauto).
    assert (u = v) by (exact (J _ _ _ _ Cu Cj Fu Fv Sp)). subst u. exact Hu. }
  destruct Out as [Out|Out]; [tauto|]. do 3 right.
  destruct (min3 t1 t2 t3) as (t & (L1 & L2 & L3) & Ht).
  assert (Hlt : (t < 1)%Q).
  { destruct Out as [K|[K|K]]; [specialize (P1 K)|specialize (P2 K)|specialize (P3 K)]; lra. }
  assert (T0 : (0 < t)%Q) by (destruct Ht as [->|[->| ->]]; lra).
  assert (N1 := B1 t (Qlt_le_weak _ _ T0) L1). assert (N2 := B2 t (Qlt_le_weak _ _ T0) L2).
  assert (N3 := B3 t (Qlt_le_weak _ _ T0) L3).
  rewrite <- det_onway2 in N1, N2, N3 by auto.
  destruct Ht as [Ht|[Ht|Ht]].
  - left. rewrite <- Ht in Q1. destruct (Q1 Hlt) as (V1 & Z). rewrite <- det_onway2 in Z by auto.
    exact (leave i s a b c t S0 S1 T Fa Fb Fc In_ T0 Hlt V1 Z N2 N3).
  - right; left. rewrite <- Ht in Q2. destruct (Q2 Hlt) as (V1 & Z). rewrite <- det_onway2 in Z by auto.
    exact (leave i s b c a t S0 S1 (tri3_rot _ _ _ _ _ T) Fb Fc Fa (in_open_rot _ _ _ _ In_) T0 Hlt V1 Z N3 N1).
  - right; right. rewrite <- Ht in Q3. destruct (Q3 Hlt) as (V1 & Z). rewrite <- det_onway2 in Z by auto.
    exact (leave i s c a b t S0 S1 (tri3_rot2 _ _ _ _ _ T) Fc Fa Fb
             (in_open_rot _ _ _ _ (in_open_rot _ _ _ _ In_)) T0 Hlt V1 Z N1 N2).
Qed.

Lemma bad_cross i s a b c f : (0 <= s)%Q -> (s < 1)%Q -> tri3 ts i a b c -> fin a -> fin b -> fin c ->
  (ev f a == z a)%Q -> (ev f b == z b)%Q -> (ev f c == z c)%Q -> (z v < ev f v)%Q -> crossed i s a b c ->
  exists j s', (s < s')%Q /\ (s' < 1)%Q /\ bad j s' /\ passed i s'.
Proof.
  intros S0 S1 T Fa Fb Fc Ea Eb Ec Ev (n & d & e & s' & E0 & S0' & S1' & T' & Z1 & G2 & G3 & In' & Ps & Hv).
  pose proof MI as [M I J O]. pose proof (tri3_cw px py _ _ _ _ _ M T') as C'.
  assert (Fd : fin d).
  { apply (Area s' n b a d); [lra|lra| |exact T']. destruct T' as (n4 & n5 & n6 & V').
    now apply (inT_view _ _ _ _ _ _ _ _ _ _ V'). }
  exists n, s'. split; [lra|]. split; [lra|]. split; [|exact Ps].
  destruct (plane_exists px py b a d Fb Fa Fd) as (k & Kb & Ka & Kd); [lra|].
  exists b, a, d, k. repeat split; auto; try apply In'.
  pose proof (AL i n a b c d e ltac:(lra) ltac:(lra) T T' Fa Fb Fc Fd Z1 G2 G3 f Ea Eb Ec) as Hfd.
  pose proof (bary px py (psub k f) b a d v Fb Fa Fd Fv) as Q. rewrite !ev_sub in Q.
  assert (Q1 : (ev k a - ev f a == 0)%Q) by lra. assert (Q2 : (ev k b - ev f b == 0)%Q) by lra.
  rewrite Q1, Q2 in Q. pose proof (det_swap (pos a) (pos b) (pos v)) as Sw.
  assert (P1 : ((ev k d - ev f d) * D b a v <= 0)%Q) by nra.
  assert (P2 : ((ev k v - ev f v) * D b a d <= 0)%Q) by lra.
  apply qmul_pos in P2; lra.
Qed.

Lemma bad_step i s : (0 <= s)%Q -> (s < 1)%Q -> bad i s ->
  exists j s', (s < s')%Q /\ (s' < 1)%Q /\ bad j s' /\ passed i s'.
Proof.
  intros S0 S1 (a & b & c & f & T & Fa & Fb & Fc & Ea & Eb & Ec & Ev & In_).
  destruct (way_out i s a b c S0 S1 T Fa Fb Fc In_) as [K|[K|[K|[K|[K|K]]]]].
  - subst a. lra.
  - subst b. lra.
  - subst c. lra.
  - exact (bad_cross i s a b c f S0 S1 T Fa Fb Fc Ea Eb Ec Ev K).
  - exact (bad_cross i s b c a f S0 S1 (tri3_rot _ _ _ _ _ T) Fb Fc Fa Eb Ec Ea Ev K).
  - exact (bad_cross i s c a b f S0 S1 (tri3_rot2 _ _ _ _ _ T) Fc Fa Fb Ec Ea Eb Ev K).
Qed.

Lemma bad_inT i s : bad i s -> inT pos ts i (onway s).
Proof.
  intros (a & b & c & f & (n1 & n2 & n3 & V) & _ & _ & _ & _ & _ & _ & _ & H).
  now apply (inT_view _ _ _ _ _ _ _ _ _ _ V).
Qed.

Lemma no_bad : forall n done i s, (length ts <= n + length done)%nat -> NoDup done ->
  (forall k, In k done -> k < lenN ts /\ passed k s) -> (0 <= s)%Q -> (s < 1)%Q -> bad i s -> False.
Proof.
  induction n as [|n IH]; intros done i s Hn Nd Hd S0 S1 B.
  - pose proof (bad_inT _ _ B) as Ti.
    assert (Ni : ~ In i done) by (intros K; destruct (Hd i K) as (_ & K'); apply (K' s); [lra|auto]).
    assert (Li : i < lenN ts) by (destruct Ti as (? & ? & ? & ? & ? & ? & V & _); now apply view_lt in V).
    assert (K : (length (i :: done) <= length (rangeN 0 (length ts)))%nat).
    { apply NoDup_incl_length; [now constructor|]. intros k [<-|Hk]; apply In_rangeN; unfold lenN in *; [lia|].
      destruct (Hd k Hk) as (K & _). lia. }
    rewrite length_rangeN in K. simpl in K. lia.
  - destruct (bad_step i s S0 S1 B) as (j & s' & L1 & L2 & Bj & Pi).
    pose proof (bad_inT _ _ B) as Ti.
    assert (Ni : ~ In i done) by (intros K; destruct (Hd i K) as (_ & K'); apply (K' s); [lra|auto]).
    apply (IH (i :: done) j s'); auto.
    + simpl. lia.
    + now constructor.
    + intros k [<-|Hk].
      * split; auto. destruct Ti as (? & ? & ? & ? & ? & ? & V & _). now apply view_lt in V.
      * destruct (Hd k Hk) as (K1 & K2). split; auto. intros t Ht. apply K2. lra.
    + lra.
Qed.

End Walk.

(** A vertex seen from a point of a triangle is not inside its circumcircle. *)
Lemma seen_empty ts v x y i a b c : MInv vs px py ts -> fin v -> hascorner ts v ->
  (forall w, hascorner ts w -> fin w -> ~ samepos px py w v -> ~ (det (pos v) (pos w) (P3 x y 1) == 0)%Q) ->
  (forall i j a b c d t, (0 <= t)%Q -> (t < 1)%Q -> tri3 ts i a b c -> tri3 ts j b a d ->
    fin a -> fin b -> fin c -> fin d -> (det (pos a) (pos b) (onway v x y t) == 0)%Q ->
    (det (pos b) (pos c) (onway v x y t) < 0)%Q -> (det (pos c) (pos a) (onway v x y t) < 0)%Q -> ldel a b c d) ->
  (forall t i a b c, (0 <= t)%Q -> (t < 1)%Q -> inT pos ts i (onway v x y t) -> tri3 ts i a b c -> fin a /\ fin b /\ fin c) ->
  tri3 ts i a b c -> fin a -> fin b -> fin c -> in_open (pos a) (pos b) (pos c) (P3 x y 1) -> ldel a b c v.
Proof.
  intros MI Fv Cv Gen AL Area T Fa Fb Fc Hin f Ea Eb Ec.
  destruct (Qlt_le_dec (z v) (ev f v)) as [L|L]; auto. exfalso.
  apply (no_bad ts MI v Fv Cv x y Gen AL Area) with (n := length ts) (done := @nil N) (i := i) (s := 0%Q).
  - simpl. lia.
  - constructor.
  - intros k [].
  - lra.
  - lra.
  - exists a, b, c, f. split; [auto|]. do 7 (split; [auto|]).
    assert (Q : forall u w, fin u -> fin w -> (det (pos u) (pos w) (onway v x y 0) == det (pos u) (pos w) (P3 x y 1))%Q).
    { intros u w Fu Fw. rewrite det_onway by auto. ring. }
    destruct Hin as (H1 & H2 & H3). repeat split; rewrite Q; auto.
Qed.

(** The finite corners of a mesh. *)
Definition corners (ts : list tri) : list N := filter is_finite (concat (map (fun t => [t_v1 t; t_v2 t; t_v3 t]) ts)).

Lemma corners_in ts w : hascorner ts w -> fin w -> In w (corners ts).
Proof.
  intros (j & Cw) Fw. apply filter_In. split; auto. apply in_concat.
  destruct (corner_inv _ _ _ Cw) as (t & k & Ht & Hk). exists [t_v1 t; t_v2 t; t_v3 t].
  split; [apply in_map_iff; exists t; split; auto; eapply nthN_In; eauto|]. destruct k; simpl in *; auto.
Qed.

Lemma corners_fin ts w : In w (corners ts) -> fin w.
Proof. intros H. now apply filter_In in H. Qed.

(** Locally Delaunay and convex: no vertex of the area is inside a circumcircle. *)
Lemma empty_circles ts i a b c v : MInv vs px py ts -> all_ldel px py ts ->
  (forall x y x' y' t, reg ts (P3 x y 1) -> reg ts (P3 x' y' 1) -> (0 <= t)%Q -> (t <= 1)%Q ->
     reg ts (P3 (x + t * (x' - x)) (y + t * (y' - y)) 1)) ->
  tri3 ts i a b c -> fin a -> fin b -> fin c -> fin v -> hascorner ts v -> reg ts (P3 (px v) (py v) 1) ->
  ldel a b c v.
Proof.
  intros MI AL Cvx T Fa Fb Fc Fv Cv Rv.
  pose proof MI as [M I J O]. pose proof (tri3_cw px py _ _ _ _ _ M T) as C.
  destruct (generic_point a b c v (corners ts) Fa Fb Fc Fv C (corners_fin ts)) as (x & y & Hin & Gen).
  assert (R0 : reg ts (P3 x y 1)).
  { exists i, a, b, c. split; [auto|]. split; [auto|]. split; [auto|]. split; [auto|]. now apply in_open_closed. }
  apply (seen_empty ts v x y i a b c); auto.
  - intros w Cw Fw. apply Gen. now apply corners_in.
  - intros i' j' a' b' c' d' t _ _ Ti Tj Fa' Fb' Fc' Fd' _ _ _. exact (AL i' j' a' b' c' d' Ti Tj Fa' Fb' Fc' Fd').
  - intros t j a' b' c' T0 T1 Hj (n1 & n2 & n3 & Vj).
    destruct (Cvx x y (px v) (py v) t R0 Rv T0) as (k & u1 & u2 & u3 & (m1 & m2 & m3 & Vk) & F1 & F2 & F3 & Hc); [lra|].
    assert (j = k).
    { apply (open_closed_excl _ _ M j k (onway v x y t)); auto. now apply (inC_view _ _ _ _ _ _ _ _ _ _ Vk). }
    subst k. destruct (view_fun _ _ _ _ _ _ _ _ _ _ _ _ _ _ Vj Vk) as [Q|[Q|Q]];
      destruct Q as (-> & -> & -> & _); auto.
Qed.

End WithEnv.
