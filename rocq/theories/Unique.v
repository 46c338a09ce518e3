(** * Unique: two Delaunay triangulations of the same points and area are the same. *)

From Coq Require Import NArith List Lia QArith Lqa.
From Verif Require Import Spec SpecUnique.
Import ListNotations.
Local Open Scope Q_scope.

Lemma center_exists a b c : ~ orient a b c == 0 -> exists o, sqdist o a == sqdist o b /\ sqdist o b == sqdist o c.
Proof.
  destruct a as (ax, ay), b as (bx, by_), c as (cx, cy). unfold orient. cbn [fst snd]. intros H.
  set (D := (bx - ax) * (cy - ay) - (by_ - ay) * (cx - ax)) in *.
  set (B := (bx - ax) * (bx - ax) + (by_ - ay) * (by_ - ay)).
  set (C := (cx - ax) * (cx - ax) + (cy - ay) * (cy - ay)).
  exists (ax + ((cy - ay) * B - (by_ - ay) * C) / (2 * D), ay + ((bx - ax) * C - (cx - ax) * B) / (2 * D)).
  unfold sqdist. cbn [fst snd].
  split; unfold B, C; unfold D in *; field; intros F; apply H; lra.
Qed.

(** The difference of the powers of a point with respect to two circles is affine. *)
Definition power (o a v : point) : Q := sqdist o v - sqdist o a.

Lemma power_bary o a o' a' u v w p :
  (power o a p - power o' a' p) * orient u v w ==
  (power o a u - power o' a' u) * orient v w p + (power o a v - power o' a' v) * orient w u p
  + (power o a w - power o' a' w) * orient u v p.
Proof. unfold power, sqdist, orient. ring. Qed.

Lemma outside_power a b c o v : sqdist o a == sqdist o b -> sqdist o b == sqdist o c ->
  ~ in_circumcircle a b c v -> 0 <= power o a v.
Proof.
  intros A B H. unfold power. destruct (Qlt_le_dec (sqdist o v) (sqdist o a)) as [L|L]; [|lra].
  exfalso. apply H. now exists o.
Qed.

Lemma neg_mul x y : 0 <= x -> y <= 0 -> x * y <= 0.
Proof. intros A B. assert (0 <= x * (- y)) by (apply Qmult_le_0_compat; lra). lra. Qed.

Lemma neg_mul_zero x y : y < 0 -> x * y == 0 -> x == 0.
Proof. intros A B. destruct (Qmult_integral _ _ B); [assumption|lra]. Qed.

(** Two triangles with empty circles that overlap have the same circle. *)
Lemma overlap_circle a b c x y z p :
  clockwise a b c -> clockwise x y z -> strictly_inside a b c p -> inside_or_on x y z p ->
  ~ in_circumcircle a b c x -> ~ in_circumcircle a b c y -> ~ in_circumcircle a b c z ->
  ~ in_circumcircle x y z a -> ~ in_circumcircle x y z b -> ~ in_circumcircle x y z c ->
  on_circumcircle x y z a /\ on_circumcircle x y z b /\ on_circumcircle x y z c.
Proof.
  intros C1 C2 (S1 & S2 & S3) (I1 & I2 & I3) Nx Ny Nz Na Nb Nc. unfold clockwise in *.
  destruct (center_exists a b c) as (o & A1 & A2); [lra|]. destruct (center_exists x y z) as (o' & B1 & B2); [lra|].
  pose proof (outside_power a b c o x A1 A2 Nx) as Px. pose proof (outside_power a b c o y A1 A2 Ny) as Py.
  pose proof (outside_power a b c o z A1 A2 Nz) as Pz.
  pose proof (outside_power x y z o' a B1 B2 Na) as Pa. pose proof (outside_power x y z o' b B1 B2 Nb) as Pb.
  pose proof (outside_power x y z o' c B1 B2 Nc) as Pc.
  assert (Qa : power o a a == 0) by (unfold power; lra). assert (Qb : power o a b == 0) by (unfold power; lra).
  assert (Qc : power o a c == 0) by (unfold power; lra).
  assert (Qx : power o' x x == 0) by (unfold power; lra). assert (Qy : power o' x y == 0) by (unfold power; lra).
  assert (Qz : power o' x z == 0) by (unfold power; lra).
  pose proof (power_bary o a o' x a b c p) as E1. pose proof (power_bary o a o' x x y z p) as E2.
  rewrite Qa, Qb, Qc in E1. rewrite Qx, Qy, Qz in E2.
  pose proof (neg_mul _ _ Px I2) as M1. pose proof (neg_mul _ _ Py I3) as M2. pose proof (neg_mul _ _ Pz I1) as M3.
  assert (L2 : 0 <= power o a p - power o' x p).
  { destruct (Qlt_le_dec (power o a p - power o' x p) 0) as [L|L]; [|exact L].
    assert (0 < (- (power o a p - power o' x p)) * - orient x y z) by (apply Qmult_lt_0_compat; lra). lra. }
  assert (K1 : power o' x a * orient b c p <= 0) by (apply neg_mul; lra).
  assert (K2 : power o' x b * orient c a p <= 0) by (apply neg_mul; lra).
  assert (K3 : power o' x c * orient a b p <= 0) by (apply neg_mul; lra).
  pose proof (neg_mul _ _ L2 (Qlt_le_weak _ _ C1)) as K0.
  assert (Z1 : power o' x a == 0) by (apply (neg_mul_zero _ (orient b c p)); lra).
  assert (Z2 : power o' x b == 0) by (apply (neg_mul_zero _ (orient c a p)); lra).
  assert (Z3 : power o' x c == 0) by (apply (neg_mul_zero _ (orient a b p)); lra).
  unfold power in Z1, Z2, Z3. repeat split; exists o'; repeat split; auto; lra.
Qed.

Lemma same_place_dec a b : {same_place a b} + {~ same_place a b}.
Proof. unfold same_place. destruct (Qeq_dec (fst a) (fst b)); destruct (Qeq_dec (snd a) (snd b)); [left|right|right|right]; tauto. Qed.

Lemma same_place_sym a b : same_place a b -> same_place b a.
Proof. intros (A & B). split; now symmetry. Qed.

Lemma same_place_trans a b c : same_place a b -> same_place b c -> same_place a c.
Proof. intros (A & B) (C & D). split; etransitivity; eassumption. Qed.

Lemma orient_same a b c a' b' c' : same_place a a' -> same_place b b' -> same_place c c' -> orient a b c == orient a' b' c'.
Proof. intros (A & B) (C & D) (F & G). unfold orient. now rewrite A, B, C, D, F, G. Qed.

Lemma circle_same_all a b c d a' b' c' d' : same_place a a' -> same_place b b' -> same_place c c' -> same_place d d' ->
  in_circumcircle a b c d -> in_circumcircle a' b' c' d'.
Proof.
  intros (A & A') (B & B') (C & C') (F & F') (o & H1 & H2 & H3). exists o. unfold sqdist in *.
  now rewrite <- A, <- A', <- B, <- B', <- C, <- C', <- F, <- F'.
Qed.

Lemma on_circle_same a b c d d' : same_place d d' -> on_circumcircle a b c d -> on_circumcircle a b c d'.
Proof.
  intros (F & F') (o & H1 & H2 & H3). exists o. unfold sqdist in *. now rewrite <- F, <- F'.
Qed.

(** Three corners among the three corners of a triangle of the same orientation. *)
Lemma corners_rotate a b c x y z : clockwise a b c -> clockwise x y z ->
  (same_place a x \/ same_place a y \/ same_place a z) ->
  (same_place b x \/ same_place b y \/ same_place b z) ->
  (same_place c x \/ same_place c y \/ same_place c z) ->
  (same_place a x /\ same_place b y /\ same_place c z) \/
  (same_place a y /\ same_place b z /\ same_place c x) \/
  (same_place a z /\ same_place b x /\ same_place c y).
Proof.
  unfold clockwise. intros C1 C2 A B C.
  destruct A as [A|[A|A]]; destruct B as [B|[B|B]]; destruct C as [C|[C|C]]; auto;
    exfalso; rewrite (orient_same _ _ _ _ _ _ A B C) in C1; unfold orient in *; lra.
Qed.

Section Two.
Variables at1 at2 : N -> point.
Variables (n1 n2 : N) (out1 out2 : list (N * N * N)).
Hypothesis Sp : same_points at1 at2 n1 n2.
Hypothesis D1 : delaunay at1 n1 out1.
Hypothesis D2 : delaunay at2 n2 out2.
Hypothesis W1 : forall t, In t out1 -> tri_clockwise at1 t.
Hypothesis W2 : forall t, In t out2 -> tri_clockwise at2 t.
Hypothesis I1 : forall a b c, In (a, b, c) out1 -> (a < n1 /\ b < n1 /\ c < n1)%N.
Hypothesis I2 : forall a b c, In (a, b, c) out2 -> (a < n2 /\ b < n2 /\ c < n2)%N.

Lemma same_refl a : same_place a a.
Proof. split; reflexivity. Qed.

(** The corners of a triangle are not in the circle of a triangle of the other list. *)
Lemma empty21 x y z v : In (x, y, z) out2 -> (v < n1)%N -> ~ in_circumcircle (at2 x) (at2 y) (at2 z) (at1 v).
Proof.
  intros H Hv K. destruct (proj1 Sp v Hv) as (w & Hw & Q). apply (D2 x y z w H Hw).
  exact (circle_same_all _ _ _ _ _ _ _ _ (same_refl _) (same_refl _) (same_refl _) Q K).
Qed.

Lemma empty12 x y z w : In (x, y, z) out1 -> (w < n2)%N -> ~ in_circumcircle (at1 x) (at1 y) (at1 z) (at2 w).
Proof.
  intros H Hw K. destruct (proj2 Sp w Hw) as (v & Hv & Q). apply (D1 x y z v H Hv).
  exact (circle_same_all _ _ _ _ _ _ _ _ (same_refl _) (same_refl _) (same_refl _) (same_place_sym _ _ Q) K).
Qed.

Lemma overlap_same_circle a b c x y z p : In (a, b, c) out1 -> In (x, y, z) out2 ->
  strictly_inside (at1 a) (at1 b) (at1 c) p -> inside_or_on (at2 x) (at2 y) (at2 z) p ->
  on_circumcircle (at2 x) (at2 y) (at2 z) (at1 a) /\ on_circumcircle (at2 x) (at2 y) (at2 z) (at1 b) /\
  on_circumcircle (at2 x) (at2 y) (at2 z) (at1 c).
Proof.
  intros H1 H2 Sa Ix. destruct (I1 _ _ _ H1) as (La & Lb & Lc). destruct (I2 _ _ _ H2) as (Lx & Ly & Lz).
  apply (overlap_circle _ _ _ _ _ _ p (W1 _ H1) (W2 _ H2) Sa Ix); auto using empty12, empty21.
Qed.

Hypothesis Gp : no_empty_circle_of_four at2 n2.

Lemma on_corner x y z v : In (x, y, z) out2 -> (v < n1)%N -> on_circumcircle (at2 x) (at2 y) (at2 z) (at1 v) ->
  same_place (at1 v) (at2 x) \/ same_place (at1 v) (at2 y) \/ same_place (at1 v) (at2 z).
Proof.
  intros H Hv Oc. destruct (proj1 Sp v Hv) as (w & Hw & Q). destruct (I2 _ _ _ H) as (Lx & Ly & Lz).
  destruct (same_place_dec (at1 v) (at2 x)) as [|Kx]; [tauto|].
  destruct (same_place_dec (at1 v) (at2 y)) as [|Ky]; [tauto|].
  destruct (same_place_dec (at1 v) (at2 z)) as [|Kz]; [tauto|]. exfalso.
  destruct (Gp x y z w Lx Ly Lz Hw) as (u & Hu & K).
  - pose proof (W2 _ H) as C. simpl in C. unfold clockwise in C. lra.
  - intros F. apply Kx. exact (same_place_trans _ _ _ Q F).
  - intros F. apply Ky. exact (same_place_trans _ _ _ Q F).
  - intros F. apply Kz. exact (same_place_trans _ _ _ Q F).
  - exact (on_circle_same _ _ _ _ _ Q Oc).
  - exact (D2 _ _ _ _ H Hu K).
Qed.

Lemma overlap_same_triangle s t p : In s out1 -> In t out2 -> tri_inside at1 s p -> tri_inside_or_on at2 t p ->
  same_triangle at1 at2 s t.
Proof.
  destruct s as ((a, b), c), t as ((x, y), z). intros H1 H2 Sa Ix.
  destruct (overlap_same_circle a b c x y z p H1 H2 Sa Ix) as (Oa & Ob & Oc).
  destruct (I1 _ _ _ H1) as (La & Lb & Lc).
  exact (corners_rotate _ _ _ _ _ _ (W1 _ H1) (W2 _ H2) (on_corner _ _ _ _ H2 La Oa) (on_corner _ _ _ _ H2 Lb Ob)
           (on_corner _ _ _ _ H2 Lc Oc)).
Qed.

(** The centre of a triangle is strictly inside. *)
Definition mid (at_ : N -> point) (t : N * N * N) : point :=
  let '(a, b, c) := t in
  ((fst (at_ a) + fst (at_ b) + fst (at_ c)) / 3, (snd (at_ a) + snd (at_ b) + snd (at_ c)) / 3).

Lemma mid_inside at_ t : tri_clockwise at_ t -> tri_inside at_ t (mid at_ t).
Proof.
  destruct t as ((a, b), c). unfold tri_clockwise, tri_inside, clockwise, strictly_inside, mid. intros H.
  generalize dependent (at_ a). generalize dependent (at_ b). generalize dependent (at_ c). intros p3 p2 p1 H.
  set (m := ((fst p1 + fst p2 + fst p3) / 3, (snd p1 + snd p2 + snd p3) / 3)).
  assert (K1 : 3 * orient p1 p2 m == orient p1 p2 p3) by (unfold orient, m; cbn [fst snd]; field).
  assert (K2 : 3 * orient p2 p3 m == orient p1 p2 p3) by (unfold orient, m; cbn [fst snd]; field).
  assert (K3 : 3 * orient p3 p1 m == orient p1 p2 p3) by (unfold orient, m; cbn [fst snd]; field).
  repeat split; lra.
Qed.

Lemma tri_unique s : In s out1 -> covered at2 out2 (mid at1 s) -> exists t, In t out2 /\ same_triangle at1 at2 s t.
Proof.
  intros H (t & Ht & K). exists t. split; [exact Ht|].
  exact (overlap_same_triangle s t _ H Ht (mid_inside _ _ (W1 _ H)) K).
Qed.
End Two.

(** ** Both directions, and the lengths *)

Lemma same_points_sym at1 at2 n1 n2 : same_points at1 at2 n1 n2 -> same_points at2 at1 n2 n1.
Proof.
  intros (A & B). split; [intros w Hw; destruct (B w Hw) as (v & Hv & Q)|intros v Hv; destruct (A v Hv) as (w & Hw & Q)];
    eexists; (split; [eassumption|now apply same_place_sym]).
Qed.

Lemma same_triangle_sym at1 at2 s t : same_triangle at1 at2 s t -> same_triangle at2 at1 t s.
Proof.
  destruct s as ((a, b), c), t as ((x, y), z). simpl.
  intros [(A & B & C)|[(A & B & C)|(A & B & C)]]; apply same_place_sym in A, B, C; auto.
Qed.

Lemma rotate_inside at1 at2 s t p : same_triangle at1 at2 s t -> tri_inside at1 s p -> tri_inside at2 t p.
Proof.
  destruct s as ((a, b), c), t as ((x, y), z). simpl. unfold strictly_inside.
  intros [(A & B & C)|[(A & B & C)|(A & B & C)]] (H1 & H2 & H3);
    rewrite (orient_same _ _ _ _ _ _ A B (same_refl p)) in H1;
    rewrite (orient_same _ _ _ _ _ _ B C (same_refl p)) in H2;
    rewrite (orient_same _ _ _ _ _ _ C A (same_refl p)) in H3; tauto.
Qed.

(** A list whose members are all found in a second list, two members never at the same place, is
    not longer. *)
Lemma matched_length {A B : Type} (R : A -> B -> Prop) (l : list A) : forall (m : list B),
  (forall x, In x l -> exists y, In y m /\ R x y) -> NoDup l ->
  (forall x x' y, In x l -> In x' l -> R x y -> R x' y -> x = x') -> (length l <= length m)%nat.
Proof.
  induction l as [|x l IH]; intros m H Nd I; [simpl; lia|].
  destruct (H x (or_introl eq_refl)) as (y & Hy & Rxy).
  destruct (in_split y m Hy) as (m1 & m2 & ->).
  inversion Nd as [|? ? Nx Nl]; subst.
  assert (K : (length l <= length (m1 ++ m2))%nat).
  { apply IH; auto.
    - intros x' Hx'. destruct (H x' (or_intror Hx')) as (y' & Hy' & R').
      exists y'. split; [|exact R']. apply in_app_or in Hy'. apply in_or_app. destruct Hy' as [Hy'|[->|Hy']]; auto.
      exfalso. apply Nx. rewrite (I x x' y' (or_introl eq_refl) (or_intror Hx') Rxy R'). exact Hx'.
    - intros a b c Ha Hb. apply I; now right. }
  rewrite app_length in *. simpl. lia.
Qed.

(** Clockwise triangles with disjoint interiors. *)
Definition tiles (at_ : N -> point) (out : list (N * N * N)) : Prop :=
  (forall t, In t out -> tri_clockwise at_ t) /\
  forall i j s t p, i <> j -> nth_error out i = Some s -> nth_error out j = Some t ->
    tri_inside at_ s p -> tri_inside at_ t p -> False.

Lemma valid_tiles at_ n out : valid_mesh at_ n out -> tiles at_ out.
Proof. intros V. split; [apply (vm_clockwise _ _ _ V)|apply (vm_disjoint _ _ _ V)]. Qed.

Lemma mesh_nodup at_ out : tiles at_ out -> NoDup out.
Proof.
  intros (W & V). apply NoDup_nth_error. intros i j Hi Hij. destruct (Nat.eq_dec i j) as [|Nij]; [assumption|exfalso].
  destruct (nth_error out i) as [t|] eqn:Et; [|apply nth_error_None in Et; lia].
  pose proof (W t (nth_error_In _ _ Et)) as C. pose proof (mid_inside at_ t C) as M.
  exact (V i j t t _ Nij Et (eq_sym Hij) M M).
Qed.

Lemma mesh_match at1 at2 out s s' t : tiles at1 out -> In s out -> In s' out ->
  same_triangle at1 at2 s t -> same_triangle at1 at2 s' t -> s = s'.
Proof.
  intros (W & V) H H' R R'. destruct (In_nth_error _ _ H) as (i & Ei). destruct (In_nth_error _ _ H') as (j & Ej).
  destruct (Nat.eq_dec i j) as [<-|Nij]; [congruence|exfalso].
  pose proof (mid_inside at1 s (W s H)) as M.
  apply (V i j s s' _ Nij Ei Ej M).
  apply (rotate_inside at2 at1 t s' _ (same_triangle_sym _ _ _ _ R')). exact (rotate_inside at1 at2 s t _ R M).
Qed.

Theorem delaunay_unique at1 at2 n1 n2 out1 out2 :
  same_points at1 at2 n1 n2 -> no_empty_circle_of_four at1 n1 ->
  tiles at1 out1 -> tiles at2 out2 ->
  (forall a b c, In (a, b, c) out1 -> (a < n1 /\ b < n1 /\ c < n1)%N) ->
  (forall a b c, In (a, b, c) out2 -> (a < n2 /\ b < n2 /\ c < n2)%N) ->
  delaunay at1 n1 out1 -> delaunay at2 n2 out2 ->
  (forall p, covered at1 out1 p <-> covered at2 out2 p) ->
  same_triangles at1 at2 out1 out2.
Proof.
  intros Sp Gp V1 V2 I1 I2 D1 D2 Cv.
  assert (Gp2 : no_empty_circle_of_four at2 n2).
  { intros a b c d Ha Hb Hc Hd Or Na Nb Nc Oc.
    destruct (proj2 Sp a Ha) as (a' & La & Qa). destruct (proj2 Sp b Hb) as (b' & Lb & Qb).
    destruct (proj2 Sp c Hc) as (c' & Lc & Qc). destruct (proj2 Sp d Hd) as (d' & Ld & Qd).
    destruct (Gp a' b' c' d' La Lb Lc Ld) as (v & Lv & K).
    - now rewrite (orient_same _ _ _ _ _ _ Qa Qb Qc).
    - intros F. apply Na. apply (same_place_trans _ _ _ (same_place_sym _ _ Qd)). exact (same_place_trans _ _ _ F Qa).
    - intros F. apply Nb. apply (same_place_trans _ _ _ (same_place_sym _ _ Qd)). exact (same_place_trans _ _ _ F Qb).
    - intros F. apply Nc. apply (same_place_trans _ _ _ (same_place_sym _ _ Qd)). exact (same_place_trans _ _ _ F Qc).
    - destruct Oc as (o & O1 & O2 & O3). exists o. unfold sqdist in *.
      destruct Qa as (Qa & Qa'), Qb as (Qb & Qb'), Qc as (Qc & Qc'), Qd as (Qd & Qd').
      now rewrite Qa, Qa', Qb, Qb', Qc, Qc', Qd, Qd'.
    - destruct (proj1 Sp v Lv) as (w & Lw & Q). exists w. split; [exact Lw|].
      exact (circle_same_all _ _ _ _ _ _ _ _ Qa Qb Qc Q K). }
  assert (A : forall s, In s out1 -> exists t, In t out2 /\ same_triangle at1 at2 s t).
  { intros s Hs. apply (tri_unique at1 at2 n1 n2 out1 out2 Sp D1 D2 (proj1 V1) (proj1 V2) I1 I2 Gp2 s Hs).
    apply Cv. exists s. split; [exact Hs|].
    pose proof (mid_inside at1 s (proj1 V1 s Hs)) as M. destruct s as ((a, b), c).
    simpl in M |- *. destruct M as (M1 & M2 & M3). repeat split; apply Qlt_le_weak; assumption. }
  assert (B : forall t, In t out2 -> exists s, In s out1 /\ same_triangle at2 at1 t s).
  { intros s Hs. apply (tri_unique at2 at1 n2 n1 out2 out1 (same_points_sym _ _ _ _ Sp) D2 D1 (proj1 V2) (proj1 V1) I2 I1 Gp s Hs).
    apply Cv. exists s. split; [exact Hs|].
    pose proof (mid_inside at2 s (proj1 V2 s Hs)) as M. destruct s as ((a, b), c).
    simpl in M |- *. destruct M as (M1 & M2 & M3). repeat split; apply Qlt_le_weak; assumption. }
  split; [exact A|split].
  - intros t Ht. destruct (B t Ht) as (s & Hs & R). exists s. split; [exact Hs|now apply same_triangle_sym].
  - apply Nat.le_antisymm.
    + apply (matched_length (same_triangle at1 at2) out1 out2 A (mesh_nodup _ _ V1)).
      intros s s' t Hs Hs'. exact (mesh_match at1 at2 out1 s s' t V1 Hs Hs').
    + apply (matched_length (same_triangle at2 at1) out2 out1 B (mesh_nodup _ _ V2)).
      intros s s' t Hs Hs'. exact (mesh_match at2 at1 out2 s s' t V2 Hs Hs').
Qed.
