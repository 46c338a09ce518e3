(** * AngleApi: a Delaunay triangulation has the widest angles; the pairs of vertices it joins;
    the effect of one more vertex. *)

From Coq Require Import ZArith NArith List Bool Lia QArith Lqa Permutation Reals.
From Verif Require Import Base BaseFacts Arith Types Utils Infinite Triangulation Constrained AnyDT Spec DTOut GridSpec InputSpec GridApi
  GridCdt SpecBox BoxGrid SpecUnique Unique UniqueGrid Charact SpecDomain SpecVisible VisibleGrid CCharact CDelApi AnyCDT SpecAngle AngleR Angle.
Import ListNotations.
Local Open Scope Q_scope.

Lemma is_tri_rot out a b c : is_tri out a b c -> is_tri out b c a.
Proof. unfold is_tri. tauto. Qed.

Lemma cw_rot a b c : clockwise a b c -> clockwise b c a.
Proof. unfold clockwise. assert (orient b c a == orient a b c) by (unfold orient; ring). lra. Qed.

Lemma is_tri_cw at_ out a b c : (forall t, In t out -> tri_clockwise at_ t) -> is_tri out a b c -> clockwise (at_ a) (at_ b) (at_ c).
Proof. intros W [H|[H|H]]; apply W in H; cbn in H; auto using cw_rot. Qed.

Lemma is_tri_ids out (n a b c : N) : (forall a b c, In (a, b, c) out -> (a < n /\ b < n /\ c < n)%N) -> is_tri out a b c ->
  (a < n /\ b < n /\ c < n)%N.
Proof. intros W [H|[H|H]]; apply W in H; tauto. Qed.

Lemma is_tri_covered at_ out a b c p : is_tri out a b c -> inside_or_on (at_ a) (at_ b) (at_ c) p -> covered at_ out p.
Proof. intros [H|[H|H]] (I1 & I2 & I3); eexists; (split; [exact H|]); repeat split; auto. Qed.

Lemma inside_on a b c p : strictly_inside a b c p -> inside_or_on a b c p.
Proof. intros (A & B & C). repeat split; lra. Qed.

(** ** Angles *)
Section Widest.
Variables (at_ : N -> point) (n : N) (out T : list (N * N * N)).
Hypothesis Rt : retriangulates at_ n out T.

(** An angle of the triangle a b c is at least as wide as one of T, if the corners of the
    triangles of T that meet its inside are not in its circumcircle. *)
Lemma wider a b c : is_tri out a b c -> (a < n)%N -> (b < n)%N -> clockwise (at_ a) (at_ b) (at_ c) ->
  (forall x y z p, is_tri T x y z -> strictly_inside (at_ a) (at_ b) (at_ c) p -> inside_or_on (at_ x) (at_ y) (at_ z) p ->
     ~ in_circumcircle (at_ a) (at_ b) (at_ c) (at_ z)) ->
  exists x y z, is_tri T x y z /\ (angle (at_ x) (at_ y) (at_ z) <= angle (at_ b) (at_ c) (at_ a))%R.
Proof.
  intros Ht La Lb C Out. destruct Rt as [_ Tc Te Cv].
  destruct (lext_near at_ (at_ a) (at_ b) (at_ c) T) as (e & He & Near).
  set (s := if Qlt_le_dec e (1 # 2) then e else 1 # 2).
  assert (Hs : 0 < s <= 1 # 2 /\ s <= e) by (unfold s; destruct (Qlt_le_dec e (1 # 2)); repeat split; lra).
  pose proof (near_inside _ _ _ s C (proj1 Hs)) as I. set (p := near (at_ a) (at_ b) (at_ c) s) in *.
  destruct (Cv p) as (t & Hin & It).
  { apply (is_tri_covered at_ out a b c); auto. now apply inside_on. }
  pose proof (Near s t ltac:(lra) Hin It) as L.
  destruct (start at_ n T Tc Te a (at_ b) (at_ c) t La L Hin) as (x & y & z & K1 & K2 & Sx & Cy & Hy & Hz).
  exists y, z, x. split; [now apply is_tri_rot|].
  assert (Ix : inside_or_on (at_ x) (at_ y) (at_ z) p).
  { unfold is_tri in K2. cbn [In] in K2. destruct t as ((u, v), w). cbn in It. destruct It as (I1 & I2 & I3).
    destruct K2 as [[K|[]]|[[K|[]]|[K|[]]]]; injection K as <- <- <-; repeat split; auto. }
  apply angle_le.
  - now apply cw_rot.
  - apply cw_rot. apply (is_tri_cw at_ T); auto.
  - apply (smaller_angle at_ n T Te a b c x y z); auto. apply (Out x y z p); auto.
Qed.

Lemma widest k : (forall a b c, is_tri out a b c -> (a < n /\ b < n /\ c < n)%N) ->
  (forall a b c, is_tri out a b c -> clockwise (at_ a) (at_ b) (at_ c)) ->
  (forall a b c x y z p, is_tri out a b c -> is_tri T x y z -> strictly_inside (at_ a) (at_ b) (at_ c) p ->
     inside_or_on (at_ x) (at_ y) (at_ z) p -> ~ in_circumcircle (at_ a) (at_ b) (at_ c) (at_ z)) ->
  angles_at_least at_ T k -> angles_at_least at_ out k.
Proof.
  intros Ids Cw Out Hk a b c Ht. apply is_tri_rot, is_tri_rot in Ht.
  destruct (Ids _ _ _ Ht) as (Lc & La & Lb).
  destruct (wider c a b Ht Lc La (Cw _ _ _ Ht)) as (x & y & z & Hxyz & L); [intros; now apply (Out _ _ _ x y z p)|].
  specialize (Hk x y z Hxyz). eapply Rle_trans; eauto.
Qed.
End Widest.

Lemma delaunay_widest at_ n out T k : (forall a b c, In (a, b, c) out -> (a < n /\ b < n /\ c < n)%N) ->
  (forall t, In t out -> tri_clockwise at_ t) -> delaunay at_ n out -> retriangulates at_ n out T ->
  angles_at_least at_ T k -> angles_at_least at_ out k.
Proof.
  intros Ids Cw Dl Rt. apply (widest at_ n out T Rt).
  - intros a b c. now apply is_tri_ids.
  - intros a b c. now apply is_tri_cw.
  - intros a b c x y z p Ht Hxyz _ _ K.
    assert (Lz : (z < n)%N) by (apply (is_tri_ids T n x y z); auto; apply (rt_ids _ _ _ _ Rt)).
    destruct Ht as [H|[H|H]]; apply (Dl _ _ _ z H Lz); auto using circle_rotate.
Qed.

(** With constraints that no triangle of T has inside. *)
Lemma visibly_widest at_ cs n out T k : (forall a b c, In (a, b, c) out -> (a < n /\ b < n /\ c < n)%N) ->
  (forall t, In t out -> tri_clockwise at_ t) -> visibly_delaunay at_ cs n out -> retriangulates at_ n out T ->
  (forall t p, In t T -> tri_inside at_ t p -> ~ on_constraint at_ cs p) ->
  angles_at_least at_ T k -> angles_at_least at_ out k.
Proof.
  intros Ids Cw Dl Rt Fr. apply (widest at_ n out T Rt).
  - intros a b c. now apply is_tri_ids.
  - intros a b c. now apply is_tri_cw.
  - intros a b c x y z p Ht Hxyz I J K.
    assert (Lz : (z < n)%N) by (apply (is_tri_ids T n x y z); auto; apply (rt_ids _ _ _ _ Rt)).
    assert (Cx : clockwise (at_ x) (at_ y) (at_ z)) by (apply (is_tri_cw at_ T); auto; apply (rt_clockwise _ _ _ _ Rt)).
    destruct (common_inside (at_ x) (at_ y) (at_ z) (at_ a) (at_ b) (at_ c) p Cx J I) as (q & Q1 & Q2).
    assert (Fr' : forall r, strictly_inside (at_ x) (at_ y) (at_ z) r -> ~ on_constraint at_ cs r).
    { intros r R. destruct Hxyz as [H|[H|H]]; apply (Fr _ r H); cbn; auto using inside_rotate. }
    assert (Sz : sees at_ cs q (at_ z)).
    { intros s Hs. apply Fr'. apply inside_along; auto. apply corner_on; auto. }
    destruct Ht as [H|[H|H]].
    + exact (Dl _ _ _ q z H Q2 Lz Sz K).
    + exact (Dl _ _ _ q z H (inside_rotate _ _ _ _ Q2) Lz Sz (circle_rotate _ _ _ _ K)).
    + exact (Dl _ _ _ q z H (inside_rotate _ _ _ _ (inside_rotate _ _ _ _ Q2)) Lz Sz (circle_rotate _ _ _ _ (circle_rotate _ _ _ _ K))).
Qed.

(** ** Edges *)
Lemma ray_between_z a b y z : clockwise a y z -> orient z a b == 0 -> orient a y b < 0 -> 0 < orient y z b ->
  exists s, 0 < s < 1 /\ same_place z (along a b s).
Proof.
  unfold clockwise. intros C H0 H1 H2.
  assert (Sum : orient a y b + orient y z b + orient z a b == orient a y z) by (unfold orient; ring).
  set (s := orient a y z / orient a y b).
  assert (Hs : s * orient a y b == orient a y z) by (unfold s; field; lra).
  exists s. split.
  - split.
    + destruct (Qlt_le_dec 0 s); auto. nra.
    + destruct (Qlt_le_dec s 1); auto. nra.
  - assert (Kx : orient a y b * (fst z - fst a) == orient a y z * (fst b - fst a) + orient z a b * (fst a - fst y)) by (unfold orient; ring).
    assert (Ky : orient a y b * (snd z - snd a) == orient a y z * (snd b - snd a) + orient z a b * (snd a - snd y)) by (unfold orient; ring).
    rewrite H0, <- Hs in Kx, Ky. assert (Nz : ~ orient a y b == 0) by lra.
    split; cbn [fst snd along].
    + assert (K : orient a y b * (fst z - fst a - s * (fst b - fst a)) == 0) by lra.
      apply Qmult_integral in K. destruct K; [contradiction|lra].
    + assert (K : orient a y b * (snd z - snd a - s * (snd b - snd a)) == 0) by lra.
      apply Qmult_integral in K. destruct K; [contradiction|lra].
Qed.

Lemma same_place_swap a b : same_place a b -> same_place b a.
Proof. intros (A & B). split; now symmetry. Qed.

Section Edges.
Variables (at_ : N -> point) (n : N) (out : list (N * N * N)).
Hypothesis Ids : forall a b c, In (a, b, c) out -> (a < n /\ b < n /\ c < n)%N.
Hypothesis Cw : forall t, In t out -> tri_clockwise at_ t.
Hypothesis Em : forall t v, In t out -> (v < n)%N -> tri_inside_or_on at_ t (at_ v) ->
  exists c, tri_corner t c /\ same_place (at_ c) (at_ v).
Hypothesis Dl : delaunay at_ n out.

(** A point between a and b is strictly inside a circle through both, so the circle of two
    vertices has none there. *)
Lemma none_between a b o v s : ~ same_place (at_ a) (at_ b) -> circle_of_two at_ n a b o -> (v < n)%N -> 0 < s < 1 ->
  same_place (at_ v) (along (at_ a) (at_ b) s) -> False.
Proof.
  intros Nab (O & Far) Lv Hs S.
  pose proof (sqdist_pos _ _ Nab) as P.
  pose proof (between_power o _ _ s O) as B.
  assert (K : sqdist o (at_ v) == sqdist o (along (at_ a) (at_ b) s)).
  { destruct S as (S1 & S2). unfold sqdist. now rewrite S1, S2. }
  assert (0 < s * (1 - s) * sqdist (at_ a) (at_ b)) by (apply Qmult_lt_0_compat; [nra|auto]).
  assert (N1 : ~ same_place (at_ v) (at_ a)).
  { intros (Q1 & Q2). assert (sqdist o (at_ v) == sqdist o (at_ a)) by (unfold sqdist; now rewrite Q1, Q2). lra. }
  assert (N2 : ~ same_place (at_ v) (at_ b)).
  { intros (Q1 & Q2). assert (sqdist o (at_ v) == sqdist o (at_ b)) by (unfold sqdist; now rewrite Q1, Q2). lra. }
  specialize (Far v Lv N1 N2). lra.
Qed.

Lemma circle_joined a b o : (a < n)%N -> (b < n)%N -> ~ same_place (at_ a) (at_ b) -> circle_of_two at_ n a b o ->
  (forall s, 0 < s < 1 -> covered at_ out (along (at_ a) (at_ b) s)) -> joined at_ out a b.
Proof.
  intros La Lb Nab Co Cv.
  destruct (lext_near at_ (at_ a) (at_ b) (at_ a) out) as (e & He & Near).
  set (s := if Qlt_le_dec e (1 # 2) then e else 1 # 2).
  assert (Hs : 0 < s <= 1 # 2 /\ s <= e) by (unfold s; destruct (Qlt_le_dec e (1 # 2)); repeat split; lra).
  destruct (Cv s ltac:(lra)) as (t & Hin & It).
  assert (It' : tri_inside_or_on at_ t (near (at_ a) (at_ b) (at_ a) s)).
  { apply (covers_same at_ t (along (at_ a) (at_ b) s)); auto. split; unfold near, along; cbn [fst snd]; ring. }
  pose proof (Near s t ltac:(lra) Hin It') as L.
  destruct (start at_ n out Cw Em a (at_ b) (at_ a) t La L Hin) as (x & y & z & K1 & _ & Sx & Cy & Hy & Hz).
  destruct (is_tri_ids out n x y z Ids K1) as (_ & Ly & Lz).
  assert (Emp : inside_or_on (at_ a) (at_ y) (at_ z) (at_ b) -> same_place (at_ x) (at_ b) \/ same_place (at_ y) (at_ b) \/ same_place (at_ z) (at_ b)).
  { intros I. apply (empty_tri at_ n out Em x y z b); auto. destruct Sx as (S1 & S2). unfold inside_or_on, orient in *. now rewrite S1, S2. }
  assert (Nxb : ~ same_place (at_ x) (at_ b)).
  { intros K. apply Nab. apply (same_place_trans _ (at_ x)); auto. now apply same_place_swap. }
  assert (Jy : same_place (at_ y) (at_ b) -> joined at_ out a b) by (intros K; exists x, y, z; auto).
  assert (Jz : same_place (at_ z) (at_ b) -> joined at_ out a b).
  { intros K. exists z, x, y. split; [now apply is_tri_rot, is_tri_rot|]. right. split; auto. }
  assert (Hy' : orient (at_ a) (at_ y) (at_ b) <= 0) by (destruct Hy as [K|(K & _)]; lra).
  assert (Hz' : orient (at_ z) (at_ a) (at_ b) <= 0) by (destruct Hz as [K|(K & _)]; lra).
  destruct (Qlt_le_dec 0 (orient (at_ y) (at_ z) (at_ b))) as [Lo|Lo].
  2:{ destruct Emp as [K|[K|K]]; [repeat split; auto|contradiction|auto|auto]. }
  destruct Hy as [Hy|(Hy & _)], Hz as [Hz|(Hz & _)].
  - (* the segment crosses the third side *)
    exfalso. pose proof Cy as Cy0. unfold clockwise in Cy0.
    destruct (center_exists (at_ a) (at_ y) (at_ z)) as (o' & A1 & A2); [lra|].
    assert (Nb : ~ in_circumcircle (at_ a) (at_ y) (at_ z) (at_ b)).
    { intros K. assert (K' : in_circumcircle (at_ x) (at_ y) (at_ z) (at_ b)).
      { destruct K as (w & W1 & W2 & W3). exists w. destruct Sx as (S1 & S2). unfold sqdist in *. rewrite S1, S2. auto. }
      destruct K1 as [H|[H|H]]; apply (Dl _ _ _ b H Lb); auto using circle_rotate. }
    pose proof (outside_power _ _ _ o' (at_ b) A1 A2 Nb) as Pb.
    destruct Co as (O & Far).
    assert (Py : 0 < power o (at_ a) (at_ y)).
    { unfold power. cut (sqdist o (at_ a) < sqdist o (at_ y)); [lra|]. apply Far; auto.
      - intros (Q1 & Q2). unfold orient in Cy0. rewrite Q1, Q2 in Cy0. lra.
      - intros (Q1 & Q2). unfold orient in Hy. rewrite Q1, Q2 in Hy. lra. }
    assert (Pz : 0 < power o (at_ a) (at_ z)).
    { unfold power. cut (sqdist o (at_ a) < sqdist o (at_ z)); [lra|]. apply Far; auto.
      - intros (Q1 & Q2). unfold orient in Cy0. rewrite Q1, Q2 in Cy0. lra.
      - intros (Q1 & Q2). unfold orient in Hz. rewrite Q1, Q2 in Hz. lra. }
    pose proof (power_bary o (at_ a) o' (at_ a) (at_ a) (at_ y) (at_ z) (at_ b)) as B.
    assert (Qa : power o (at_ a) (at_ a) == 0) by (unfold power; lra). assert (Qb : power o (at_ a) (at_ b) == 0) by (unfold power; lra).
    assert (Qa' : power o' (at_ a) (at_ a) == 0) by (unfold power; lra). assert (Qy : power o' (at_ a) (at_ y) == 0) by (unfold power; lra).
    assert (Qz : power o' (at_ a) (at_ z) == 0) by (unfold power; lra).
    rewrite Qa, Qb, Qa', Qy, Qz in B.
    assert (M1 : power o (at_ a) (at_ y) * orient (at_ z) (at_ a) (at_ b) < 0) by (apply mul_neg; auto).
    assert (M2 : power o (at_ a) (at_ z) * orient (at_ a) (at_ y) (at_ b) < 0) by (apply mul_neg; auto).
    pose proof (neg_mul _ (orient (at_ a) (at_ y) (at_ z)) Pb ltac:(lra)) as M3. lra.
  - exfalso. destruct (ray_between_z _ _ _ _ Cy Hz Hy Lo) as (r & Hr & Sr). exact (none_between a b o z r Nab Co Lz Hr Sr).
  - exfalso. destruct (ray_between _ _ _ _ Cy Hy Hz Lo) as (r & Hr & Sr). exact (none_between a b o y r Nab Co Ly Hr Sr).
  - exfalso. assert (Sum : orient (at_ a) (at_ y) (at_ b) + orient (at_ y) (at_ z) (at_ b) + orient (at_ z) (at_ a) (at_ b) == orient (at_ a) (at_ y) (at_ z))
      by (unfold orient; ring). unfold clockwise in Cy. lra.
Qed.

(** A closest pair of two classes has the circle on its diameter to itself. *)
Lemma closest_circle class a b : (a < n)%N -> (b < n)%N -> ~ same_place (at_ a) (at_ b) -> closest_across at_ n class a b ->
  circle_of_two at_ n a b (along (at_ a) (at_ b) (1 # 2)).
Proof.
  intros La Lb Nab (Ca & Cb & Min). set (o := along (at_ a) (at_ b) (1 # 2)).
  assert (O1 : sqdist o (at_ a) == (1 # 4) * sqdist (at_ a) (at_ b)) by (unfold o, sqdist, along; cbn [fst snd]; field).
  assert (O2 : sqdist o (at_ b) == (1 # 4) * sqdist (at_ a) (at_ b)) by (unfold o, sqdist, along; cbn [fst snd]; field).
  split; [lra|]. intros v Lv Na Nb. apply Qnot_le_lt. intros K.
  assert (Par : sqdist (at_ v) (at_ a) + sqdist (at_ v) (at_ b) == 2 * sqdist o (at_ v) + (1 # 2) * sqdist (at_ a) (at_ b))
    by (unfold o, sqdist, along; cbn [fst snd]; field).
  pose proof (sqdist_pos _ _ Na). pose proof (sqdist_pos _ _ Nb).
  destruct (class v) eqn:Cl.
  - specialize (Min v b Lv Lb Cl Cb). lra.
  - specialize (Min a v La Lv Ca Cl). assert (sqdist (at_ a) (at_ v) == sqdist (at_ v) (at_ a)) by (unfold sqdist; ring). lra.
Qed.
End Edges.

(** ** A closest pair exists *)
Lemma argmin {A : Type} (f : A -> Q) (l : list A) : l <> [] -> exists x, In x l /\ forall y, In y l -> f x <= f y.
Proof.
  induction l as [|a l IH]; [congruence|]. intros _. destruct l as [|b l].
  - exists a. split; [now left|]. intros y [<-|[]]. lra.
  - destruct IH as (x & Hx & Min); [congruence|]. destruct (Qlt_le_dec (f a) (f x)) as [K|K].
    + exists a. split; [now left|]. intros y [<-|Hy]; [lra|]. specialize (Min y Hy). lra.
    + exists x. split; [now right|]. intros y [<-|Hy]; [lra|]. now apply Min.
Qed.

Lemma closest_exists (at_ : N -> point) n class u0 v0 : (u0 < n)%N -> (v0 < n)%N -> class u0 = true -> class v0 = false ->
  exists u v, (u < n)%N /\ (v < n)%N /\ closest_across at_ n class u v.
Proof.
  intros Lu Lv Cu Cv. set (ids := map N.of_nat (seq 0 (N.to_nat n))).
  assert (I : forall x, (x < n)%N <-> In x ids).
  { intros x. unfold ids. rewrite in_map_iff. split.
    - intros H. exists (N.to_nat x). split; [apply N2Nat.id|apply in_seq; lia].
    - intros (k & <- & H). apply in_seq in H. lia. }
  set (l := list_prod (filter class ids) (filter (fun x => negb (class x)) ids)).
  destruct (argmin (fun p => sqdist (at_ (fst p)) (at_ (snd p))) l) as ((u, v) & H & Min).
  - intros E. assert (K : In (u0, v0) l).
    { apply in_prod; apply filter_In; split; try (apply I; auto); auto. now rewrite Cv. }
    rewrite E in K. destruct K.
  - apply in_prod_iff in H. destruct H as (Hu & Hv). apply filter_In in Hu, Hv. destruct Hu as (Hu & Cu'). destruct Hv as (Hv & Cv').
    apply negb_true_iff in Cv'. exists u, v. split; [now apply I|]. split; [now apply I|]. split; auto. split; auto.
    intros x y Lx Ly Cx Cy. apply (Min (x, y)). apply in_prod; apply filter_In; split; try (apply I; auto); auto. now rewrite Cy.
Qed.

(** ** One more point *)
Lemma circle_all a b c v a' b' c' v' : same_place a a' -> same_place b b' -> same_place c c' -> same_place v v' ->
  in_circumcircle a b c v -> in_circumcircle a' b' c' v'.
Proof.
  intros (A & A') (B & B') (C & C') (V & V') (o & H1 & H2 & H3). exists o. unfold sqdist in *.
  rewrite <- A, <- A', <- B, <- B', <- C, <- C', <- V, <- V'. auto.
Qed.

Lemma one_more_empty at1 at2 n1 n2 w a b c a' b' c' : one_more_point at1 at2 n1 n2 w ->
  same_place (at1 a) (at2 a') -> same_place (at1 b) (at2 b') -> same_place (at1 c) (at2 c') ->
  (empty_circle at2 n2 a' b' c' <-> empty_circle at1 n1 a b c /\ ~ in_circumcircle (at1 a) (at1 b) (at1 c) w).
Proof.
  intros (O1 & (u0 & L0 & S0) & O2) A B C. split.
  - intros H. split.
    + intros v Lv K. destruct (O1 v Lv) as (u & Lu & S). apply (H u Lu). exact (circle_all _ _ _ _ _ _ _ _ A B C S K).
    + intros K. apply (H u0 L0). exact (circle_all _ _ _ _ _ _ _ _ A B C S0 K).
  - intros (H & Hw) u Lu K. apply same_place_swap in A, B, C. destruct (O2 u Lu) as [S|(v & Lv & S)]; apply same_place_swap in S.
    + apply Hw. exact (circle_all _ _ _ _ _ _ _ _ A B C S K).
    + apply (H v Lv). exact (circle_all _ _ _ _ _ _ _ _ A B C S K).
Qed.

(** ** The inputs of [InputSpec.v] *)
Local Open Scope N_scope.

Lemma box_convex (at_ : N -> point) out a c : (forall p, covered at_ out p <-> in_box (at_ a) (at_ c) p) -> convex_area at_ out.
Proof. intros C x y s Hx Hy Hs. apply C in Hx, Hy. apply C. now apply in_box_convex. Qed.

Lemma grid_widest (E : Env) (vs : list vertex) at_ bound fuel bins out T k : exact_input vs at_ bound -> 2 * lenN vs + 2 <= idmax ->
  (4 * length vs + 12 <= fuel)%nat ->
  triangulation_from_2d_vertices fuel bins vs = Ret out -> delaunay at_ (lenN vs) out ->
  retriangulates at_ (lenN vs) out T -> angles_at_least at_ T k -> angles_at_least at_ out k.
Proof.
  intros G Hid Hf R Dl. destruct (grid_valid vs at_ bound G Hid fuel bins out Hf R) as (V & _).
  apply delaunay_widest; auto.
  - apply (proj1 (dt_ids fuel bins vs out ltac:(lia) R)).
  - apply (vm_clockwise _ _ _ V).
Qed.

Lemma grid_box_widest (E : Env) (vs : list vertex) at_ bound fuel n a b c d : exact_input vs at_ bound -> 2 * lenN vs + 2 <= idmax ->
  (4 * length vs + 12 <= fuel)%nat -> (1 <= bound)%Z ->
  lenN vs = n + 4 -> Permutation [a; b; c; d] [n; n + 1; n + 2; n + 3] -> box_corners (at_ a) (at_ b) (at_ c) (at_ d) ->
  (forall v, v < n -> in_box (at_ a) (at_ c) (at_ v)) ->
  exists out, triangulation_from_2d_vertices fuel 1 vs = Ret out /\
    forall T k, retriangulates at_ (lenN vs) out T -> angles_at_least at_ T k -> angles_at_least at_ out k.
Proof.
  intros G Hi Hf Hb L P B Hin.
  destruct (box_out E vs at_ bound fuel n a b c d G Hi Hf Hb L P B Hin) as (out & R & _ & Dl).
  exists out. split; [exact R|]. intros T k. exact (grid_widest E vs at_ bound fuel 1 out T k G Hi Hf R Dl).
Qed.

Lemma grid_joined (E : Env) (vs : list vertex) at_ bound fuel bins out : exact_input vs at_ bound -> 2 * lenN vs + 2 <= idmax ->
  (4 * length vs + 12 <= fuel)%nat ->
  triangulation_from_2d_vertices fuel bins vs = Ret out -> delaunay at_ (lenN vs) out ->
  (forall v, v < lenN vs -> covered at_ out (at_ v)) -> convex_area at_ out ->
  forall a b o, a < lenN vs -> b < lenN vs -> ~ same_place (at_ a) (at_ b) -> circle_of_two at_ (lenN vs) a b o -> joined at_ out a b.
Proof.
  intros G Hid Hf R Dl Cv Cx a b o La Lb Nab Co. destruct (grid_valid vs at_ bound G Hid fuel bins out Hf R) as (V & _).
  apply (circle_joined at_ (lenN vs) out) with (o := o); auto.
  - apply (proj1 (dt_ids fuel bins vs out ltac:(lia) R)).
  - apply (vm_clockwise _ _ _ V).
  - apply (vm_empty _ _ _ V).
  - intros s Hs. apply Cx; auto. lra.
Qed.

Lemma grid_closest (E : Env) (vs : list vertex) at_ bound fuel bins out : exact_input vs at_ bound -> 2 * lenN vs + 2 <= idmax ->
  (4 * length vs + 12 <= fuel)%nat ->
  triangulation_from_2d_vertices fuel bins vs = Ret out -> delaunay at_ (lenN vs) out ->
  (forall v, v < lenN vs -> covered at_ out (at_ v)) -> convex_area at_ out ->
  forall class a b, a < lenN vs -> b < lenN vs -> ~ same_place (at_ a) (at_ b) -> closest_across at_ (lenN vs) class a b -> joined at_ out a b.
Proof.
  intros G Hid Hf R Dl Cv Cx class a b La Lb Nab Co.
  apply (grid_joined E vs at_ bound fuel bins out G Hid Hf R Dl Cv Cx a b (along (at_ a) (at_ b) (1 # 2)) La Lb Nab). now apply (closest_circle at_ _ class).
Qed.

Lemma grid_connected (E : Env) (vs : list vertex) at_ bound fuel bins out : exact_input vs at_ bound -> 2 * lenN vs + 2 <= idmax ->
  (4 * length vs + 12 <= fuel)%nat ->
  triangulation_from_2d_vertices fuel bins vs = Ret out -> delaunay at_ (lenN vs) out ->
  (forall v, v < lenN vs -> covered at_ out (at_ v)) -> convex_area at_ out ->
  forall class : N -> bool, (forall u v, same_place (at_ u) (at_ v) -> class u = class v) ->
    (exists u, u < lenN vs /\ class u = true) -> (exists v, v < lenN vs /\ class v = false) ->
    exists u v, u < lenN vs /\ v < lenN vs /\ class u = true /\ class v = false /\ joined at_ out u v.
Proof.
  intros G Hid Hf R Dl Cv Cx class Pl (u0 & Lu & Cu) (v0 & Lv & Cv0).
  destruct (closest_exists at_ (lenN vs) class u0 v0 Lu Lv Cu Cv0) as (u & v & Lu' & Lv' & Cl).
  exists u, v. pose proof Cl as (A & B & _). repeat (split; [assumption|]).
  apply (grid_closest E vs at_ bound fuel bins out G Hid Hf R Dl Cv Cx class u v Lu' Lv'); auto.
  intros S. apply Pl in S. congruence.
Qed.

Lemma grid_box_joined (E : Env) (vs : list vertex) at_ bound fuel n a b c d : exact_input vs at_ bound -> 2 * lenN vs + 2 <= idmax ->
  (4 * length vs + 12 <= fuel)%nat -> (1 <= bound)%Z ->
  lenN vs = n + 4 -> Permutation [a; b; c; d] [n; n + 1; n + 2; n + 3] -> box_corners (at_ a) (at_ b) (at_ c) (at_ d) ->
  (forall v, v < n -> in_box (at_ a) (at_ c) (at_ v)) ->
  exists out, triangulation_from_2d_vertices fuel 1 vs = Ret out /\
    forall u v, u < lenN vs -> v < lenN vs -> ~ same_place (at_ u) (at_ v) ->
      (exists o, circle_of_two at_ (lenN vs) u v o) \/ (exists class, closest_across at_ (lenN vs) class u v) -> joined at_ out u v.
Proof.
  intros G Hi Hf Hb L P B Hin.
  destruct (box_out E vs at_ bound fuel n a b c d G Hi Hf Hb L P B Hin) as (out & R & C & Dl).
  exists out. split; [exact R|]. destruct (box_all at_ n a b c d P B Hin) as (_ & All). rewrite <- L in All.
  assert (Cv : forall v, v < lenN vs -> covered at_ out (at_ v)) by (intros v Hv; apply C; auto).
  pose proof (box_convex at_ out a c C) as Cx.
  intros u v Lu Lv Nuv [(o & Co)|(class & Cl)].
  - exact (grid_joined E vs at_ bound fuel 1 out G Hi Hf R Dl Cv Cx u v o Lu Lv Nuv Co).
  - exact (grid_closest E vs at_ bound fuel 1 out G Hi Hf R Dl Cv Cx class u v Lu Lv Nuv Cl).
Qed.

(** One more point: of the triangles between the old vertices exactly those with the new point in
    their circumcircle disappear. *)
Lemma exactly_one_more (E1 E2 : Env) (vs1 : list (@vertex E1)) (vs2 : list (@vertex E2)) at1 at2 bound1 bound2 fuel1 fuel2 bins1 bins2 out1 out2 w :
  exact_input (E := E1) vs1 at1 bound1 -> exact_input (E := E2) vs2 at2 bound2 ->
  2 * lenN vs1 + 2 <= @idmax E1 -> 2 * lenN vs2 + 2 <= @idmax E2 ->
  (4 * length vs1 + 12 <= fuel1)%nat -> (4 * length vs2 + 12 <= fuel2)%nat ->
  no_empty_circle_of_four at1 (lenN vs1) -> no_empty_circle_of_four at2 (lenN vs2) ->
  triangulation_from_2d_vertices (E := E1) fuel1 bins1 vs1 = Ret out1 -> triangulation_from_2d_vertices (E := E2) fuel2 bins2 vs2 = Ret out2 ->
  delaunay at1 (lenN vs1) out1 -> delaunay at2 (lenN vs2) out2 ->
  (forall v, v < lenN vs1 -> covered at1 out1 (at1 v)) -> (forall v, v < lenN vs2 -> covered at2 out2 (at2 v)) ->
  convex_area at1 out1 -> convex_area at2 out2 -> one_more_point at1 at2 (lenN vs1) (lenN vs2) w ->
  forall x y z x' y' z', x < lenN vs1 -> y < lenN vs1 -> z < lenN vs1 -> x' < lenN vs2 -> y' < lenN vs2 -> z' < lenN vs2 ->
    same_place (at1 x) (at2 x') -> same_place (at1 y) (at2 y') -> same_place (at1 z) (at2 z') -> clockwise (at1 x) (at1 y) (at1 z) ->
    (triangle_at at2 out2 x' y' z' <-> triangle_at at1 out1 x y z /\ ~ in_circumcircle (at1 x) (at1 y) (at1 z) w).
Proof.
  intros G1 G2 I1 I2 F1 F2 P1 P2 R1 R2 D1 D2 V1 V2 X1 X2 O x y z x' y' z' Lx Ly Lz Lx' Ly' Lz' Sx Sy Sz C.
  assert (C' : clockwise (at2 x') (at2 y') (at2 z')).
  { unfold clockwise in *. rewrite <- (orient_same _ _ _ _ _ _ Sx Sy Sz). exact C. }
  rewrite (grid_exactly E2 vs2 at2 bound2 fuel2 bins2 out2 G2 I2 F2 P2 R2 D2 V2 X2 x' y' z' Lx' Ly' Lz' C').
  rewrite (grid_exactly E1 vs1 at1 bound1 fuel1 bins1 out1 G1 I1 F1 P1 R1 D1 V1 X1 x y z Lx Ly Lz C).
  exact (one_more_empty at1 at2 _ _ w x y z x' y' z' O Sx Sy Sz).
Qed.

Lemma grid_box_one_more (E1 E2 : Env) (vs1 : list (@vertex E1)) (vs2 : list (@vertex E2)) at1 at2 bound1 bound2 fuel1 fuel2
    n1 n2 a b c d a' b' c' d' w :
  exact_input (E := E1) vs1 at1 bound1 -> exact_input (E := E2) vs2 at2 bound2 ->
  2 * lenN vs1 + 2 <= @idmax E1 -> 2 * lenN vs2 + 2 <= @idmax E2 ->
  (4 * length vs1 + 12 <= fuel1)%nat -> (4 * length vs2 + 12 <= fuel2)%nat -> (1 <= bound1)%Z -> (1 <= bound2)%Z ->
  lenN vs1 = n1 + 4 -> Permutation [a; b; c; d] [n1; n1 + 1; n1 + 2; n1 + 3] ->
  box_corners (at1 a) (at1 b) (at1 c) (at1 d) -> (forall v, v < n1 -> in_box (at1 a) (at1 c) (at1 v)) ->
  lenN vs2 = n2 + 4 -> Permutation [a'; b'; c'; d'] [n2; n2 + 1; n2 + 2; n2 + 3] ->
  box_corners (at2 a') (at2 b') (at2 c') (at2 d') -> (forall v, v < n2 -> in_box (at2 a') (at2 c') (at2 v)) ->
  no_empty_circle_of_four at1 (lenN vs1) -> no_empty_circle_of_four at2 (lenN vs2) ->
  one_more_point at1 at2 (lenN vs1) (lenN vs2) w ->
  exists out1 out2, triangulation_from_2d_vertices (E := E1) fuel1 1 vs1 = Ret out1 /\
    triangulation_from_2d_vertices (E := E2) fuel2 1 vs2 = Ret out2 /\
    forall x y z x' y' z', x < lenN vs1 -> y < lenN vs1 -> z < lenN vs1 -> x' < lenN vs2 -> y' < lenN vs2 -> z' < lenN vs2 ->
      same_place (at1 x) (at2 x') -> same_place (at1 y) (at2 y') -> same_place (at1 z) (at2 z') -> clockwise (at1 x) (at1 y) (at1 z) ->
      (triangle_at at2 out2 x' y' z' <-> triangle_at at1 out1 x y z /\ ~ in_circumcircle (at1 x) (at1 y) (at1 z) w).
Proof.
  intros G1 G2 I1 I2 F1 F2 B1 B2 L1 Pm1 Bx1 In1 L2 Pm2 Bx2 In2 P1 P2 O.
  destruct (box_out E1 vs1 at1 bound1 fuel1 n1 a b c d G1 I1 F1 B1 L1 Pm1 Bx1 In1) as (out1 & R1 & C1 & D1).
  destruct (box_out E2 vs2 at2 bound2 fuel2 n2 a' b' c' d' G2 I2 F2 B2 L2 Pm2 Bx2 In2) as (out2 & R2 & C2 & D2).
  destruct (box_all at1 n1 a b c d Pm1 Bx1 In1) as (_ & All1). rewrite <- L1 in All1.
  destruct (box_all at2 n2 a' b' c' d' Pm2 Bx2 In2) as (_ & All2). rewrite <- L2 in All2.
  exists out1, out2. split; [exact R1|]. split; [exact R2|].
  apply (exactly_one_more E1 E2 vs1 vs2 at1 at2 bound1 bound2 fuel1 fuel2 1 1 out1 out2 w); auto.
  - intros v Hv. apply C1. auto.
  - intros v Hv. apply C2. auto.
  - exact (box_convex at1 out1 a c C1).
  - exact (box_convex at2 out2 a' c' C2).
Qed.

(** ** Constraints *)
Section Constrained.
Context {E : Env}.
Variables (vs : list vertex) (px py : N -> Q) (bound : Z).
Notation at_ := (pair_at px py).
Hypothesis G : exact_input vs at_ bound.
Hypothesis Hid : 2 * lenN vs + 2 <= idmax.
Variables (fuel : nat) (bins : N).
Hypothesis Hq : ((2 * length vs + 4) * (2 * length vs + 4) <= fuel)%nat.

Lemma grid_cwidest cs out T k : constrained_triangulation_from_2d_vertices fuel bins vs cs = Ret out ->
  visibly_delaunay at_ cs (lenN vs) out -> retriangulates at_ (lenN vs) out T ->
  (forall t p, In t T -> tri_inside at_ t p -> ~ on_constraint at_ cs p) ->
  angles_at_least at_ T k -> angles_at_least at_ out k.
Proof.
  intros R Dl Rt Fr.
  assert (Hf : (4 * length vs + 12 <= fuel)%nat) by nia.
  pose proof (grid_cdt_valid vs px py bound G Hid fuel bins Hf cs out R) as V.
  apply (visibly_widest at_ cs (lenN vs)); auto.
  - apply (proj1 (cdt_ids fuel bins vs cs out ltac:(lia) R)).
  - apply (vm_clockwise _ _ _ V).
Qed.
End Constrained.
