(** * PredApi: the predicates of src/utils.rs on the coordinates of [GridSpec.v]. *)

From Coq Require Import ZArith NArith List Bool Lia QArith Qabs Lqa.
From Verif Require Import Base BaseFacts Arith Types Utils Geom Exact Rep GridExact Spec F64 QEnv QExact DTOut Norm
  GridSpec GridNum Pred.
Import ListNotations.
Local Open Scope Q_scope.

Lemma LZ_coord {E : Env} rep repr pb ep (R : @Rep E rep repr pb ep) B x q :
  rep x q -> (exists z, q == inject_Z z /\ (Z.abs z <= B)%Z) -> LZ rep B 0 x q.
Proof.
  intros H (z & Z1 & Z2). exists z. split; [exact Z2|]. split; [|exact Z1].
  exact (rp_compat _ _ _ _ R _ _ _ H Z1).
Qed.

Lemma numbers_levels E val bound B : numbers E val bound -> (0 <= B)%Z -> (B ^ 2 <= bound)%Z ->
  exists L, @Levels E L /\
    (forall x q, val x q -> (exists z, q == inject_Z z /\ (Z.abs z <= B)%Z) -> L 0%nat x q) /\
    ((16 * B ^ 4 <= bound)%Z -> Levels5 L).
Proof.
  intros Nu B0 HB. destruct (numbers_rep _ _ _ Nu) as (rep & repr & pb & ep & R & -> & Hv).
  assert (P : (2 ^ (pb - 7) = 8 * 2 ^ (pb - 10))%Z).
  { pose proof (rr_bits _ _ _ _ R). replace (pb - 7)%Z with (3 + (pb - 10))%Z by ring. rewrite Z.pow_add_r by lia. reflexivity. }
  exists (LZ rep B). split; [apply (LZ_levels _ _ _ _ R); lia|]. split.
  - intros x q H K. apply (LZ_coord _ _ _ _ R); auto. now apply Hv.
  - intros H. apply (LZ_levels5 _ _ _ _ R); lia.
Qed.

Lemma coords_levels E c : exact_coords E c -> exists L, @Levels E L /\ forall x q, c x q -> L 0%nat x q.
Proof.
  destruct 1 as [maxid|maxid|maxid].
  - exists LQ. split; [apply Q_levels|auto].
  - destruct (numbers_levels _ _ _ (2 ^ 20) (Num_f64 maxid)) as (L & H1 & H2 & _); [lia|lia|].
    exists L. split; auto. intros x q (A & B). now apply H2.
  - destruct (numbers_levels _ _ _ (2 ^ 6) (Num_f32 maxid)) as (L & H1 & H2 & _); [lia|lia|].
    exists L. split; auto. intros x q (A & B). now apply H2.
Qed.

Lemma circle_levels E c : exact_circle_coords E c ->
  exists L, @Levels E L /\ Levels5 L /\ forall x q, c x q -> L 0%nat x q.
Proof.
  destruct 1 as [maxid|maxid|maxid].
  - exists LQ. split; [apply Q_levels|]. split; [apply Q_levels5|auto].
  - destruct (numbers_levels _ _ _ (2 ^ 9) (Num_f64 maxid)) as (L & H1 & H2 & H3); [lia|lia|].
    exists L. split; auto. split; [apply H3; lia|]. intros x q (A & B). now apply H2.
  - destruct (numbers_levels _ _ _ (2 ^ 2) (Num_f32 maxid)) as (L & H1 & H2 & H3); [lia|lia|].
    exists L. split; auto. split; [apply H3; lia|]. intros x q (A & B). now apply H2.
Qed.

Section Coords.
Variables (E : Env) (c : @F E -> Q -> Prop).
Hypothesis C : exact_coords E c.

Lemma api_orientation vp vq vr p q r : vertex_is c vp p -> vertex_is c vq q -> vertex_is c vr r ->
  let o := triplet_orientation vp vq vr in
  (o = Clockwise <-> orient p q r < 0) /\ (o = CounterClockwise <-> 0 < orient p q r) /\
  (o = Colinear <-> orient p q r == 0).
Proof.
  destruct (coords_levels _ _ C) as (L & H & HL). intros (P1 & P2) (Q1 & Q2) (R1 & R2) o.
  pose proof (orientation_exact L H vp vq vr p q r (conj (HL _ _ P1) (HL _ _ P2)) (conj (HL _ _ Q1) (HL _ _ Q2)) (conj (HL _ _ R1) (HL _ _ R2))) as O.
  fold o in O. clearbody o. destruct o; cbn [os] in O; repeat split; intros; try discriminate; try reflexivity; try lra.
Qed.

Lemma api_side va vb vp a b p : vertex_is c va a -> vertex_is c vb b -> vertex_is c vp p ->
  let s := test_point_edge_side (va, vb) vp in
  (is_on_left_side s = true <-> 0 < orient a b p) /\ (is_on_right_side s = true <-> orient a b p < 0) /\
  (is_colinear s = true <-> orient a b p == 0) /\
  (is_point_on_right_side_of_edge (va, vb) vp = true <-> orient a b p <= 0).
Proof.
  destruct (coords_levels _ _ C) as (L & H & HL). intros (P1 & P2) (Q1 & Q2) (R1 & R2).
  apply (side_exact L H); split; auto.
Qed.

Lemma bool_iff (x y : bool) (P : Prop) : (x = true <-> P) -> (y = true <-> P) -> x = y.
Proof. destruct x, y; intuition. Qed.

Lemma api_side_anti va vb vp a b p : vertex_is c va a -> vertex_is c vb b -> vertex_is c vp p ->
  is_on_left_side (test_point_edge_side (vb, va) vp) = is_on_right_side (test_point_edge_side (va, vb) vp) /\
  is_colinear (test_point_edge_side (vb, va) vp) = is_colinear (test_point_edge_side (va, vb) vp) /\
  (is_on_left_side (test_point_edge_side (va, vb) vp) = true <-> triplet_orientation va vb vp = CounterClockwise) /\
  (is_on_right_side (test_point_edge_side (va, vb) vp) = true <-> triplet_orientation va vb vp = Clockwise).
Proof.
  intros A B P. destruct (api_side _ _ _ _ _ _ A B P) as (S1 & S2 & S3 & _).
  destruct (api_side _ _ _ _ _ _ B A P) as (T1 & T2 & T3 & _).
  destruct (api_orientation _ _ _ _ _ _ A B P) as (O1 & O2 & _).
  assert (Q : orient b a p == - orient a b p) by (unfold orient; ring).
  split; [|split; [|split]].
  - apply (bool_iff _ _ (orient a b p < 0)); auto. rewrite T1, Q. split; lra.
  - apply (bool_iff _ _ (orient a b p == 0)); auto. rewrite T3, Q. split; lra.
  - now rewrite S1, O2.
  - now rewrite S2, O1.
Qed.

Lemma api_intersect va vb vc vd p q r s : vertex_is c va p -> vertex_is c vb q -> vertex_is c vc r -> vertex_is c vd s ->
  let i := egdes_intersect (va, vb) (vc, vd) in
  (i = ICrossing <-> segments_cross p q r s) /\
  (i = ISharedEdges <-> same_place p r \/ same_place p s \/ same_place q r \/ same_place q s) /\
  (i = IOnEdgeTip <-> ~ (same_place p r \/ same_place p s \/ same_place q r \/ same_place q s) /\
     (on_closed_segment p q r \/ on_closed_segment p q s \/ on_closed_segment r s p \/ on_closed_segment r s q)).
Proof.
  destruct (coords_levels _ _ C) as (L & H & HL). intros (P1 & P2) (Q1 & Q2) (R1 & R2) (S1 & S2).
  apply (intersect_exact L H); split; auto.
Qed.

Lemma cross_sym a b c' d : segments_cross a b c' d -> segments_cross c' d a b.
Proof. unfold segments_cross. tauto. Qed.

Lemma api_intersect_sym va vb vc vd p q r s : vertex_is c va p -> vertex_is c vb q -> vertex_is c vc r -> vertex_is c vd s ->
  egdes_intersect (va, vb) (vc, vd) = egdes_intersect (vc, vd) (va, vb).
Proof.
  intros A B D F0. destruct (api_intersect _ _ _ _ _ _ _ _ A B D F0) as (I1 & I2 & I3).
  destruct (api_intersect _ _ _ _ _ _ _ _ D F0 A B) as (J1 & J2 & J3).
  assert (S : forall x y, same_place x y <-> same_place y x).
  { intros x y. unfold same_place. split; intros (U & V); split; symmetry; auto. }
  set (i := egdes_intersect (va, vb) (vc, vd)) in *. set (j := egdes_intersect (vc, vd) (va, vb)) in *.
  assert (K1 : i = ICrossing <-> j = ICrossing) by (rewrite I1, J1; split; apply cross_sym).
  assert (Sh : (same_place p r \/ same_place p s \/ same_place q r \/ same_place q s) <->
               (same_place r p \/ same_place r q \/ same_place s p \/ same_place s q)).
  { clear - S. split; intros [V|[V|[V|V]]]; apply S in V; auto 6. }
  assert (K2 : i = ISharedEdges <-> j = ISharedEdges) by (rewrite I2, J2; exact Sh).
  assert (K3 : i = IOnEdgeTip <-> j = IOnEdgeTip) .
  { rewrite I3, J3, Sh. clear. generalize (on_closed_segment p q r) (on_closed_segment p q s) (on_closed_segment r s p) (on_closed_segment r s q).
    intros X1 X2 X3 X4. split; intros (U & [V|[V|[V|V]]]); auto 6. }
  clear - K1 K2 K3. clearbody i j. destruct i, j; auto;
    repeat match goal with
    | K : ?a = ?a <-> _ |- _ => apply proj1 in K; specialize (K eq_refl); try discriminate
    | K : _ <-> ?a = ?a |- _ => apply proj2 in K; specialize (K eq_refl); try discriminate
    end.
Qed.

Lemma intersect_summary va vb vc vd p q r s : vertex_is c va p -> vertex_is c vb q -> vertex_is c vc r -> vertex_is c vd s ->
  let i := egdes_intersect (va, vb) (vc, vd) in
  let shared := same_place p r \/ same_place p s \/ same_place q r \/ same_place q s in
  let touch := on_closed_segment p q r \/ on_closed_segment p q s \/ on_closed_segment r s p \/ on_closed_segment r s q in
  (i = ICrossing <-> segments_cross p q r s) /\ (i = ISharedEdges <-> shared) /\
  (i = IOnEdgeTip <-> ~ shared /\ touch) /\ egdes_intersect (vc, vd) (va, vb) = i.
Proof.
  intros A B D F0. destruct (api_intersect _ _ _ _ _ _ _ _ A B D F0) as (I1 & I2 & I3).
  split; [exact I1|]. split; [exact I2|]. split; [exact I3|]. symmetry. eapply api_intersect_sym; eauto.
Qed.

Lemma side_summary va vb vp a b p : vertex_is c va a -> vertex_is c vb b -> vertex_is c vp p ->
  let s := test_point_edge_side (va, vb) vp in
  let s' := test_point_edge_side (vb, va) vp in
  ((is_on_left_side s = true <-> 0 < orient a b p) /\ (is_on_right_side s = true <-> orient a b p < 0) /\
   (is_colinear s = true <-> orient a b p == 0) /\
   (is_point_on_right_side_of_edge (va, vb) vp = true <-> orient a b p <= 0)) /\
  (is_on_left_side s' = is_on_right_side s /\ is_colinear s' = is_colinear s) /\
  (triplet_orientation va vb vp = CounterClockwise <-> is_on_left_side s = true) /\
  (triplet_orientation va vb vp = Clockwise <-> is_on_right_side s = true) /\
  (triplet_orientation va vb vp = Colinear <-> is_colinear s = true).
Proof.
  intros A B P s s'. pose proof (api_side _ _ _ _ _ _ A B P) as S. destruct (api_side_anti _ _ _ _ _ _ A B P) as (T1 & T2 & T3 & T4).
  destruct (api_orientation _ _ _ _ _ _ A B P) as (_ & _ & O3). split; [exact S|]. split; [split; assumption|].
  split; [symmetry; exact T3|]. split; [symmetry; exact T4|]. destruct S as (_ & _ & S3 & _). now rewrite O3, <- S3.
Qed.

(** ** check_degenerate_triangles *)
Lemma api_degenerate (vs : list vertex) (ps : list point) ts : Forall2 (vertex_is c) vs ps ->
  (forall t, In t ts -> forall v, tri_corner t v -> (v < lenN vs)%N) ->
  let at_ v := nth (N.to_nat v) ps (0, 0) in
  check_degenerate_triangles ts vs = Ret (lenN (filter (tri_flat at_) ts), lenN (filter (tri_ccw at_) ts)).
Proof.
  intros F2 Ht at_. induction ts as [|((x, y), z) ts IH]; [reflexivity|].
  assert (G : forall v, tri_corner (x, y, z) v -> exists w, nthN vs v = Some w /\ vertex_is c w (at_ v)).
  { intros v Hv. specialize (Ht _ (or_introl eq_refl) _ Hv). destruct (nthN_Some vs v Ht) as (w & Hw). exists w. split; auto.
    clear - F2 Hw. unfold at_. rewrite nthN_nth_error in Hw. revert Hw. generalize (N.to_nat v). intros n. revert n.
    induction F2 as [|v' p' vs ps A F IH]; intros [|n] Hw; try discriminate; cbn [nth nth_error] in *.
    - now injection Hw as <-.
    - now apply IH. }
  destruct (G x) as (vx' & Gx & Hx); [simpl; auto|]. destruct (G y) as (vy' & Gy & Hy); [simpl; auto|].
  destruct (G z) as (vz & Gz & Hz); [simpl; auto|].
  cbn [check_degenerate_triangles]. unfold getN. rewrite Gx, Gy, Gz. cbn [bind].
  rewrite IH by (intros t Hin; apply Ht; now right). cbn [bind].
  destruct (api_orientation _ _ _ _ _ _ Hx Hy Hz) as (O1 & O2 & O3).
  cbn [filter]. change (tri_flat at_ (x, y, z)) with (Qeq_bool (orient (at_ x) (at_ y) (at_ z)) 0).
  change (tri_ccw at_ (x, y, z)) with (negb (Qle_bool (orient (at_ x) (at_ y) (at_ z)) 0)).
  pose proof (Qeq_bool_iff (orient (at_ x) (at_ y) (at_ z)) 0) as B1.
  pose proof (Qle_bool_iff (orient (at_ x) (at_ y) (at_ z)) 0) as B2.
  set (o := orient (at_ x) (at_ y) (at_ z)) in *. clearbody o.
  assert (Hlt : forall A (u : A) l, lenN (u :: l) = (lenN l + 1)%N) by (intros; unfold lenN; cbn [length]; lia).
  destruct (triplet_orientation vx' vy' vz).
  - assert (o == 0) by now apply O3. assert (Qeq_bool o 0 = true) as -> by now apply B1.
    assert (Qle_bool o 0 = true) as -> by (apply B2; lra). cbn [negb]. rewrite Hlt. reflexivity.
  - assert (K : o < 0) by now apply O1. assert (Qeq_bool o 0 = false) as ->.
    { destruct (Qeq_bool o 0); auto. assert (o == 0) by now apply B1. lra. }
    assert (Qle_bool o 0 = true) as -> by (apply B2; lra). reflexivity.
  - assert (K : 0 < o) by now apply O2. assert (Qeq_bool o 0 = false) as ->.
    { destruct (Qeq_bool o 0); auto. assert (o == 0) by now apply B1. lra. }
    assert (Qle_bool o 0 = false) as ->.
    { destruct (Qle_bool o 0); auto. assert (o <= 0) by now apply B2. lra. }
    cbn [negb]. rewrite Hlt. reflexivity.
Qed.
End Coords.

Lemma circle_perm a b c p : in_circumcircle c b a p <-> in_circumcircle a b c p.
Proof.
  unfold in_circumcircle. split; intros (o & H1 & H2 & H3); exists o; rewrite H1, H2 in *; rewrite <- ?H2, <- ?H1 in *;
    repeat split; try reflexivity; auto; try lra.
Qed.

Lemma api_circle E c va vb vc vd p q r s : exact_circle_coords E c ->
  vertex_is c va p -> vertex_is c vb q -> vertex_is c vc r -> vertex_is c vd s ->
  clockwise s p q -> clockwise q p r ->
  (is_vertex_in_triangle_circumcircle va vb vc vd = true <-> in_circumcircle p q r s) /\
  (in_circumcircle p q r s <-> in_circumcircle s p q r) /\
  is_vertex_in_triangle_circumcircle vb va vd vc = is_vertex_in_triangle_circumcircle va vb vc vd.
Proof.
  intros C. destruct (circle_levels _ _ C) as (L & H & H5 & HL).
  intros (P1 & P2) (Q1 & Q2) (R1 & R2) (S1 & S2) K1 K2. unfold clockwise in *.
  assert (K1' : orient q p s == - orient s p q -> orient p q s < 0) by (unfold orient in *; lra).
  assert (K3 : orient r q p < 0) by (unfold orient in *; lra).
  assert (K4 : orient p q s < 0) by (unfold orient in *; lra).
  assert (I1 : is_vertex_in_triangle_circumcircle va vb vc vd = true <->
      0 < incircle (fst p) (snd p) (fst q) (snd q) (fst r) (snd r) (fst s) (snd s)).
  { apply (circle_level L H H5); try (split; auto); auto. }
  assert (I2 : is_vertex_in_triangle_circumcircle vb va vd vc = true <->
      0 < incircle (fst q) (snd q) (fst p) (snd p) (fst s) (snd s) (fst r) (snd r)).
  { apply (circle_level L H H5); try (split; auto); auto. }
  assert (Eq : incircle (fst q) (snd q) (fst p) (snd p) (fst s) (snd s) (fst r) (snd r)
            == incircle (fst p) (snd p) (fst q) (snd q) (fst r) (snd r) (fst s) (snd s)) by (unfold incircle; ring).
  pose proof (in_circle_iff p q r s K1) as J1. pose proof (in_circle_iff q p s r K3) as J2.
  rewrite circle_perm in J2. rewrite Eq in I2, J2.
  split; [now rewrite I1|]. split; [now rewrite <- J1, <- J2|].
  eapply bool_iff; eauto.
Qed.

(** ** The segments cross exactly when they have a common interior point and are not
    parallel *)
Lemma fraction x y w s : x * y < 0 -> x - y == w -> s * w == x -> 0 < s < 1.
Proof.
  intros H1 H2 H3. destruct (Qlt_le_dec 0 x) as [X|X].
  - assert (Y : y < 0) by nra. assert (W : 0 < w) by lra. assert (W2 : x < w) by lra. rewrite <- H3 in W2, X. split; nra.
  - assert (X' : x < 0) by (destruct (Qlt_le_dec x 0) as [|X']; auto; assert (Z : x == 0) by lra; rewrite Z in H1; lra).
    assert (Y : 0 < y) by nra. assert (W : w < 0) by lra. assert (W2 : w < x) by lra.
    rewrite <- H3 in W2, X'. split; nra.
Qed.

Lemma cross_meet a b c d : segments_cross a b c d <->
  ~ (fst b - fst a) * (snd d - snd c) == (snd b - snd a) * (fst d - fst c) /\
  exists s t, 0 < s < 1 /\ 0 < t < 1 /\ same_place (along a b s) (along c d t).
Proof.
  destruct a as (ax, ay), b as (bx, by_), c as (cx, cy), d as (dx, dy).
  unfold segments_cross, orient, same_place, along; cbn [fst snd].
  set (w := (bx - ax) * (dy - cy) - (by_ - ay) * (dx - cx)).
  set (u1 := (bx - ax) * (cy - ay) - (by_ - ay) * (cx - ax)).
  set (u2 := (bx - ax) * (dy - ay) - (by_ - ay) * (dx - ax)).
  set (v1 := (dx - cx) * (ay - cy) - (dy - cy) * (ax - cx)).
  set (v2 := (dx - cx) * (by_ - cy) - (dy - cy) * (bx - cx)).
  assert (Hu : u2 - u1 == w) by (unfold u1, u2, w; ring).
  assert (Hv : v1 - v2 == w) by (unfold v1, v2, w; ring).
  split.
  - intros (H1 & H2).
    assert (W : ~ w == 0) by (intros Z; nra).
    split; [intros Z; apply W; unfold w; rewrite Z; ring|].
    exists (v1 / w), (- u1 / w).
    assert (Es : v1 / w * w == v1) by (field; auto). assert (Et : - u1 / w * w == - u1) by (field; auto).
    set (s := v1 / w) in *. set (t := - u1 / w) in *.
    assert (S : 0 < s < 1) by (apply (fraction v1 v2 w); auto).
    assert (T : 0 < t < 1).
    { apply (fraction (- u1) (- u2) w); auto; [|lra]. setoid_replace (- u1 * - u2) with (u1 * u2) by ring. exact H1. }
    split; auto. split; auto.
    assert (Cx : forall x y, x * w == y * w -> x == y) by (intros x y K; now apply (Qmult_inj_r x y w)).
    split; apply Cx.
    + setoid_replace ((ax + s * (bx - ax)) * w) with (ax * w + (s * w) * (bx - ax)) by ring.
      setoid_replace ((cx + t * (dx - cx)) * w) with (cx * w + (t * w) * (dx - cx)) by ring.
      rewrite Es, Et. unfold w, v1, u1. ring.
    + setoid_replace ((ay + s * (by_ - ay)) * w) with (ay * w + (s * w) * (by_ - ay)) by ring.
      setoid_replace ((cy + t * (dy - cy)) * w) with (cy * w + (t * w) * (dy - cy)) by ring.
      rewrite Es, Et. unfold w, v1, u1. ring.
  - intros (Np & s & t & S & T & Ex & Ey).
    assert (W : ~ w == 0) by (intros Z; apply Np; unfold w in Z; lra).
    assert (Es : v1 == s * w).
    { unfold v1, w. assert (X : ax - cx == t * (dx - cx) - s * (bx - ax)) by lra.
      assert (Y : ay - cy == t * (dy - cy) - s * (by_ - ay)) by lra. rewrite X, Y. ring. }
    assert (Et : u1 == - t * w).
    { unfold u1, w. assert (X : cx - ax == s * (bx - ax) - t * (dx - cx)) by lra.
      assert (Y : cy - ay == s * (by_ - ay) - t * (dy - cy)) by lra. rewrite X, Y. ring. }
    assert (Eu : u2 == (1 - t) * w) by lra. assert (Ev : v2 == (s - 1) * w) by lra.
    assert (Ww : 0 < w * w) by (destruct (Qlt_le_dec 0 w); [nra|assert (w < 0) by lra; nra]).
    rewrite Es, Et, Eu, Ev. clear - S T Ww.
    assert (A : - t * w * ((1 - t) * w) == - (t * (1 - t)) * (w * w)) by ring.
    assert (B : s * w * ((s - 1) * w) == - (s * (1 - s)) * (w * w)) by ring.
    rewrite A, B. set (k := w * w) in *. clearbody k.
    assert (0 < t * (1 - t)) by nra. assert (0 < s * (1 - s)) by nra. split; nra.
Qed.

(** ** validate_vertices *)
Lemma validate_exact prec emax maxid (vs : list (SpecFloat.spec_float * SpecFloat.spec_float)) :
  validate_vertices (E := sf_env prec emax maxid) vs = true <->
  forall x y, In (x, y) vs -> forall z, z = x \/ z = y ->
    z <> SpecFloat.S754_nan /\ forall s, z <> SpecFloat.S754_infinity s.
Proof.
  assert (One : forall z, (sf_is_nan z = false /\ sf_is_finite z = true) <-> (z <> SpecFloat.S754_nan /\ forall s, z <> SpecFloat.S754_infinity s)).
  { intros [s|s| |s m e]; cbn; split; intros (A & B); split; auto; try discriminate; try (exfalso; now apply A); try (exfalso; now apply (B s)). }
  induction vs as [|(x, y) vs IH].
  - split; [intros _ x y []|reflexivity].
  - cbn [validate_vertices]. unfold vertex_is_nan, vertex_is_finite. cbn [vx vy fst snd fis_nan fis_finite sf_env].
    split.
    + intros H. destruct ((sf_is_nan x || sf_is_nan y) || negb (sf_is_finite x && sf_is_finite y)) eqn:K; [discriminate|].
      apply orb_false_iff in K. destruct K as (K1 & K2). apply orb_false_iff in K1. apply negb_false_iff, andb_true_iff in K2.
      intros x' y' [Q|Q]; [injection Q as <- <-|now apply IH].
      intros z [-> | ->]; apply One; tauto.
    + intros H. assert (Hx : sf_is_nan x = false /\ sf_is_finite x = true) by (apply One, (H x y); [now left|now left]).
      assert (Hy : sf_is_nan y = false /\ sf_is_finite y = true) by (apply One, (H x y); [now left|now right]).
      destruct Hx as (-> & ->), Hy as (-> & ->). cbn [orb andb negb]. apply IH. intros x' y' Q. apply (H x' y'). now right.
Qed.
