(** * CReg: the search of the edges crossed by a constrained edge is sound and complete. *)

From Coq Require Import NArith List Bool Lia QArith Lqa.
From Verif Require Import Base BaseFacts Arith Types Utils Infinite Triangulation Constrained Geom Mesh
  MeshOps Exact ExactC MeshVerts AnyDT AnyCDT Walk Insert DTExact CSwap CCross.
Import ListNotations.
Local Open Scope N_scope.

Section WithEnv.
Context {E : Env}.
Variable vs : list vertex.
Variables px py : N -> Q.
Hypothesis X : Exact vs px py.
Hypothesis XC : ExactC vs px py.

Notation pos := (hpos px py).
Notation D a b c := (det (pos a) (pos b) (pos c)).
Notation Mesh := (Mesh pos).
Notation Ids := (Ids vs).
Notation vok := (vok vs).
Notation crosses := (crosses px py).

Variables a b : N.
Variables va vb : vertex.
Hypothesis Na : nthN vs a = Some va.
Hypothesis Nb : nthN vs b = Some vb.
Hypothesis Hab : a <> b.

Notation xing := (xing px py a b).
Notation onseg := (onseg px py a b).
Notation cpt := (cpt px py a b).
Notation xingD d := (xing (efrom (d_edge d)) (eto (d_edge d))).

Variable ts : list tri.
Hypothesis M : Mesh ts.

(** ** Turning around [a] *)

Lemma vertex_index_corner i t w : nthN ts i = Some t -> corner ts i w -> tv t (vertex_index t w) = w.
Proof.
  intros Ht (u & n & H). apply he_inv in H. destruct H as (t' & k & Ht' & Hw & _).
  assert (t' = t) by congruence. subst t' w. unfold vertex_index.
  destruct k; simpl; repeat match goal with |- context [?p =? ?q] => destruct (N.eqb_spec p q) end; simpl; congruence.
Qed.

Lemma contains_corner i t w : nthN ts i = Some t -> verts_contains t w = true <-> corner ts i w.
Proof.
  intros Ht. unfold verts_contains. rewrite !orb_true_iff, !N.eqb_eq. split.
  - intros [[Q|Q]|Q]; subst w.
    + exact (ex_intro _ _ (ex_intro _ _ (he_at ts i t I1 Ht))).
    + exact (ex_intro _ _ (ex_intro _ _ (he_at ts i t I2 Ht))).
    + exact (ex_intro _ _ (ex_intro _ _ (he_at ts i t I3 Ht))).
  - intros C. destruct (corner_cases px py _ _ _ _ _ _ _ _ _ (view_exists _ _ _ Ht) C) as [-> |[-> | ->]]; auto.
Qed.

Lemma he_corner2 i u w n : he ts i u w n -> corner ts i w.
Proof. intros (c & y & z & V). exists c, y. destruct (view_he _ _ _ _ _ _ _ _ V) as (_ & H & _). exact H. Qed.

Definition first_ok (r : first_intersection) : Prop :=
  match r with
  | EdgeAlreadyInTriangulation => medge ts a b
  | FirstIntersection d => EDok ts d /\ xingD d /\
      exists x z, view ts (d_from d) a (efrom (d_edge d)) (eto (d_edge d)) x (d_to d) z
  | FirstNotFound => True
  end.

Lemma two_corners i u v : u <> v -> corner ts i u -> corner ts i v -> medge ts u v.
Proof.
  intros Hne Cu Cv. destruct (corner_view _ _ _ Cu) as (p & q & x & y & z & V).
  destruct (view_he _ _ _ _ _ _ _ _ V) as (H1 & H2 & H3).
  destruct (corner_cases px py _ _ _ _ _ _ _ _ _ V Cv) as [-> |[-> | ->]]; [congruence|left; eauto|right; eauto].
Qed.

Lemma nexists_ne n : nexists n = true -> n <> NONE.
Proof. unfold nexists. intros H. now apply negb_true_iff, N.eqb_neq in H. Qed.

Lemma loop_around_sound next : next = outermost_cw \/ next = outermost_ccw ->
  forall n first from tid r, (tid < lenN ts -> corner ts tid a) ->
  loop_around n first ts vs from tid (Edge a b) (va, vb) next = Ret r -> first_ok r.
Proof.
  intros Hnext. induction n as [|n IH]; intros first from tid r Hc H; simpl in H.
  - inversion H. exact I.
  - destruct (negb first && (tid =? from)); [discriminate|].
    unfold getN in H. destruct (nthN ts tid) as [t|] eqn:Ht; cbn [bind] in H; [|discriminate].
    assert (Ca : corner ts tid a) by (apply Hc; now apply nthN_lt in Ht).
    destruct (verts_contains t b) eqn:Hb.
    { inversion H. simpl. apply (contains_corner _ _ _ Ht) in Hb. now apply (two_corners tid). }
    set (k := vertex_index t a) in *.
    pose proof (vertex_index_corner _ _ _ Ht Ca) as Hk. fold k in Hk.
    pose proof (view_at ts tid t k Ht) as V. rewrite Hk in V.
    assert (He : tedge t (opposite_edge_index k) = Edge (tv t (next_cw k)) (tv t (next_ccw k))) by (destruct k; reflexivity).
    assert (Hn : tn t (opposite_edge_index k) = tn t (next_cw k)) by (destruct k; reflexivity).
    rewrite He, Hn in H.
    set (u := tv t (next_cw k)) in *. set (v := tv t (next_ccw k)) in *.
    destruct (edge_and_constrained_edge_intersection vs (Edge u v) (va, vb)) as [i| | |] eqn:HI; cbn [bind] in H; try discriminate.
    destruct (view_he _ _ _ _ _ _ _ _ V) as (H1 & H2 & H3).
    destruct (is_crossing i) eqn:Hi.
    + apply (crossing_test vs px py X XC a b va vb Na Nb u v i HI) in Hi.
      destruct (nexists (tn t (next_cw k))) eqn:Hx; [|discriminate]. inversion H; subst r. simpl.
      split; [split; [exact H2|now apply nexists_ne]|]. split; [|eauto].
      destruct (cross_cases vs px py X a b va vb Na Nb u v Hi) as [C|C]; auto. exfalso.
      pose proof (M_cw _ _ M _ _ _ _ _ _ _ V) as K. destruct C as (_ & _ & C & _).
      pose proof (det_rot3 (pos a) (pos u) (pos v)). pose proof (det_anti (pos u) (pos v) (pos a)). lra.
    + destruct (nexists (tn t (next k))) eqn:Hx; [|inversion H; exact I].
      eapply IH; [|exact H]. intros _. apply nexists_ne in Hx.
      destruct Hnext as [-> | ->].
      * assert (Q : tn t (outermost_cw k) = tn t (next_ccw k)) by (destruct k; reflexivity). rewrite Q in *.
        pose proof (glue_some _ _ M _ _ _ _ H3 Hx) as G. exists v, tid. exact G.
      * assert (Q : tn t (outermost_ccw k) = tn t k) by (destruct k; reflexivity). rewrite Q in *.
        pose proof (glue_some _ _ M _ _ _ _ H1 Hx) as G. now apply he_corner2 in G.
Qed.

Lemma search_sound start r : corner ts start a ->
  search_first_intersected_quad ts vs (Edge a b) (va, vb) start = Ret r -> first_ok r.
Proof.
  intros Ca H. unfold search_first_intersected_quad in H.
  destruct (loop_around (length ts) true ts vs start start (Edge a b) (va, vb) outermost_cw) as [r0| | |] eqn:H0;
    cbn [bind] in H; try discriminate.
  pose proof (loop_around_sound outermost_cw (or_introl eq_refl) _ _ _ _ _ (fun _ => Ca) H0) as S.
  destruct r0; try (inversion H; subst; exact S).
  unfold getN in H. destruct (nthN ts start) as [t|] eqn:Ht; cbn [bind] in H; [|discriminate].
  cbn [efrom] in H. set (k := vertex_index t a) in *.
  pose proof (vertex_index_corner _ _ _ Ht Ca) as Hk. fold k in Hk.
  eapply loop_around_sound; [right; reflexivity| |exact H].
  intros Hlt. assert (Q : tn t (outermost_ccw k) = tn t k) by (destruct k; reflexivity). rewrite Q in *.
  pose proof (he_at ts start t k Ht) as H1. rewrite Hk in H1.
  assert (Hn : tn t k <> NONE) by (pose proof (M_len _ _ M); unfold NONE; lia).
  pose proof (glue_some _ _ M _ _ _ _ H1 Hn) as G. now apply he_corner2 in G.
Qed.

(** ** Walking along the constrained edge *)

Lemma next_intersection_spec t tid fe : nthN ts tid = Some t -> forall is d,
  next_intersection is vs (va, vb) t tid fe = Ret (Some d) ->
  d_from d = tid /\ he ts tid (efrom (d_edge d)) (eto (d_edge d)) (d_to d) /\ d_to d <> NONE /\
  crosses a b (efrom (d_edge d)) (eto (d_edge d)) /\ ~ sameE (efrom (d_edge d)) (eto (d_edge d)) (efrom fe) (eto fe).
Proof.
  intros Ht. induction is as [|k is IH]; intros d H; simpl in H; [discriminate|].
  destruct (undirected_equals (tedge t k) fe) eqn:Hu; [auto|].
  destruct (edge_and_constrained_edge_intersection vs (tedge t k) (va, vb)) as [i| | |] eqn:HI; cbn [bind] in H; try discriminate.
  destruct (is_crossing i && nexists (tn t k)) eqn:Hc; [|auto].
  apply andb_true_iff in Hc. destruct Hc as (Hc & Hx). inversion H; subst d. cbn [d_from d_to d_edge].
  assert (He : tedge t k = Edge (tv t k) (tv t (next_cw k))) by (destruct k; reflexivity).
  rewrite He in *. cbn [efrom eto].
  split; auto. split; [now apply he_at|]. split; [now apply nexists_ne|]. split.
  - now apply (crossing_test vs px py X XC a b va vb Na Nb _ _ i HI).
  - intros Q. assert (undirected_equals (Edge (tv t k) (tv t (next_cw k))) fe = true) by now apply undirected_sameE. congruence.
Qed.

(** Where a point of the segment is: in an open triangle, or inside a listed edge. *)
Definition seg_ok (l : list edge_data) (p : pt3) : Prop :=
  exists i x y z n1 n2 n3, view ts i x y z n1 n2 n3 /\
    (det (pos y) (pos z) p < 0)%Q /\ (det (pos z) (pos x) p < 0)%Q /\
    ((det (pos x) (pos y) p < 0)%Q \/
     ((det (pos x) (pos y) p == 0)%Q /\ exists d, In d l /\ sameE x y (efrom (d_edge d)) (eto (d_edge d)))).

Lemma seg_ok_incl l l' p : incl l l' -> seg_ok l p -> seg_ok l' p.
Proof.
  intros Hi (i & x & y & z & n1 & n2 & n3 & V & H1 & H2 & H3).
  exists i, x, y, z, n1, n2, n3. split; auto. split; auto. split; auto.
  destruct H3 as [|(H3 & d & Hd & S)]; [now left|right]. split; auto. exists d. split; auto.
Qed.

Record Registered (l : list edge_data) : Prop := {
  G_ok : forall d, In d l -> EDok ts d /\ xingD d;
  G_nd : ForallOrdPairs (fun d e => ~ sameED d e) l;
  G_seg : forall s t, (0 < s)%Q -> (0 < t)%Q -> seg_ok l (onseg s t)
}.

Record Reg (cur : edge_data) (acc : list edge_data) : Prop := {
  R_ok : forall d, In d acc -> EDok ts d /\ xingD d;
  R_cur : In cur acc;
  R_nd : ForallOrdPairs (fun d e => ~ sameED d e) acc;
  R_before : forall d, In d acc ->
    (det (pos (efrom (d_edge cur))) (pos (eto (d_edge cur))) (cpt (efrom (d_edge d)) (eto (d_edge d))) <= 0)%Q;
  R_from : NoDup (map d_from acc);
  R_seg : forall s t, (0 < s)%Q -> (0 < t)%Q -> seg_ok acc (onseg s t) \/
    (0 < det (pos (efrom (d_edge cur))) (pos (eto (d_edge cur))) (onseg s t))%Q
}.

Lemma order_trans (p q p' q' p2 q2 : Q) :
  (p < 0 -> 0 < q -> p' < 0 -> 0 < q' -> p2 < 0 -> 0 < q2 ->
  q' * p + - p' * q <= 0 -> 0 < q2 * p + - p2 * q -> q' * p2 + - p' * q2 < 0)%Q.
Proof.
  intros H1 H2 H3 H4 H5 H6 H7 H8.
  assert (A : (q2 * (q' * p + - p' * q) <= 0)%Q) by nra.
  assert (B : (0 < q' * (q2 * p + - p2 * q))%Q) by nra.
  assert (C : (q * (q' * p2 + - p' * q2) < 0)%Q) by lra.
  destruct (Qlt_le_dec (q' * p2 + - p' * q2) 0); auto. nra.
Qed.

Lemma before_trans u v u' v' u2 v2 : xing u v -> xing u' v' -> xing u2 v2 ->
  (det (pos u) (pos v) (cpt u' v') <= 0)%Q -> (0 < det (pos u) (pos v) (cpt u2 v2))%Q ->
  (det (pos u2) (pos v2) (cpt u' v') < 0)%Q.
Proof.
  intros (_ & _ & A1 & A2) (_ & _ & B1 & B2) (_ & _ & C1 & C2). unfold CCross.cpt. rewrite !det_onseg.
  apply order_trans; auto.
Qed.

Lemma xing_same u v u' v' : xing u v -> xing u' v' -> sameE u v u' v' -> u = u' /\ v = v'.
Proof. intros A B [|(-> & ->)]; auto. exfalso. exact (xing_anti px py a b _ _ A B). Qed.

Lemma reg_start d x z : EDok ts d -> xingD d ->
  view ts (d_from d) a (efrom (d_edge d)) (eto (d_edge d)) x (d_to d) z -> Reg d [d].
Proof.
  intros Hd Hx V. constructor.
  - intros e [<- |[]]. auto.
  - now left.
  - repeat constructor.
  - intros e [<- |[]]. rewrite cpt_on. lra.
  - simpl. constructor; [intros []|constructor].
  - intros s t Hs Ht. destruct d as [from to [u v]]; cbn [d_from d_to d_edge efrom eto] in *.
    destruct (Qlt_le_dec 0 (det (pos u) (pos v) (onseg s t))) as [|Hle]; [now right|left].
    exists from, u, v, a, to, z, x. split; [now apply view_rot|].
    destruct Hx as (C1 & C2 & C3 & C4).
    assert (A1 : (det (pos v) (pos a) (onseg s t) == t * D a b v)%Q).
    { rewrite det_onseg. unfold det; ring. }
    assert (A2 : (det (pos a) (pos u) (onseg s t) == t * - D a b u)%Q).
    { rewrite det_onseg. unfold det; ring. }
    assert (0 < t * D a b u)%Q by (apply Qmul_pos; auto). assert (0 < t * - D a b v)%Q by (apply Qmul_pos; lra).
    split; [lra|]. split; [lra|].
    destruct (Qlt_le_dec (det (pos u) (pos v) (onseg s t)) 0); [now left|right].
    split; [lra|]. eexists. split; [now left|]. apply sameE_refl.
Qed.

(** One step of the walk. *)
Lemma reg_step cur acc u v w n3 n4 d :
  Reg cur acc -> d_edge cur = Edge u v -> view ts (d_to cur) v u w (d_from cur) n3 n4 ->
  d_from d = d_to cur -> EDok ts d -> crosses a b (efrom (d_edge d)) (eto (d_edge d)) ->
  ~ sameED d cur -> Reg d (d :: acc).
Proof.
  intros [K1 K2 K3 K4 K5 K6] Hcur V Hfrom Hd Hc Hne.
  destruct (K1 _ K2) as (Okc & Xc). rewrite Hcur in *. cbn [efrom eto] in *.
  unfold sameED in Hne. rewrite Hcur in Hne. cbn [efrom eto] in Hne.
  destruct d as [from' to' [e1 e2]]; cbn [d_from d_to d_edge efrom eto] in *. subst from'.
  pose proof (M_cw _ _ M _ _ _ _ _ _ _ V) as Cw.
  destruct Hd as (He & Hn); cbn [d_from d_to d_edge efrom eto] in *.
  pose proof (det_anti (pos v) (pos u) (pos w)) as (An & _).
  destruct (det_zero (pos u) (pos v)) as (_ & Zu & _). destruct (det_zero (pos v) (pos u)) as (_ & _ & Zv).
  assert (Cr : forall p, (D v u w * det (pos a) (pos b) p ==
     det (pos u) (pos w) p * D a b v + det (pos w) (pos v) p * D a b u + det (pos v) (pos u) p * D a b w)%Q).
  { intros p. apply cramer. }
  assert (After1 : xing u w -> (0 < det (pos u) (pos v) (cpt u w))%Q).
  { intros (Y1 & Y2 & _). rewrite cpt_comb, Zu, An. assert (0 < D a b u * - D v u w)%Q by (apply Qmul_pos; lra). lra. }
  assert (After2 : xing w v -> (0 < det (pos u) (pos v) (cpt w v))%Q).
  { intros (Y1 & Y2 & _). rewrite cpt_comb, Zv, An. assert (0 < D a b v * D v u w)%Q by (apply mul_neg_neg; lra). lra. }
  destruct Xc as (X1 & X2 & X3 & X4).
  assert (Xn : (e1 = u /\ e2 = w /\ xing u w) \/ (e1 = w /\ e2 = v /\ xing w v)).
  { destruct (he_cases _ _ _ _ _ _ _ _ _ _ _ V He) as [(-> & -> & _)|[(-> & -> & _)|(-> & -> & _)]].
    - exfalso. apply Hne. now right.
    - left. split; auto. split; auto. apply (cross_signs vs px py X a b va vb Na Nb); auto.
    - right. split; auto. split; auto. apply (cross_signs vs px py X a b va vb Na Nb); auto.
      destruct Hc as (Hc & _). destruct (Qprod_neg _ _ Hc); lra. }
  assert (Xe : xing e1 e2) by (destruct Xn as [(-> & -> & ?)|(-> & -> & ?)]; auto).
  assert (Aft : (0 < det (pos u) (pos v) (cpt e1 e2))%Q) by (destruct Xn as [(-> & -> & ?)|(-> & -> & ?)]; auto).
  assert (Xuv : xing u v) by (unfold CCross.xing; auto).
  assert (Bef : forall d, In d acc -> (det (pos e1) (pos e2) (cpt (efrom (d_edge d)) (eto (d_edge d))) < 0)%Q).
  { intros d Hin. destruct (K1 _ Hin) as (_ & Xd). apply (before_trans u v); auto. }
  constructor; cbn [d_from d_to d_edge efrom eto].
  - intros d [<- |Hin]; [|auto]. split; [|exact Xe]. split; cbn [d_from d_to d_edge efrom eto]; auto.
  - now left.
  - constructor; auto. apply Forall_forall. intros d Hin S. unfold sameED in S. cbn [d_edge efrom eto] in S.
    destruct (K1 _ Hin) as (_ & Xd). destruct (xing_same _ _ _ _ Xe Xd S) as (Q1 & Q2).
    specialize (Bef d Hin). rewrite <- Q1, <- Q2, cpt_on in Bef. lra.
  - intros d [<- |Hin]; cbn [d_edge efrom eto]; [rewrite cpt_on; lra|]. specialize (Bef d Hin). lra.
  - simpl. constructor; auto. intros Hin. apply in_map_iff in Hin. destruct Hin as (d & Hf & Hin).
    destruct (K1 _ Hin) as ((Hh & _) & Xd). specialize (K4 _ Hin). rewrite Hf in Hh.
    destruct (he_cases _ _ _ _ _ _ _ _ _ _ _ V Hh) as [(Q1 & Q2 & _)|[(Q1 & Q2 & _)|(Q1 & Q2 & _)]]; rewrite Q1, Q2 in *.
    + exact (xing_anti px py a b _ _ Xd Xuv).
    + pose proof (After1 Xd). lra.
    + pose proof (After2 Xd). lra.
  - intros s t Hs Ht. destruct (K6 s t Hs Ht) as [Sg|Hp].
    + left. eapply seg_ok_incl; [|exact Sg]. intros z Hz; now right.
    + destruct (Qlt_le_dec 0 (det (pos e1) (pos e2) (onseg s t))) as [|Hle]; [now right|left].
      specialize (Cr (onseg s t)). rewrite ab_onseg in Cr.
      pose proof (det_anti (pos u) (pos v) (onseg s t)) as (An2 & _).
      destruct Xn as [(-> & -> & Y)|(-> & -> & Y)]; destruct Y as (Y1 & Y2 & _).
      * exists (d_to cur), u, w, v, n3, n4, (d_from cur). split; [now apply view_rot|].
        assert (L : (det (pos w) (pos v) (onseg s t) < 0)%Q).
        { assert (P1 : (0 <= det (pos u) (pos w) (onseg s t) * D a b v)%Q) by (apply mul_nonpos_nonpos; lra).
          assert (P2 : (0 < det (pos v) (pos u) (onseg s t) * D a b w)%Q) by (apply mul_neg_neg; lra).
          assert (P3 : (det (pos w) (pos v) (onseg s t) * D a b u < 0)%Q) by lra.
          destruct (Qprod_neg _ _ P3); lra. }
        split; auto. split; [lra|].
        destruct (Qlt_le_dec (det (pos u) (pos w) (onseg s t)) 0); [now left|right].
        split; [lra|]. eexists. split; [now left|]. apply sameE_refl.
      * exists (d_to cur), w, v, u, n4, (d_from cur), n3. split; [now apply view_rot2|].
        assert (L : (det (pos u) (pos w) (onseg s t) < 0)%Q).
        { assert (P1 : (det (pos w) (pos v) (onseg s t) * D a b u <= 0)%Q) by (apply Qmul_pn; lra).
          assert (P2 : (0 < - det (pos v) (pos u) (onseg s t) * D a b w)%Q) by (apply Qmul_pos; lra).
          assert (P3 : (0 < det (pos u) (pos w) (onseg s t) * D a b v)%Q) by lra.
          destruct (Qprod_pos _ _ P3); lra. }
        split; [lra|]. split; auto.
        destruct (Qlt_le_dec (det (pos w) (pos v) (onseg s t)) 0); [now left|right].
        split; [lra|]. eexists. split; [now left|]. apply sameE_refl.
Qed.

Lemma reg_end cur acc u v w n3 n4 :
  Reg cur acc -> d_edge cur = Edge u v -> view ts (d_to cur) v u w (d_from cur) n3 n4 ->
  corner ts (d_to cur) b -> Registered acc.
Proof.
  intros [K1 K2 K3 K4 K5 K6] Hcur V Cb. constructor; auto.
  destruct (K1 _ K2) as (Okc & Xc). rewrite Hcur in *. cbn [efrom eto] in *.
  destruct Xc as (X1 & X2 & X3 & X4).
  destruct (det_zero (pos b) (pos a)) as (_ & _ & Zb).
  assert (w = b).
  { destruct (corner_cases px py _ _ _ _ _ _ _ _ _ V Cb) as [Q|[Q|Q]]; auto; exfalso; subst; lra. }
  subst w. intros s t Hs Ht. destruct (K6 s t Hs Ht) as [Sg|Hp]; auto.
  exists (d_to cur), v, u, b, (d_from cur), n3, n4. split; auto.
  pose proof (det_anti (pos u) (pos v) (onseg s t)) as (An & _).
  assert (A1 : (det (pos u) (pos b) (onseg s t) == s * - D a b u)%Q).
  { rewrite det_onseg. unfold det; ring. }
  assert (A2 : (det (pos b) (pos v) (onseg s t) == s * D a b v)%Q).
  { rewrite det_onseg. unfold det; ring. }
  assert (0 < s * D a b u)%Q by (apply Qmul_pos; auto). assert (0 < s * - D a b v)%Q by (apply Qmul_pos; lra).
  split; [lra|]. split; [lra|]. left. lra.
Qed.

Lemma registered_rev l : Registered l -> Registered (rev l).
Proof.
  intros [K1 K2 K3]. constructor.
  - intros d Hd. apply in_rev in Hd. auto.
  - clear K1 K3. induction K2 as [|x l H1 H2 IH]; simpl; [constructor|].
    assert (Q : forall r, ForallOrdPairs (fun d e => ~ sameED d e) r -> Forall (fun e => ~ sameED e x) r ->
      ForallOrdPairs (fun d e => ~ sameED d e) (r ++ [x])).
    { clear. induction r as [|y r IH]; intros F G; simpl; [repeat constructor|].
      inversion F; inversion G; subst. constructor; auto. apply Forall_app. split; auto. }
    apply Q; auto. apply Forall_rev. eapply Forall_impl; [|exact H1].
    intros e He S. apply He. unfold sameED in *. now apply sameE_sym.
  - intros s t Hs Ht. eapply seg_ok_incl; [|apply K3; auto]. intros d Hd. now apply -> in_rev.
Qed.

Lemma register_loop_sound : forall n cur acc l, Reg cur acc -> (length ts < n + length acc)%nat ->
  register_loop n ts vs (Edge a b) (va, vb) cur acc = Ret l -> Registered l.
Proof.
  induction n as [|n IH]; intros cur acc l R Hlen H; simpl in H.
  - exfalso. pose proof (NoDup_bound _ (length ts) (R_from _ _ R)) as B. rewrite map_length in B.
    assert (length acc <= length ts)%nat; [|lia]. apply B. intros i Hi. apply in_map_iff in Hi.
    destruct Hi as (d & <- & Hd). destruct (R_ok _ _ R _ Hd) as ((Hh & _) & _). apply he_lt in Hh. exact Hh.
  - destruct (R_ok _ _ R _ (R_cur _ _ R)) as ((Hh & Hn) & Xc).
    pose proof (glue_some _ _ M _ _ _ _ Hh Hn) as (w & n3 & n4 & V).
    destruct (view_nth _ _ _ _ _ _ _ _ V) as (t & Ht).
    unfold getN in H. rewrite Ht in H. cbn [bind] in H.
    assert (Hcur : d_edge cur = Edge (efrom (d_edge cur)) (eto (d_edge cur))) by now destruct (d_edge cur).
    cbn [eto] in H. destruct (verts_contains t b) eqn:Hb.
    + inversion H; subst l. apply registered_rev. eapply reg_end; eauto. now apply (contains_corner _ _ _ Ht).
    + destruct (get_next_triangle_edge_intersection vs (va, vb) t (d_to cur) (d_edge cur)) as [[d|]| | |] eqn:Hnx;
        cbn [bind] in H; try discriminate.
      destruct (next_intersection_spec _ _ _ Ht _ _ Hnx) as (F1 & F2 & F3 & F4 & F5).
      apply (IH d (d :: acc)); [|clear -Hlen; cbn [length] in *; lia|exact H].
      eapply reg_step; eauto. split; auto. now rewrite F1.
Qed.

(** The whole search: either the edge is already there, or the crossed edges are exactly
    those returned. *)
Lemma register_sound v2t l start :
  nthN v2t a = Some start -> corner ts start a ->
  register_intersected_edges ts vs (Edge a b) (va, vb) v2t = Ret l ->
  (l = [] /\ medge ts a b) \/ (l <> [] /\ Registered l).
Proof.
  intros Hv Ca H. unfold register_intersected_edges, getN in H. cbn [efrom] in H. rewrite Hv in H. cbn [bind] in H.
  destruct (search_first_intersected_quad ts vs (Edge a b) (va, vb) start) as [r| | |] eqn:Hs; cbn [bind] in H; try discriminate.
  pose proof (search_sound _ _ Ca Hs) as S. destruct r as [|d|]; [|simpl in S|discriminate].
  - left. inversion H. auto.
  - right. destruct S as (Ok & Xd & x & z & V).
    assert (R : Registered l).
    { apply (register_loop_sound (length ts) d [d] l); [exact (reg_start _ _ _ Ok Xd V)|clear; cbn [length]; lia|exact H]. }
    split; auto. intros ->. destruct (G_seg _ R 1 1) as (i & x' & y' & z' & n1 & n2 & n3 & Vi & P1 & P2 & P3); [lra|lra|].
    (* the list returned contains its first element *)
    clear -H. revert H. 
    assert (Q : forall n cur acc, acc <> [] -> register_loop n ts vs (Edge a b) (va, vb) cur acc = Ret [] -> False).
    { induction n as [|n IH]; intros cur acc Hne H; simpl in H.
      - apply Ret_inj in H. apply Hne. rewrite <- (rev_involutive acc). now rewrite H.
      - destruct (getN ts (d_to cur)) as [t| | |]; cbn [bind] in H; try discriminate.
        destruct (verts_contains t b).
        + apply Ret_inj in H. apply Hne. rewrite <- (rev_involutive acc). now rewrite H.
        + destruct (get_next_triangle_edge_intersection _ _ _ _ _) as [[e|]| | |]; cbn [bind] in H; try discriminate.
          eapply IH; [|exact H]. discriminate. }
    intros H. eapply Q; [|exact H]. discriminate.
Qed.

(** Completeness. *)
Lemma registered_complete l x y : Registered l -> medge ts x y -> crosses a b x y ->
  exists d, In d l /\ sameE x y (efrom (d_edge d)) (eto (d_edge d)).
Proof.
  intros R Hm Hc.
  assert (Main : forall x y, medge ts x y -> xing x y ->
    exists d, In d l /\ sameE x y (efrom (d_edge d)) (eto (d_edge d))).
  { clear x y Hm Hc. intros x y Hm Hx.
    destruct (G_seg _ R (D x y b) (- D x y a)) as (i & p & q & r & n1 & n2 & n3 & V & P1 & P2 & P3).
    { destruct Hx; lra. } { destruct Hx; lra. }
    change (onseg (D x y b) (- D x y a)) with (cpt x y) in *.
    assert (Hw : (0 < hw (cpt x y))%Q) by (exact (hw_cpt vs px py X a b va vb Na Nb x y Hx)).
    assert (Le : (det (pos p) (pos q) (cpt x y) <= 0)%Q) by (destruct P3 as [|(? & _)]; lra).
    assert (J : exists j e f n, he ts j e f n /\ sameE e f x y /\ inC pos ts j (cpt x y) /\ (det (pos e) (pos f) (cpt x y) == 0)%Q).
    { destruct Hm as [(j & n & H)|(j & n & H)]; pose proof H as (w & m1 & m2 & Vj);
        pose proof (M_cw _ _ M _ _ _ _ _ _ _ Vj) as Cj.
      - exists j, x, y, n. split; auto. split; [apply sameE_refl|]. split; [|apply cpt_on].
        apply (inC_view _ _ _ _ _ _ _ _ _ _ Vj). destruct (cpt_right px py a b x y w Hx Cj) as (Q1 & Q2).
        pose proof (cpt_on px py a b x y). repeat split; lra.
      - exists j, y, x, n. split; auto. split; [apply sameE_flip, sameE_refl|].
        assert (Z : (det (pos y) (pos x) (cpt x y) == 0)%Q).
        { pose proof (cpt_on px py a b x y). pose proof (det_anti (pos x) (pos y) (cpt x y)). lra. }
        split; auto.
        apply (inC_view _ _ _ _ _ _ _ _ _ _ Vj). destruct (cpt_left px py a b x y w Hx Cj) as (Q1 & Q2).
        repeat split; lra. }
    destruct J as (j & e & f & n & He & Se & Ce & Ze).
    destruct (edge_point_edge px py ts i p q r n1 n2 n3 (cpt x y) j e f n M V Hw Le P1 P2 He Ce Ze) as (Z & S).
    destruct P3 as [P3|(_ & d & Hd & S')]; [lra|]. exists d. split; auto.
    eapply sameE_trans; [apply sameE_sym; exact Se|]. eapply sameE_trans; eauto. }
  destruct (cross_cases vs px py X a b va vb Na Nb x y Hc) as [C|C].
  - now apply Main.
  - destruct (Main y x (medge_sym _ _ _ Hm) C) as (d & Hd & S). exists d. split; auto. now apply sameE_flip.
Qed.

(** No vertex of the mesh is strictly inside the constrained edge. *)
Lemma registered_no_vertex l w s t : Registered l -> hascorner ts w -> is_finite w = true ->
  (0 < s)%Q -> (0 < t)%Q -> peq (pos w) (onseg s t) -> False.
Proof.
  intros R (j & Cj) Fw Hs Ht Pq.
  destruct (G_seg _ R s t Hs Ht) as (i & x & y & z & n1 & n2 & n3 & V & P1 & P2 & P3).
  rewrite <- Pq in P1, P2, P3.
  destruct P3 as [P3|(P3 & _)].
  - assert (Ti : inT pos ts i (pos w)) by (apply (inT_view _ _ _ _ _ _ _ _ _ _ V); repeat split; auto).
    pose proof (open_closed_excl _ _ M _ _ _ Ti (corner_closed px py ts j w M Cj)) as <-.
    pose proof (det_zero (pos x) (pos y)). pose proof (det_zero (pos y) (pos z)). pose proof (det_zero (pos z) (pos x)).
    destruct (corner_cases px py _ _ _ _ _ _ _ _ _ V Cj) as [-> |[-> | ->]]; lra.
  - apply (vertex_excl_edge px py ts i x y z n1 n2 n3 j w M V Cj); auto. rewrite (hw_fin px py w Fw). lra.
Qed.

End WithEnv.
