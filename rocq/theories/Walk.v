(** * Walk: the point location walk, with exact predicates. *)

From Coq Require Import NArith List Bool Lia QArith Lqa.
From Verif Require Import Base BaseFacts Arith Types Utils Infinite Triangulation Geom Mesh
  MeshOps Exact AnyDT.
Import ListNotations.
Local Open Scope N_scope.

(** Outcome of a model computation: a value satisfying [P] or an error satisfying [Q];
    never a panic, never out of fuel. *)
Definition post {A : Type} (r : res A) (P : A -> Prop) (Q : err -> Prop) : Prop :=
  match r with
  | Ret a => P a
  | Fail e => Q e
  | Panic => False
  | OutOfFuel => False
  end.

Lemma post_bind {A B : Type} (m : res A) (f : A -> res B) P Q R :
  post m P Q -> (forall a, P a -> post (f a) R Q) -> post (bind m f) R Q.
Proof. destruct m; simpl; auto. Qed.

Lemma post_weaken {A : Type} (r : res A) (P P' : A -> Prop) (Q Q' : err -> Prop) :
  post r P Q -> (forall a, P a -> P' a) -> (forall e, Q e -> Q' e) -> post r P' Q'.
Proof. destruct r; simpl; auto. Qed.

Section WithEnv.
Context {E : Env}.
Variable vs : list vertex.
Variables px py : N -> Q.
Hypothesis X : Exact vs px py.

Notation pos := (hpos px py).
Notation D a b c := (det (pos a) (pos b) (pos c)).
Notation Mesh := (Mesh pos).

(** A finite id is an index of the vertex list. *)
Definition vok (v : N) : Prop := is_finite v = true -> v < lenN vs.
Definition Ids (ts : list tri) : Prop := mesh_all vok ts.

Lemma get_vertex v : vok v -> is_finite v = true -> exists p, getN vs v = Ret p /\ nthN vs v = Some p.
Proof.
  intros H F. destruct (nthN_Some vs v (H F)) as (p & Hp).
  exists p. split; auto. unfold getN. now rewrite Hp.
Qed.

Lemma index_finite v p : nthN vs v = Some p -> is_finite v = true.
Proof.
  intros H. apply nthN_lt in H. pose proof (X_len _ _ _ X). unfold is_finite.
  apply N.ltb_lt. lia.
Qed.

Lemma Ids_tv ts i t k : Ids ts -> nthN ts i = Some t -> vok (tv t k).
Proof. intros H Ht. apply (tri_all_tv _ t k). apply H. eapply nthN_In; eauto. Qed.

Lemma Ids_view ts i a b c x y z : Ids ts -> view ts i a b c x y z -> vok a /\ vok b /\ vok c.
Proof.
  intros H (t & k & Ht & Er). unfold rot in Er. injection Er; intros; subst.
  repeat split; eapply Ids_tv; eauto.
Qed.

Lemma Ids_he ts i u v n : Ids ts -> he ts i u v n -> vok u /\ vok v.
Proof. intros H (c & y & z & V). destruct (Ids_view _ _ _ _ _ _ _ _ H V) as (? & ? & ?); auto. Qed.

(** The walk came from [prev], across an edge with [P] strictly on the other side. *)
Definition came_from (ts : list tri) (prev cur P : N) : Prop :=
  prev = cur \/ exists u v, he ts prev u v cur /\ (0 < D u v P)%Q.

Section Step.
Variable ts : list tri.
Hypothesis M : Mesh ts.
Hypothesis I : Ids ts.
Variables P prev cur : N.
Variable p : vertex.
Hypothesis HP : nthN vs P = Some p.
Hypothesis Hcur : cur < lenN ts.
Hypothesis Hprev : came_from ts prev cur P.
Variable t : tri.
Hypothesis Ht : nthN ts cur = Some t.

Lemma P_fin : is_finite P = true.
Proof. eapply index_finite; eauto. Qed.

Lemma cur_id : cur <> NONE.
Proof. pose proof (M_len _ _ M). unfold NONE. lia. Qed.

Lemma prev_neg k : tn t k = prev -> (D (tv t k) (tv t (next_cw k)) P < 0)%Q.
Proof.
  intros Hk. pose proof (he_at ts cur t k Ht) as H. rewrite Hk in H.
  destruct Hprev as [Q|(u & v & G & Hd)].
  - rewrite Q in H. exfalso. exact (no_self _ _ M _ _ _ H cur_id).
  - pose proof (glue_some _ _ M _ _ _ _ G cur_id) as G'.
    assert (Hn : prev <> NONE) by (apply he_lt in G; pose proof (M_len _ _ M); unfold NONE; lia).
    destruct (two_edges' _ _ M _ _ _ _ _ _ H G' Hn) as (-> & ->).
    pose proof (det_anti (pos u) (pos v) (pos P)). lra.
Qed.

(** A side test that did not fire. *)
Lemma side_pass k (b : bool) :
  (b = true <-> 0 < D (tv t k) (tv t (next_cw k)) P)%Q ->
  (negb (prev =? tn t k) && b = false \/ b && negb (prev =? tn t k) = false) ->
  (D (tv t k) (tv t (next_cw k)) P <= 0)%Q.
Proof.
  intros Hb Hf. destruct (N.eqb_spec prev (tn t k)) as [Q|Q].
  - symmetry in Q. apply prev_neg in Q. lra.
  - destruct b.
    + destruct Hf; discriminate.
    + destruct (Qlt_le_dec 0 (D (tv t k) (tv t (next_cw k)) P)) as [H|H]; auto.
      apply Hb in H. discriminate.
Qed.

(** A side test that fired. *)
Lemma side_move k :
  (0 < D (tv t k) (tv t (next_cw k)) P)%Q ->
  tn t k < lenN ts /\ exists u v, he ts cur u v (tn t k) /\ (0 < D u v P)%Q.
Proof.
  intros Hd. pose proof (he_at ts cur t k Ht) as H.
  assert (Hn : tn t k <> NONE).
  { intros Hn. rewrite Hn in H.
    destruct (glue_none _ _ M _ _ _ H) as (A & B).
    rewrite inf_not_fin in A, B. apply negb_true_iff in A, B.
    destruct H as (c & y & z & V).
    pose proof (M_cw _ _ M _ _ _ _ _ _ _ V) as C.
    destruct (is_finite c) eqn:F.
    - pose proof (two_inf px py _ _ _ _ A B F P_fin). lra.
    - pose proof (three_inf px py _ _ _ A B F). lra. }
  split.
  - pose proof (glue_some _ _ M _ _ _ _ H Hn) as G. now apply he_lt in G.
  - eauto.
Qed.

Definition placed_ok (s : walk_step) : Prop :=
  match s with
  | Placed (InsideTriangle i) => i = cur /\ inT pos ts cur (pos P)
  | Placed (OnTriangleEdge i k e) =>
      i = cur /\ e = tedge t k /\
      (D (tv t k) (tv t (next_cw k)) P == 0)%Q /\
      (D (tv t (next_cw k)) (tv t (next_ccw k)) P <= 0)%Q /\
      (D (tv t (next_ccw k)) (tv t k) P <= 0)%Q
  | Placed NotFound => False
  | MoveTo pr cu => pr = cur /\ cu < lenN ts /\ exists u v, he ts cur u v cu /\ (0 < D u v P)%Q
  end.

Lemma eqb_dec_sym k : is_infinite (tv t k) = false -> is_finite (tv t k) = true.
Proof. rewrite inf_not_fin. now destruct (is_finite (tv t k)). Qed.

Lemma tedge_eq k : tedge t k = Edge (tv t k) (tv t (next_cw k)).
Proof. destruct k; reflexivity. Qed.

(** The closing cases of the walk, from the three signs. *)
Lemma finish_inside :
  (D (t_v1 t) (t_v2 t) P < 0)%Q -> (D (t_v2 t) (t_v3 t) P < 0)%Q -> (D (t_v3 t) (t_v1 t) P < 0)%Q ->
  inT pos ts cur (pos P).
Proof.
  intros A B C. apply (inT_view _ _ _ _ _ _ _ _ _ _ (view_exists _ _ _ Ht)). repeat split; auto.
Qed.

Lemma lt_of x : (x <= 0 -> ~ x == 0 -> x < 0)%Q.
Proof. intros A B. destruct (Qlt_le_dec x 0); auto. exfalso; apply B; lra. Qed.

Lemma walk_finite_ok :
  is_infinite (t_v1 t) = false -> is_infinite (t_v2 t) = false -> is_infinite (t_v3 t) = false ->
  post (walk_finite vs p t cur prev cur) placed_ok (fun _ => False).
Proof.
  intros F1 F2 F3.
  destruct (get_vertex (t_v1 t)) as (p1 & G1 & N1); [apply (Ids_tv _ _ _ I1 I Ht)|apply (eqb_dec_sym I1 F1)|].
  destruct (get_vertex (t_v2 t)) as (p2 & G2 & N2); [apply (Ids_tv _ _ _ I2 I Ht)|apply (eqb_dec_sym I2 F2)|].
  destruct (get_vertex (t_v3 t)) as (p3 & G3 & N3); [apply (Ids_tv _ _ _ I3 I Ht)|apply (eqb_dec_sym I3 F3)|].
  unfold walk_finite. rewrite G1, G2, G3. cbn [bind].
  destruct (X_side _ _ _ X _ _ _ _ _ _ N1 N2 HP) as (L1 & Z1).
  destruct (X_side _ _ _ X _ _ _ _ _ _ N2 N3 HP) as (L2 & Z2).
  destruct (X_side _ _ _ X _ _ _ _ _ _ N3 N1 HP) as (L3 & Z3).
  pose proof (side_pass I1 _ L1) as S1. pose proof (side_pass I2 _ L2) as S2.
  pose proof (side_pass I3 _ L3) as S3.
  destruct (negb (prev =? t_n12 t) && _) eqn:B1.
  { apply andb_true_iff in B1. destruct B1 as (_ & B1). apply L1 in B1.
    destruct (side_move I1 B1) as (Q1 & Q2). repeat split; auto. }
  destruct (negb (prev =? t_n23 t) && _) eqn:B2.
  { apply andb_true_iff in B2. destruct B2 as (_ & B2). apply L2 in B2.
    destruct (side_move I2 B2) as (Q1 & Q2). repeat split; auto. }
  destruct (negb (prev =? t_n31 t) && _) eqn:B3.
  { apply andb_true_iff in B3. destruct B3 as (_ & B3). apply L3 in B3.
    destruct (side_move I3 B3) as (Q1 & Q2). repeat split; auto. }
  specialize (S1 (or_introl B1)). specialize (S2 (or_introl B2)). specialize (S3 (or_introl B3)).
  simpl in S1, S2, S3.
  destruct (is_near_edge (test_point_edge_side (p1, p2) p)) eqn:E1.
  { pose proof (proj1 Z1 eq_refl) as Zz. simpl. auto 6. }
  destruct (is_near_edge (test_point_edge_side (p2, p3) p)) eqn:E2.
  { pose proof (proj1 Z2 eq_refl) as Zz. simpl. auto 6. }
  destruct (is_near_edge (test_point_edge_side (p3, p1) p)) eqn:E3.
  { pose proof (proj1 Z3 eq_refl) as Zz. simpl. auto 6. }
  simpl. split; auto. apply finish_inside; apply lt_of; auto.
  - intros Q. apply Z1 in Q. congruence.
  - intros Q. apply Z2 in Q. congruence.
  - intros Q. apply Z3 in Q. congruence.
Qed.

Lemma quad_index_some v : is_infinite v = true -> exists q, infinite_vertex_local_quad_index v = Some q.
Proof.
  intros H. rewrite inf_not_fin in H. apply negb_true_iff in H.
  unfold infinite_vertex_local_quad_index. rewrite H.
  destruct (v =? INF0), (v =? INF1), (v =? INF2); eauto.
Qed.

Lemma det_flip a b : (D a b P < 0 <-> 0 < D b a P)%Q /\ (D a b P == 0 <-> D b a P == 0)%Q.
Proof. pose proof (det_anti (pos a) (pos b) (pos P)). repeat split; lra. Qed.

Lemma inside_any k :
  (D (tv t k) (tv t (next_cw k)) P < 0)%Q ->
  (D (tv t (next_cw k)) (tv t (next_ccw k)) P < 0)%Q ->
  (D (tv t (next_ccw k)) (tv t k) P < 0)%Q ->
  inT pos ts cur (pos P).
Proof. intros A B C. destruct k; simpl in *; now apply finish_inside. Qed.

Lemma walk_1_ok i :
  is_infinite (tv t i) = true -> is_infinite (tv t (next_cw i)) = false ->
  is_infinite (tv t (next_ccw i)) = false ->
  post (vertex_placement_1_infinite vs p t cur i prev cur) placed_ok (fun _ => False).
Proof.
  intros F1 F2 F3.
  destruct (get_vertex (tv t (next_cw i))) as (pa & G2 & N2);
    [apply (Ids_tv _ _ _ _ I Ht)|apply (eqb_dec_sym _ F2)|].
  destruct (get_vertex (tv t (next_ccw i))) as (pb & G3 & N3);
    [apply (Ids_tv _ _ _ _ I Ht)|apply (eqb_dec_sym _ F3)|].
  destruct (quad_index_some _ F1) as (q & Hq).
  unfold vertex_placement_1_infinite. rewrite G2, G3. cbn [bind]. cbv zeta. rewrite Hq.
  unfold vertex_next_cw_edge_index, vertex_next_ccw_edge_index.
  destruct (X_side _ _ _ X _ _ _ _ _ _ N2 N3 HP) as (L1 & Z1).
  destruct (X_semi _ _ _ X _ _ _ _ _ _ N2 Hq HP) as (_ & R2 & Z2).
  destruct (X_semi _ _ _ X _ _ _ _ _ _ N3 Hq HP) as (L3 & _ & Z3).
  destruct (det_flip (tv t (next_cw i)) (tv t i)) as (Fl & Fz).
  rewrite Fl in R2. rewrite Fz in Z2.
  set (ab := test_point_edge_side (pa, pb) p) in *.
  set (sa := test_point_edge_side (edge_from_semi_infinite_edge pa q) p) in *.
  set (sb := test_point_edge_side (edge_from_semi_infinite_edge pb q) p) in *.
  assert (C1 : next_cw (next_cw i) = next_ccw i) by (destruct i; reflexivity).
  assert (C2 : next_ccw (next_cw i) = i) by (destruct i; reflexivity).
  assert (C3 : next_cw (next_ccw i) = i) by (destruct i; reflexivity).
  assert (C4 : next_ccw (next_ccw i) = next_cw i) by (destruct i; reflexivity).
  rewrite C2.
  pose proof (side_pass (next_cw i) (is_on_left_side ab)) as S1.
  pose proof (side_pass i (is_on_right_side sa)) as S2.
  pose proof (side_pass (next_ccw i) (is_on_left_side sb)) as S3.
  pose proof (side_move (next_cw i)) as V1. pose proof (side_move i) as V2.
  pose proof (side_move (next_ccw i)) as V3.
  rewrite C1 in S1, V1. rewrite C3 in S3, V3.
  destruct (is_on_left_side ab && _) eqn:B1.
  { apply andb_true_iff in B1. destruct B1 as (B1 & _). apply L1 in B1.
    destruct (V1 B1) as (Q1 & Q2). repeat split; auto. }
  destruct (is_on_right_side sa && _) eqn:B2.
  { apply andb_true_iff in B2. destruct B2 as (B2 & _). apply R2 in B2.
    destruct (V2 B2) as (Q1 & Q2). repeat split; auto. }
  destruct (is_on_left_side sb && _) eqn:B3.
  { apply andb_true_iff in B3. destruct B3 as (B3 & _). apply L3 in B3.
    destruct (V3 B3) as (Q1 & Q2). repeat split; auto. }
  specialize (S1 L1 (or_intror eq_refl)). specialize (S2 R2 (or_intror eq_refl)).
  specialize (S3 L3 (or_intror eq_refl)).
  destruct (is_near_edge ab) eqn:E1.
  { pose proof (proj1 Z1 eq_refl) as Zz. simpl. rewrite C1, C2, tedge_eq, C1. auto 6. }
  destruct (is_near_edge sa) eqn:E2.
  { pose proof (proj1 Z2 eq_refl) as Zz. simpl. rewrite tedge_eq. auto 6. }
  destruct (is_near_edge sb) eqn:E3.
  { pose proof (proj1 Z3 eq_refl) as Zz. simpl. rewrite C3, C4, tedge_eq, C3. auto 6. }
  simpl. split; auto. apply (inside_any i); apply lt_of; auto.
  - intros Q. apply Z2 in Q. congruence.
  - intros Q. apply Z1 in Q. congruence.
  - intros Q. apply Z3 in Q. congruence.
Qed.

Lemma walk_2_ok i :
  is_infinite (tv t i) = false -> is_infinite (tv t (next_cw i)) = true ->
  is_infinite (tv t (next_ccw i)) = true ->
  forall i0 i1, opposite_vertex_index_from_edge i0 i1 = Some i ->
  post (vertex_placement_2_infinite vs p t cur i0 i1 prev cur) placed_ok (fun _ => False).
Proof.
  intros F1 F2 F3 i0 i1 Ho.
  destruct (get_vertex (tv t i)) as (pf & G1 & N1);
    [apply (Ids_tv _ _ _ _ I Ht)|apply (eqb_dec_sym _ F1)|].
  destruct (quad_index_some _ F2) as (qa & Ha). destruct (quad_index_some _ F3) as (qb & Hb).
  unfold vertex_placement_2_infinite. rewrite Ho, G1. cbn [bind]. cbv zeta. rewrite Ha, Hb.
  unfold vertex_next_cw_edge_index, vertex_next_ccw_edge_index.
  destruct (X_semi _ _ _ X _ _ _ _ _ _ N1 Ha HP) as (L1 & _ & Z1).
  destruct (X_semi _ _ _ X _ _ _ _ _ _ N1 Hb HP) as (_ & R2 & Z2).
  destruct (det_flip (tv t i) (tv t (next_ccw i))) as (Fl & Fz).
  rewrite Fl in R2. rewrite Fz in Z2.
  set (sa := test_point_edge_side (edge_from_semi_infinite_edge pf qa) p) in *.
  set (sb := test_point_edge_side (edge_from_semi_infinite_edge pf qb) p) in *.
  assert (C3 : next_cw (next_ccw i) = i) by (destruct i; reflexivity).
  assert (C4 : next_ccw (next_ccw i) = next_cw i) by (destruct i; reflexivity).
  assert (Far : (D (tv t (next_cw i)) (tv t (next_ccw i)) P < 0)%Q).
  { pose proof (view_at ts cur t (next_cw i) Ht) as V.
    apply (M_cw _ _ M) in V.
    assert (C1 : next_cw (next_cw i) = next_ccw i) by (destruct i; reflexivity).
    assert (C2 : next_ccw (next_cw i) = i) by (destruct i; reflexivity).
    rewrite C1, C2 in V. rewrite inf_not_fin in F2, F3. apply negb_true_iff in F2, F3.
    pose proof (two_inf px py _ _ _ _ F2 F3 (eqb_dec_sym _ F1) P_fin). lra. }
  pose proof (side_pass i (is_on_left_side sa)) as S1.
  pose proof (side_pass (next_ccw i) (is_on_right_side sb)) as S2.
  pose proof (side_move i) as V1. pose proof (side_move (next_ccw i)) as V2.
  rewrite C3 in S2, V2.
  destruct (is_on_left_side sa && _) eqn:B1.
  { apply andb_true_iff in B1. destruct B1 as (B1 & _). apply L1 in B1.
    destruct (V1 B1) as (Q1 & Q2). repeat split; auto. }
  destruct (is_on_right_side sb && _) eqn:B2.
  { apply andb_true_iff in B2. destruct B2 as (B2 & _). apply R2 in B2.
    destruct (V2 B2) as (Q1 & Q2). repeat split; auto. }
  specialize (S1 L1 (or_intror eq_refl)). specialize (S2 R2 (or_intror eq_refl)).
  destruct (is_near_edge sa) eqn:E1.
  { pose proof (proj1 Z1 eq_refl) as Zz. simpl. rewrite tedge_eq. repeat split; auto; lra. }
  destruct (is_near_edge sb) eqn:E2.
  { pose proof (proj1 Z2 eq_refl) as Zz. simpl. rewrite C3, C4, tedge_eq, C3. repeat split; auto; lra. }
  simpl. split; auto. apply (inside_any i); auto; apply lt_of; auto.
  - intros Q. apply Z1 in Q. congruence.
  - intros Q. apply Z2 in Q. congruence.
Qed.

Lemma walk_iter_post : post (walk_iter ts vs p prev cur) placed_ok (fun _ => False).
Proof.
  unfold walk_iter. unfold getN at 1. rewrite Ht. cbn [bind].
  assert (NoThree : exists l, collect_infinite_triangle_vertices t = Ret l).
  { pose proof (M_cw _ _ M _ _ _ _ _ _ _ (view_exists _ _ _ Ht)) as C.
    unfold collect_infinite_triangle_vertices.
    destruct (is_infinite (t_v1 t)) eqn:A, (is_infinite (t_v2 t)) eqn:B, (is_infinite (t_v3 t)) eqn:F;
      simpl; eauto.
    rewrite inf_not_fin in A, B, F. apply negb_true_iff in A, B, F.
    pose proof (three_inf px py _ _ _ A B F). lra. }
  destruct NoThree as (l & Hl). rewrite Hl. cbn [bind].
  destruct (collect_cases _ _ Hl) as [(-> & A & B & C)|[(i & -> & A & B & C)|(i & -> & A & B & C)]].
  - now apply walk_finite_ok.
  - now apply walk_1_ok.
  - destruct i; apply (walk_2_ok _ A B C); reflexivity.
Qed.

End Step.

(** What the walk reports. *)
Definition location_ok (ts : list tri) (P : N) (pl : placement) : Prop :=
  match pl with
  | InsideTriangle i => inT pos ts i (pos P)
  | OnTriangleEdge i k e => exists t, nthN ts i = Some t /\ e = tedge t k /\
      (D (tv t k) (tv t (next_cw k)) P == 0)%Q /\
      (D (tv t (next_cw k)) (tv t (next_ccw k)) P <= 0)%Q /\
      (D (tv t (next_ccw k)) (tv t k) P <= 0)%Q
  | NotFound => True
  end.

Lemma walk_post ts P p n : forall prev cur,
  Mesh ts -> Ids ts -> nthN vs P = Some p -> cur < lenN ts -> came_from ts prev cur P ->
  post (walk n ts vs p prev cur) (location_ok ts P) (fun _ => False).
Proof.
  induction n as [|n IH]; intros prev cur M I HP Hc Hw; simpl; auto.
  assert (Hn : nexists cur = true).
  { unfold nexists, NONE. pose proof (M_len _ _ M). apply negb_true_iff, N.eqb_neq. lia. }
  rewrite Hn. simpl.
  destruct (nthN_Some ts cur Hc) as (t & Ht).
  pose proof (walk_iter_post ts M I P prev cur p HP Hc Hw t Ht) as S.
  destruct (walk_iter ts vs p prev cur) as [s|e| |]; simpl in S; try contradiction.
  cbn [bind]. destruct s as [pl|pr cu]; simpl in S.
  - destruct pl; simpl in *.
    + destruct S as (-> & S). exact S.
    + destruct S as (-> & S). exists t. tauto.
    + exact Logic.I.
  - destruct S as (-> & S1 & S2). apply IH; auto. now right.
Qed.

Lemma find_post ts P p from :
  Mesh ts -> Ids ts -> nthN vs P = Some p -> from < lenN ts ->
  post (find_vertex_placement p from ts vs) (location_ok ts P) (fun _ => False).
Proof.
  intros. unfold find_vertex_placement. apply walk_post; auto. now left.
Qed.

End WithEnv.
