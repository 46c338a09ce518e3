(** * CSwap: the diagonal swap of the constrained triangulation, with exact predicates. *)

From Coq Require Import NArith List Bool Lia QArith Lqa.
From Verif Require Import Base BaseFacts Arith Types Utils Infinite Triangulation Constrained Geom Mesh
  MeshOps Exact ExactC MeshVerts AnyDT Walk Insert DTExact.
Import ListNotations.
Local Open Scope N_scope.

(** The same undirected edge. *)
Definition sameE (x y u v : N) : Prop := (x = u /\ y = v) \/ (x = v /\ y = u).

Lemma sameE_refl x y : sameE x y x y.
Proof. now left. Qed.
Lemma sameE_sym x y u v : sameE x y u v -> sameE u v x y.
Proof. intros [(-> & ->)|(-> & ->)]; [now left|now right]. Qed.
Lemma sameE_flip x y u v : sameE x y u v -> sameE y x u v.
Proof. intros [(-> & ->)|(-> & ->)]; [now right|now left]. Qed.
Lemma sameE_flip2 x y u v : sameE x y u v -> sameE x y v u.
Proof. intros [(-> & ->)|(-> & ->)]; [now right|now left]. Qed.
Lemma sameE_trans x y u v s t : sameE x y u v -> sameE u v s t -> sameE x y s t.
Proof. intros [(-> & ->)|(-> & ->)] [(-> & ->)|(-> & ->)]; [now left|now right|now right|now left]. Qed.
Lemma sameE_dec x y u v : {sameE x y u v} + {~ sameE x y u v}.
Proof.
  unfold sameE. destruct (N.eq_dec x u), (N.eq_dec y v), (N.eq_dec x v), (N.eq_dec y u); subst; try (left; tauto); right; intuition congruence.
Defined.

Lemma undirected_sameE e f : undirected_equals e f = true <-> sameE (efrom e) (eto e) (efrom f) (eto f).
Proof.
  unfold undirected_equals, edge_eqb, sameE. rewrite orb_true_iff, !andb_true_iff, !N.eqb_eq. tauto.
Qed.

(** The link of a pending edge after the swap (update_edges_data on the pair of ids). *)
Definition upd_pair {E : Env} (n3 n1 t1 t2 : N) (p : N * N) : N * N :=
  let p := if nexists n3 then
             if (fst p =? n3) && (snd p =? t2) then (fst p, t1)
             else if (fst p =? t2) && (snd p =? n3) then (t1, snd p) else p
           else p in
  if nexists n1 then
    if (fst p =? n1) && (snd p =? t1) then (fst p, t2)
    else if (fst p =? t1) && (snd p =? n1) then (t2, snd p) else p
  else p.

Lemma update_edge_data_pair {E : Env} n3 n1 t1 t2 d :
  update_edge_data n3 n1 t1 t2 d =
  ED (fst (upd_pair n3 n1 t1 t2 (d_from d, d_to d))) (snd (upd_pair n3 n1 t1 t2 (d_from d, d_to d))) (d_edge d).
Proof.
  destruct d as [f t e]. unfold update_edge_data, upd_pair. cbn [d_from d_to d_edge fst snd].
  destruct (nexists n3); [destruct ((f =? n3) && (t =? t2)); [|destruct ((f =? t2) && (t =? n3))]|];
    cbn [d_from d_to d_edge fst snd];
    (destruct (nexists n1); [|reflexivity]);
    repeat match goal with |- context [if ?c then _ else _] => destruct c end; reflexivity.
Qed.

(** ** The effect of a flip on the edges *)
Section Flip.
Context {E : Env}.
Variable pos : N -> pt3.
Notation D a b c := (det (pos a) (pos b) (pos c)).
Notation Mesh := (Mesh pos).
Variables (ts ts' : list tri) (t1 t2 a b c d n1 n2 n3 n4 : N).
Hypothesis M : Mesh ts.
Hypothesis W1 : view ts t1 d a b n2 t2 n1.
Hypothesis W2 : view ts t2 b a c t1 n3 n4.
Hypothesis N1 : (D d a c < 0)%Q.
Hypothesis N2 : (D d c b < 0)%Q.
Hypothesis Hlen : lenN ts' = lenN ts.
Hypothesis V1 : view ts' t1 d a c n2 n3 t2.
Hypothesis V2 : view ts' t2 d c b t1 n4 n1.
Hypothesis Hout : forall j, j <> t1 -> j <> t2 -> j < lenN ts ->
  nthN ts' j = option_map (fun x => if j =? n1 then update_triangle_neighbor x t1 t2
                                    else if j =? n3 then update_triangle_neighbor x t2 t1
                                    else x) (nthN ts j).

Let M' : Mesh ts' := mesh_flip pos ts ts' t1 t2 a b c d n1 n2 n3 n4 M W1 W2 N1 N2 Hlen V1 V2 Hout.

Lemma flip_nbrs :
  (n1 <> t1 /\ n1 <> t2) /\ (n2 <> t1 /\ n2 <> t2) /\ (n3 <> t1 /\ n3 <> t2) /\ (n4 <> t1 /\ n4 <> t2) /\
  (n1 = n2 -> n1 = NONE) /\ (n3 = n4 -> n3 = NONE).
Proof.
  destruct (flip_facts pos ts t1 t2 a b c d n1 n2 n3 n4 M W1 W2)
    as (L1 & L2 & T12 & Tn1 & Tn2 & _).
  destruct (view_he _ _ _ _ _ _ _ _ W1) as (E1 & E2 & E3).
  destruct (view_he _ _ _ _ _ _ _ _ W2) as (E4 & E5 & E6).
  split; [split|split; [split|split; [split|split; [split|split]]]]; intros Q.
  - rewrite Q in E3. exact (no_self pos ts M _ _ _ E3 Tn1).
  - exact (two_edges pos ts M _ _ _ _ _ _ _ _ (view_rot _ _ _ _ _ _ _ _ W1) Tn2 eq_refl Q).
  - rewrite Q in E1. exact (no_self pos ts M _ _ _ E1 Tn1).
  - exact (two_edges pos ts M _ _ _ _ _ _ _ _ W1 Tn2 Q eq_refl).
  - exact (two_edges pos ts M _ _ _ _ _ _ _ _ W2 Tn1 eq_refl Q).
  - rewrite Q in E5. exact (no_self pos ts M _ _ _ E5 Tn2).
  - exact (two_edges pos ts M _ _ _ _ _ _ _ _ (view_rot2 _ _ _ _ _ _ _ _ W2) Tn1 Q eq_refl).
  - rewrite Q in E6. exact (no_self pos ts M _ _ _ E6 Tn2).
  - destruct (N.eq_dec n1 NONE) as [|Hn]; auto. exfalso.
    exact (two_edges pos ts M _ _ _ _ _ _ _ _ (view_rot2 _ _ _ _ _ _ _ _ W1) Hn eq_refl (eq_sym Q)).
  - destruct (N.eq_dec n3 NONE) as [|Hn]; auto. exfalso.
    exact (two_edges pos ts M _ _ _ _ _ _ _ _ (view_rot _ _ _ _ _ _ _ _ W2) Hn eq_refl (eq_sym Q)).
Qed.

Lemma flip_outer_he j x y n : j <> t1 -> j <> t2 -> he ts j x y n ->
  he ts' j x y (if (j =? n1) && (n =? t1) then t2 else if (j =? n3) && (n =? t2) then t1 else n).
Proof.
  intros J1 J2 H. apply he_inv in H. destruct H as (t & k & Ht & <- & <- & <-).
  assert (Hlt : j < lenN ts') by (apply nthN_lt in Ht; lia).
  destruct (nthN_Some _ _ Hlt) as (t' & Ht').
  destruct (flip_outer_tn pos ts ts' t1 t2 a b c d n1 n2 n3 n4 M W1 W2 Hlen Hout j t t' k J1 J2 Ht Ht') as (Tv & Tn).
  rewrite <- Tn, <- !Tv. now apply he_at.
Qed.

Lemma flip_outer_he' j x y n : j <> t1 -> j <> t2 -> he ts' j x y n -> exists n0, he ts j x y n0.
Proof.
  intros J1 J2 H. apply he_inv in H. destruct H as (t' & k & Ht' & <- & <- & <-).
  assert (Hlt : j < lenN ts) by (apply nthN_lt in Ht'; lia).
  destruct (nthN_Some _ _ Hlt) as (t & Ht).
  destruct (flip_outer_tn pos ts ts' t1 t2 a b c d n1 n2 n3 n4 M W1 W2 Hlen Hout j t t' k J1 J2 Ht Ht') as (Tv & _).
  rewrite !Tv. exists (tn t k). now apply he_at.
Qed.

Ltac facts :=
  destruct (flip_facts pos ts t1 t2 a b c d n1 n2 n3 n4 M W1 W2)
    as (L1 & L2 & T12 & Tn1 & Tn2 & X1 & X2 & X3 & X4 & X5 & X6 & X7);
  destruct flip_nbrs as ((Y1 & Y1') & (Y2 & Y2') & (Y3 & Y3') & (Y4 & Y4') & Y5 & Y6);
  destruct (view_he _ _ _ _ _ _ _ _ W1) as (E1 & E2 & E3);
  destruct (view_he _ _ _ _ _ _ _ _ W2) as (E4 & E5 & E6);
  destruct (view_he _ _ _ _ _ _ _ _ V1) as (F1 & F2 & F3);
  destruct (view_he _ _ _ _ _ _ _ _ V2) as (F4 & F5 & F6).

(** An edge other than the diagonal keeps its two triangles, up to renaming. *)
Lemma flip_he j x y n : he ts j x y n -> ~ sameE x y a b -> n <> NONE ->
  he ts' (fst (upd_pair n3 n1 t1 t2 (j, n))) x y (snd (upd_pair n3 n1 t1 t2 (j, n))).
Proof.
  intros H NS Hn. facts.
  assert (Ex : forall m, nexists m = negb (m =? NONE)) by reflexivity.
  assert (Res : forall f t, he ts' f x y t -> (f, t) = upd_pair n3 n1 t1 t2 (j, n) ->
     he ts' (fst (upd_pair n3 n1 t1 t2 (j, n))) x y (snd (upd_pair n3 n1 t1 t2 (j, n)))).
  { intros f t K Q. now rewrite <- Q. }
  destruct (N.eq_dec j t1) as [J1|J1]; [|destruct (N.eq_dec j t2) as [J2|J2]].
  - subst j. destruct (he_cases _ _ _ _ _ _ _ _ _ _ _ W1 H) as [(-> & -> & ->)|[(-> & -> & ->)|(-> & -> & ->)]].
    + apply (Res t1 n2 F1). unfold upd_pair. cbn [fst snd].
      rewrite (proj2 (N.eqb_neq t1 n3)), (proj2 (N.eqb_neq t1 t2)) by congruence. cbn [andb].
      destruct (nexists n3); cbn [fst snd];
        rewrite (proj2 (N.eqb_neq t1 n1)), (proj2 (N.eqb_neq n2 n1)), andb_false_r
          by (congruence || (intros Q; apply Hn; rewrite Q; apply Y5; congruence));
        cbn [andb]; destruct (nexists n1); reflexivity.
    + exfalso. apply NS. now left.
    + apply (Res t2 n1 F6). unfold upd_pair. cbn [fst snd].
      rewrite (proj2 (N.eqb_neq t1 n3)), (proj2 (N.eqb_neq t1 t2)) by congruence. cbn [andb].
      rewrite (Ex n1), (proj2 (N.eqb_neq n1 NONE)) by exact Hn. cbn [negb].
      destruct (nexists n3); cbn [fst snd];
        rewrite (proj2 (N.eqb_neq t1 n1)) by congruence; cbn [andb]; rewrite !N.eqb_refl; reflexivity.
  - subst j. destruct (he_cases _ _ _ _ _ _ _ _ _ _ _ W2 H) as [(-> & -> & ->)|[(-> & -> & ->)|(-> & -> & ->)]].
    + exfalso. apply NS. now right.
    + apply (Res t1 n3 F2). unfold upd_pair. cbn [fst snd]. rewrite !Ex.
      destruct (N.eqb_spec n3 NONE); try congruence. cbn [negb].
      destruct (N.eqb_spec t2 n3); try congruence. cbn [andb]. rewrite !N.eqb_refl. cbn [andb fst snd].
      destruct (N.eqb_spec n1 NONE); cbn [negb]; auto.
      destruct (N.eqb_spec t1 n1); try congruence. cbn [andb]. rewrite ?N.eqb_refl. cbn [andb].
      destruct (N.eqb_spec n3 n1); auto. assert (n1 = NONE) by (apply X7; congruence). congruence.
    + apply (Res t2 n4 F5). unfold upd_pair. cbn [fst snd]. rewrite !Ex.
      destruct (N.eqb_spec t2 n3); try congruence. destruct (N.eqb_spec n4 n3) as [Q|Q]; [assert (n3 = NONE) by (apply Y6; congruence); congruence|].
      cbn [andb]. rewrite andb_false_r. destruct (negb (n3 =? NONE)); cbn [fst snd];
        destruct (N.eqb_spec t2 n1), (N.eqb_spec t2 t1); try congruence; cbn [andb]; destruct (negb (n1 =? NONE)); reflexivity.
  - pose proof (flip_outer_he j x y n J1 J2 H) as K.
    pose proof (glue_some pos ts M _ _ _ _ H Hn) as G.
    eapply Res; [exact K|].
    assert (Jn : j <> NONE) by (intros Q; rewrite Q in H; apply (he_id pos ts M) in H; unfold NONE in H; lia).
    unfold upd_pair. cbn [fst snd]. rewrite !Ex.
    destruct (N.eqb_spec j t2); try congruence. destruct (N.eqb_spec j t1); try congruence. cbn [andb].
    destruct (N.eqb_spec j n3) as [Q3|Q3]; cbn [andb].
    + assert (n3 <> NONE) by congruence. destruct (N.eqb_spec n3 NONE); try congruence. cbn [negb].
      destruct (N.eqb_spec j n1) as [Q1|Q1]; [assert (n1 = NONE) by (apply X7; congruence); congruence|]. cbn [andb].
      destruct (N.eqb_spec n t2) as [Q2|Q2]; cbn [fst snd];
        (destruct (N.eqb_spec j n1); try congruence); (destruct (N.eqb_spec j t1); try congruence); cbn [andb]; destruct (negb (n1 =? NONE)); reflexivity.
    + assert (Z : (if negb (n3 =? NONE) then (j, n) else (j, n)) = (j, n)) by (destruct (negb (n3 =? NONE)); reflexivity).
      rewrite Z. cbn [fst snd].
      destruct (N.eqb_spec j n1) as [Q1|Q1]; cbn [andb].
      * assert (n1 <> NONE) by congruence. destruct (N.eqb_spec n1 NONE); try congruence. cbn [negb].
        destruct (N.eqb_spec j t1); try congruence. cbn [andb]. destruct (n =? t1); reflexivity.
      * destruct (N.eqb_spec j t1); try congruence. cbn [andb]. destruct (negb (n1 =? NONE)); reflexivity.
Qed.

Lemma flip_he_none j x y : he ts j x y NONE -> exists j', he ts' j' x y NONE.
Proof.
  intros H. facts.
  destruct (N.eq_dec j t1) as [J1|J1]; [|destruct (N.eq_dec j t2) as [J2|J2]].
  - subst j. destruct (he_cases _ _ _ _ _ _ _ _ _ _ _ W1 H) as [(-> & -> & Q)|[(-> & -> & Q)|(-> & -> & Q)]];
      [rewrite Q; eauto|congruence|rewrite Q; eauto].
  - subst j. destruct (he_cases _ _ _ _ _ _ _ _ _ _ _ W2 H) as [(-> & -> & Q)|[(-> & -> & Q)|(-> & -> & Q)]];
      [congruence|rewrite Q; eauto|rewrite Q; eauto].
  - exists j. pose proof (flip_outer_he j x y NONE J1 J2 H) as K.
    destruct (N.eqb_spec NONE t1); [congruence|]. destruct (N.eqb_spec NONE t2); [congruence|].
    now rewrite !andb_false_r in K.
Qed.

Lemma flip_he_any j x y n : he ts j x y n -> ~ sameE x y a b -> exists j' n', he ts' j' x y n'.
Proof.
  intros H NS. destruct (N.eq_dec n NONE) as [->|Hn].
  - destruct (flip_he_none _ _ _ H) as (j' & K). eauto.
  - eexists; eexists. exact (flip_he _ _ _ _ H NS Hn).
Qed.

(** The edges after the flip. *)
Lemma flip_he_inv j x y n : he ts' j x y n ->
  sameE x y c d \/ ((exists j0 n0, he ts j0 x y n0) /\ ~ sameE x y a b).
Proof.
  intros H. facts.
  destruct (N.eq_dec j t1) as [J1|J1]; [|destruct (N.eq_dec j t2) as [J2|J2]].
  - subst j. destruct (he_cases _ _ _ _ _ _ _ _ _ _ _ V1 H) as [(-> & -> & ->)|[(-> & -> & ->)|(-> & -> & ->)]].
    + right. split; [eauto|]. unfold sameE. intuition congruence.
    + right. split; [eauto|]. unfold sameE. intuition congruence.
    + left. now left.
  - subst j. destruct (he_cases _ _ _ _ _ _ _ _ _ _ _ V2 H) as [(-> & -> & ->)|[(-> & -> & ->)|(-> & -> & ->)]].
    + left. now right.
    + right. split; [eauto|]. unfold sameE. intuition congruence.
    + right. split; [eauto|]. unfold sameE. intuition congruence.
  - right. destruct (flip_outer_he' _ _ _ _ J1 J2 H) as (n0 & K). split; [eauto|].
    intros [(-> & ->)|(-> & ->)].
    + apply J1. exact (edge_share pos ts M _ _ _ _ _ _ K E2).
    + apply J2. exact (edge_share pos ts M _ _ _ _ _ _ K E4).
Qed.

(** The new diagonal was not an edge. *)
Lemma flip_fresh j x y n : he ts j x y n -> ~ sameE x y c d.
Proof.
  intros H S. facts.
  assert (NS : ~ sameE x y a b).
  { intros S'. unfold sameE in *. intuition congruence. }
  destruct (N.eq_dec j t1) as [J1|J1]; [|destruct (N.eq_dec j t2) as [J2|J2]].
  - subst j. unfold sameE in S. destruct (he_cases _ _ _ _ _ _ _ _ _ _ _ W1 H) as [(-> & -> & ->)|[(-> & -> & ->)|(-> & -> & ->)]]; intuition congruence.
  - subst j. unfold sameE in S. destruct (he_cases _ _ _ _ _ _ _ _ _ _ _ W2 H) as [(-> & -> & ->)|[(-> & -> & ->)|(-> & -> & ->)]]; intuition congruence.
  - pose proof (flip_outer_he j x y n J1 J2 H) as K.
    destruct S as [(-> & ->)|(-> & ->)].
    + apply J1. exact (edge_share pos ts' M' _ _ _ _ _ _ K F3).
    + apply J2. exact (edge_share pos ts' M' _ _ _ _ _ _ K F4).
Qed.

Lemma flip_corners w : (exists i, corner ts i w) <-> (exists i, corner ts' i w).
Proof.
  facts. split.
  - intros (i & u & n & H). destruct (sameE_dec w u a b) as [[(-> & _)|(-> & _)]|NS].
    + exists t1. eexists; eexists; eauto.
    + exists t2. eexists; eexists; eauto.
    + destruct (flip_he_any _ _ _ _ H NS) as (j' & n' & K). exists j', u, n'. exact K.
  - intros (i & u & n & H). destruct (flip_he_inv _ _ _ _ H) as [[(-> & _)|(-> & _)]|((j & n0 & K) & _)].
    + exists t2. eexists; eexists; eauto.
    + exists t1. eexists; eexists; eauto.
    + exists j, u, n0. exact K.
Qed.

End Flip.

(** ** The swap of the code *)
Section WithEnv.
Context {E : Env}.
Variable vs : list vertex.
Variables px py : N -> Q.
Hypothesis X : Exact vs px py.

Notation pos := (hpos px py).
Notation D a b c := (det (pos a) (pos b) (pos c)).
Notation Mesh := (Mesh pos).
Notation Ids := (Ids vs).
Notation vok := (vok vs).
Notation MInv := (MInv vs px py).

(** The undirected edges of a mesh. *)
Definition medge (ts : list tri) (x y : N) : Prop :=
  (exists i n, he ts i x y n) \/ (exists i n, he ts i y x n).

Lemma medge_sym ts x y : medge ts x y -> medge ts y x.
Proof. unfold medge; tauto. Qed.

Lemma medge_same ts x y u v : sameE x y u v -> medge ts x y -> medge ts u v.
Proof. intros [(-> & ->)|(-> & ->)]; auto using medge_sym. Qed.

(** A pending edge: its two triangles, the first one on its right. *)
Definition EDok (ts : list tri) (d : edge_data) : Prop :=
  he ts (d_from d) (efrom (d_edge d)) (eto (d_edge d)) (d_to d) /\ d_to d <> NONE.

Definition sameED (d1 d2 : edge_data) : Prop :=
  sameE (efrom (d_edge d1)) (eto (d_edge d1)) (efrom (d_edge d2)) (eto (d_edge d2)).

Lemma EDok_medge ts d : EDok ts d -> medge ts (efrom (d_edge d)) (eto (d_edge d)).
Proof. intros (H & _). left; eauto. Qed.

(** vertex_to_triangle: a triangle around each vertex of the mesh. *)
Definition VT (ts : list tri) (v2t : list N) : Prop :=
  lenN v2t = lenN vs /\
  forall w, hascorner ts w -> is_finite w = true -> exists t, nthN v2t w = Some t /\ corner ts t w.

Lemma view_index ts i t a b c x y z :
  nthN ts i = Some t -> view ts i a b c x y z -> a <> b -> b <> c -> c <> a ->
  get_opposite_vertex_id t (Edge a b) = c /\ get_opposite_vertex_id t (Edge b a) = c /\
  tn t (opposite_edge_index_from_vertex t a) = y /\
  tn t (next_cw (opposite_edge_index_from_vertex t a)) = z /\
  tn t (opposite_edge_index_from_vertex t b) = z /\
  tn t (next_ccw (opposite_edge_index_from_vertex t b)) = y.
Proof.
  intros Ht (t' & k & Ht' & Er) H1 H2 H3. assert (t' = t) by congruence. subst t'.
  unfold rot in Er. unfold get_opposite_vertex_id, edge_contains, opposite_edge_index_from_vertex, vertex_index.
  destruct t as [v1 v2 v3 m1 m2 m3], k; simpl in Er; injection Er as -> -> -> -> -> ->; simpl;
    repeat match goal with |- context [?p =? ?q] => destruct (N.eqb_spec p q); try congruence end; simpl; auto 10.
Qed.

Lemma EDok_views ts d : Mesh ts -> EDok ts d -> exists w3 w4 n1 n2 n3 n4,
  view ts (d_from d) w4 (efrom (d_edge d)) (eto (d_edge d)) n2 (d_to d) n1 /\
  view ts (d_to d) (eto (d_edge d)) (efrom (d_edge d)) w3 (d_from d) n3 n4 /\
  to_quad ts d = Ret (Quad (efrom (d_edge d)) (eto (d_edge d)) w3 w4).
Proof.
  intros M (H & Hn). pose proof (glue_some pos ts M _ _ _ _ H Hn) as G.
  destruct H as (w4 & n1 & n2 & V1). destruct G as (w3 & n3 & n4 & V2).
  exists w3, w4, n1, n2, n3, n4. split; [now apply view_rot2|]. split; auto.
  destruct (view_nth _ _ _ _ _ _ _ _ V1) as (t1 & Ht1). destruct (view_nth _ _ _ _ _ _ _ _ V2) as (t2 & Ht2).
  unfold to_quad, getN. rewrite Ht1, Ht2. cbn [bind].
  destruct (D_distinct _ _ _ _ (M_cw _ _ M _ _ _ _ _ _ _ V1)) as (A1 & A2 & A3).
  destruct (D_distinct _ _ _ _ (M_cw _ _ M _ _ _ _ _ _ _ V2)) as (B1 & B2 & B3).
  destruct (d_edge d) as [u v]; cbn [efrom eto] in *.
  destruct (view_index _ _ _ _ _ _ _ _ _ Ht1 V1 A1 A2 A3) as (-> & _).
  destruct (view_index _ _ _ _ _ _ _ _ _ Ht2 V2 B1 B2 B3) as (_ & -> & _). reflexivity.
Qed.

Lemma set_v2t_spec v2t v t : vok v -> lenN v2t = lenN vs ->
  exists v2t', set_v2t v2t v t = Ret v2t' /\ lenN v2t' = lenN vs /\
    forall w, is_finite w = true -> nthN v2t' w = if (w =? v) then option_map (fun _ => t) (nthN v2t w) else nthN v2t w.
Proof.
  intros Vv L. unfold set_v2t. destruct (is_finite v) eqn:F.
  - unfold setN. destruct (nthN_Some v2t v) as (y & Hy); [rewrite L; auto|]. rewrite Hy.
    eexists. split; [reflexivity|]. split; [now rewrite lenN_updN|]. intros w _. apply nthN_upd_cases.
  - exists v2t. split; auto. split; auto. intros w Fw.
    destruct (N.eqb_spec w v); auto. congruence.
Qed.

Lemma swap_quad_spec ts v2t d u v c w n1 n2 n3 n4 :
  Mesh ts -> vok u -> vok v -> lenN v2t = lenN vs -> d_edge d = Edge u v ->
  view ts (d_from d) w u v n2 (d_to d) n1 -> view ts (d_to d) v u c (d_from d) n3 n4 ->
  exists ts' v2t', swap_quad_diagonal ts v2t d (Quad u v c w) =
      Ret (ts', v2t', update_edge_data n3 n1 (d_from d) (d_to d)) /\
    lenN ts' = lenN ts /\ lenN v2t' = lenN vs /\
    view ts' (d_from d) w u c n2 n3 (d_to d) /\ view ts' (d_to d) w c v (d_from d) n4 n1 /\
    (forall j, j <> d_from d -> j <> d_to d -> j < lenN ts ->
       nthN ts' j = option_map (fun t => if j =? n1 then update_triangle_neighbor t (d_from d) (d_to d)
                                         else if j =? n3 then update_triangle_neighbor t (d_to d) (d_from d)
                                         else t) (nthN ts j)) /\
    (forall z, is_finite z = true -> nthN v2t' z =
       option_map (fun o => if z =? v then d_to d else if z =? u then d_from d else o) (nthN v2t z)).
Proof.
  intros M Vu Vv Lv Hd V1 V2. destruct d as [x y e]; cbn [d_from d_to d_edge] in *. subst e.
  destruct (flip_facts pos ts x y u v c w n1 n2 n3 n4 M V1 V2)
    as (L1 & L2 & T12 & Tn1 & Tn2 & X1 & X2 & X3 & X4 & X5 & X6 & X7).
  destruct (flip_nbrs pos ts x y u v c w n1 n2 n3 n4 M V1 V2)
    as ((Y1 & Y1') & (Y2 & Y2') & (Y3 & Y3') & (Y4 & Y4') & Y5 & Y6).
  destruct (view_he _ _ _ _ _ _ _ _ V1) as (E1 & E2 & E3).
  destruct (view_he _ _ _ _ _ _ _ _ V2) as (E4 & E5 & E6).
  pose proof (M_len _ _ M) as Hmax.
  destruct (view_nth _ _ _ _ _ _ _ _ V1) as (tx & Htx). destruct (view_nth _ _ _ _ _ _ _ _ V2) as (ty & Hty).
  destruct (view_index _ _ _ _ _ _ _ _ _ Hty V2) as (_ & _ & I1' & I2' & _); auto.
  destruct (view_index _ _ _ _ _ _ _ _ _ Htx (view_rot _ _ _ _ _ _ _ _ V1)) as (_ & _ & _ & _ & J1' & J2'); auto.
  unfold swap_quad_diagonal. cbn [d_from d_to q1 q2 q3 q4].
  unfold getN at 1. rewrite Hty. cbn [bind]. unfold getN at 1. rewrite Htx. cbn [bind].
  rewrite I1', I2', J1', J2'.
  unfold getN at 1. rewrite Htx. cbn [bind]. unfold setN at 1. rewrite Htx. cbn [bind].
  set (A1 := set_verts tx c w u). set (b1 := updN ts x A1).
  assert (Q1 : nthN b1 y = Some ty) by (unfold b1; rewrite nthN_updN_other; auto).
  unfold getN at 1. rewrite Q1. cbn [bind]. unfold setN at 1. rewrite Q1. cbn [bind].
  set (B1 := set_verts ty c v w). set (b2 := updN b1 y B1).
  assert (Q2 : nthN b2 x = Some A1).
  { unfold b2, b1. rewrite nthN_updN_other by auto. now apply nthN_updN_same. }
  unfold getN at 1. rewrite Q2. cbn [bind]. unfold setN at 1. rewrite Q2. cbn [bind].
  set (A2 := set_neighbors A1 y n2 n3). set (b3 := updN b2 x A2).
  assert (Q3 : nthN b3 y = Some B1).
  { unfold b3. rewrite nthN_updN_other by auto. unfold b2. apply nthN_updN_same. unfold b1. now rewrite lenN_updN. }
  unfold getN at 1. rewrite Q3. cbn [bind]. unfold setN at 1. rewrite Q3. cbn [bind].
  set (B2 := set_neighbors B1 n4 n1 x). set (base := updN b3 y B2).
  assert (Bl : lenN base = lenN ts) by (unfold base, b3, b2, b1; now rewrite !lenN_updN).
  assert (N1lt : n1 <> NONE -> n1 < lenN ts) by (intros Hn; exact (nbr_lt px py _ _ _ _ _ M E3 Hn)).
  assert (N3lt : n3 <> NONE -> n3 < lenN ts) by (intros Hn; exact (nbr_lt px py _ _ _ _ _ M E5 Hn)).
  destruct (update_only_spec base n3 y x) as (ts1 & U1 & Ll1 & K1).
  { rewrite Bl. exact Hmax. } { intros Hn. rewrite Bl. auto. }
  unfold update_neighbor_neighbor at 1. rewrite U1. cbn [bind].
  destruct (update_only_spec ts1 n1 x y) as (ts2 & U2 & Ll2 & K2).
  { rewrite Ll1, Bl. exact Hmax. } { intros Hn. rewrite Ll1, Bl. auto. }
  unfold update_neighbor_neighbor at 1. rewrite U2. cbn [bind].
  destruct (set_v2t_spec v2t u x Vu Lv) as (z1 & S1 & Lz1 & Z1). rewrite S1. cbn [bind].
  destruct (set_v2t_spec z1 v y Vv Lz1) as (z2 & S2 & Lz2 & Z2). rewrite S2. cbn [bind].
  exists ts2, z2. split; [reflexivity|]. split; [now rewrite Ll2, Ll1|]. split; auto.
  assert (NN : forall j, nthN ts2 j = option_map (fun t => relink n1 x y j (relink n3 y x j t)) (nthN base j)).
  { intros j. rewrite K2, K1. now destruct (nthN base j). }
  assert (Bx : nthN base x = Some A2).
  { unfold base. rewrite nthN_updN_other by auto. unfold b3. apply nthN_updN_same.
    unfold b2, b1. now rewrite !lenN_updN. }
  assert (By : nthN base y = Some B2).
  { unfold base. apply nthN_updN_same. unfold b3, b2, b1. now rewrite !lenN_updN. }
  split; [|split; [|split]].
  - apply view_rot. exists A2, I1. split; [|reflexivity]. rewrite NN, Bx. simpl. rewrite !relink_other; auto.
  - apply view_rot2. exists B2, I1. split; [|reflexivity]. rewrite NN, By. simpl. rewrite !relink_other; auto.
  - intros j J1 J2 Hj. rewrite NN. unfold base, b3, b2, b1. rewrite !nthN_updN_other by auto.
    destruct (nthN ts j) as [t|]; auto. simpl. f_equal. unfold relink.
    destruct (N.eqb_spec j n1) as [Q4|Q4], (N.eqb_spec j n3) as [Q5|Q5]; auto.
    exfalso. assert (Qn : n1 = NONE) by (apply X7; congruence). clear -Hj Hmax Q4 Qn. unfold NONE in Qn. lia.
  - intros z Fz. rewrite (Z2 z Fz), (Z1 z Fz).
    destruct (N.eqb_spec z v), (N.eqb_spec z u); destruct (nthN v2t z); reflexivity.
Qed.

(** Everything the proofs below need from a swap. *)
Record Swapped (ts ts' : list tri) (v2t' : list N) (d : edge_data) (q : quad)
    (upd : edge_data -> edge_data) : Prop := {
  W_inv : MInv ts';
  W_vt : VT ts' v2t';
  W_len : lenN ts' = lenN ts;
  W_corner : forall w, hascorner ts w <-> hascorner ts' w;
  W_edge : forall x y, medge ts' x y <->
    sameE x y (q3 q) (q4 q) \/ (medge ts x y /\ ~ sameE x y (q1 q) (q2 q));
  W_fresh : ~ medge ts (q3 q) (q4 q);
  W_new : EDok ts' (ED (d_from d) (d_to d) (Edge (q3 q) (q4 q)));
  W_upd : forall d2, EDok ts d2 -> ~ sameED d2 d -> EDok ts' (upd d2) /\ d_edge (upd d2) = d_edge d2;
  W_old : exists n1 n2 n3 n4, view ts (d_from d) (q4 q) (q1 q) (q2 q) n2 (d_to d) n1 /\
    view ts (d_to d) (q2 q) (q1 q) (q3 q) (d_from d) n3 n4;
  W_from : exists n1 n2 n3, view ts' (d_from d) (q4 q) (q1 q) (q3 q) n1 n2 n3;
  W_to : exists n1 n2 n3, view ts' (d_to d) (q4 q) (q3 q) (q2 q) n1 n2 n3;
  W_other : forall j x y z n1 n2 n3, j <> d_from d -> j <> d_to d -> view ts j x y z n1 n2 n3 ->
    exists m1 m2 m3, view ts' j x y z m1 m2 m3
}.

Lemma swap_ok ts v2t d q :
  MInv ts -> VT ts v2t -> EDok ts d -> to_quad ts d = Ret q ->
  (D (q4 q) (q1 q) (q3 q) < 0)%Q -> (D (q4 q) (q3 q) (q2 q) < 0)%Q ->
  exists ts' v2t' upd, swap_quad_diagonal ts v2t d q = Ret (ts', v2t', upd) /\ Swapped ts ts' v2t' d q upd.
Proof.
  intros [M I J O] (Lv & VTw) Hd Hq N1 N2.
  destruct (EDok_views _ _ M Hd) as (c & w & n1 & n2 & n3 & n4 & V1 & V2 & Hq').
  assert (q = Quad (efrom (d_edge d)) (eto (d_edge d)) c w) by congruence. subst q. clear Hq Hq'.
  cbn [q1 q2 q3 q4] in *.
  remember (efrom (d_edge d)) as u eqn:Hu. remember (eto (d_edge d)) as v eqn:Hv.
  assert (He : d_edge d = Edge u v) by (rewrite Hu, Hv; now destruct (d_edge d)).
  destruct (Ids_view _ _ _ _ _ _ _ _ _ I V1) as (Vw & Vu & Vv).
  destruct (Ids_view _ _ _ _ _ _ _ _ _ I V2) as (_ & _ & Vc).
  destruct (swap_quad_spec ts v2t d u v c w n1 n2 n3 n4 M Vu Vv Lv He V1 V2)
    as (ts' & v2t' & Hs & Hlen & Lv' & V1' & V2' & Hout & Hv2t).
  exists ts', v2t', (update_edge_data n3 n1 (d_from d) (d_to d)). split; auto.
  pose proof (mesh_flip pos ts ts' _ _ u v c w n1 n2 n3 n4 M V1 V2 N1 N2 Hlen V1' V2' Hout) as M'.
  assert (HC : forall z, hascorner ts z <-> hascorner ts' z).
  { intros z. unfold hascorner. eapply (flip_corners pos ts ts' _ _ u v c w n1 n2 n3 n4); eauto. }
  assert (FE : forall x y, medge ts' x y <->
    sameE x y c w \/ (medge ts x y /\ ~ sameE x y u v)).
  { intros x y. split.
    - intros [(i & n & H)|(i & n & H)];
        destruct (flip_he_inv pos ts ts' _ _ u v c w n1 n2 n3 n4 M V1 V2 Hlen V1' V2' Hout _ _ _ _ H) as [S|(S & NS)].
      + now left.
      + right. split; auto. now left.
      + left. now apply sameE_flip.
      + right. split; [now right|]. intros Q. apply NS. now apply sameE_flip.
    - intros [S|([(i & n & H)|(i & n & H)] & NS)].
      + destruct (view_he _ _ _ _ _ _ _ _ V1') as (_ & _ & H3).
        apply (medge_same ts' c w); [now apply sameE_sym|]. left; eauto.
      + destruct (flip_he_any pos ts ts' _ _ u v c w n1 n2 n3 n4 M V1 V2 Hlen V1' V2' Hout _ _ _ _ H NS) as (j & m & K).
        left; eauto.
      + assert (NS' : ~ sameE y x u v) by (intros Q; apply NS; now apply sameE_flip).
        destruct (flip_he_any pos ts ts' _ _ u v c w n1 n2 n3 n4 M V1 V2 Hlen V1' V2' Hout _ _ _ _ H NS') as (j & m & K).
        right; eauto. }
  destruct (flip_facts pos ts (d_from d) (d_to d) u v c w n1 n2 n3 n4 M V1 V2)
    as (L1 & L2 & T12 & Tn1 & Tn2 & X1 & X2 & X3 & X4 & X5 & X6 & X7).
  constructor; cbn [q1 q2 q3 q4]; auto.
  - constructor; auto.
    + assert (Q : forall z, hascorner ts' z -> vok z).
      { intros z Hz. apply HC in Hz. eapply hascorner_vok; eauto. }
      intros t Hin. destruct (In_nthN _ _ Hin) as (i & Ht).
      assert (Qk : forall k, vok (tv t k)).
      { intros k. apply Q. exists i. exists (tv t (next_cw k)), (tn t k). now apply he_at. }
      split; [exact (Qk I1)|split; [exact (Qk I2)|exact (Qk I3)]].
    + intros i j a b Ca Cb. 
      assert (Ha : hascorner ts a) by (apply HC; now exists i). destruct Ha as (i' & Ha).
      assert (Hb : hascorner ts b) by (apply HC; now exists j). destruct Hb as (j' & Hb).
      eapply J; eauto.
    + assert (Kp : forall a b, (exists i, he ts i a b NONE) -> exists i, he ts' i a b NONE).
      { intros a b (i & Hi). eapply (flip_he_none pos ts ts' _ _ u v c w n1 n2 n3 n4); eauto. }
      destruct O as (O1 & O2 & O3 & O4). repeat split; apply Kp; auto.
  - split; auto. intros z Hz Fz. apply HC in Hz. destruct (VTw z Hz Fz) as (t & Ht & Ct).
    rewrite (Hv2t z Fz), Ht. cbn [option_map]. eexists. split; [reflexivity|].
    destruct (view_he _ _ _ _ _ _ _ _ V1') as (F1 & F2 & F3).
    destruct (view_he _ _ _ _ _ _ _ _ V2') as (F4 & F5 & F6).
    destruct (N.eqb_spec z v) as [-> |Zv]; [eexists; eexists; exact F6|].
    destruct (N.eqb_spec z u) as [-> |Zu]; [eexists; eexists; exact F2|].
    destruct (N.eq_dec t (d_from d)) as [-> |T1]; [|destruct (N.eq_dec t (d_to d)) as [-> |T2]].
    + destruct (corner_cases px py _ _ _ _ _ _ _ _ _ V1 Ct) as [-> |[-> | ->]]; try congruence. eexists; eexists; exact F1.
    + destruct (corner_cases px py _ _ _ _ _ _ _ _ _ V2 Ct) as [-> |[-> | ->]]; try congruence. eexists; eexists; exact F5.
    + destruct Ct as (b & m & H). eexists; eexists.
      exact (flip_outer_he pos ts ts' _ _ u v c w n1 n2 n3 n4 M V1 V2 Hlen Hout _ _ _ _ T1 T2 H).
  - assert (Fr : forall i x y n, he ts i x y n -> ~ sameE x y c w).
    { intros i x y n H. eapply (flip_fresh pos ts ts' _ _ u v c w n1 n2 n3 n4); eauto. }
    intros [(i & n & H)|(i & n & H)]; apply (Fr _ _ _ _ H); [now left|now right].
  - split; cbn [d_from d_to d_edge efrom eto]; auto.
    now destruct (view_he _ _ _ _ _ _ _ _ V1') as (_ & _ & F3).
  - intros d2 (H & Hn) NS. rewrite update_edge_data_pair. cbn [d_edge]. split; auto.
    split; cbn [d_from d_to d_edge].
    + eapply (flip_he pos ts ts' _ _ u v c w n1 n2 n3 n4); eauto.
      unfold sameED in NS. rewrite He in NS. exact NS.
    + unfold sameED in NS. rewrite He in NS. cbn [efrom eto] in NS.
      pose proof (flip_he pos ts ts' _ _ u v c w n1 n2 n3 n4 M V1 V2 Hlen V1' V2' Hout _ _ _ _ H NS Hn) as K.
      clear -K Hn Tn1 Tn2. unfold upd_pair in *. cbn [fst snd] in *.
      destruct (nexists n3), (nexists n1); cbn [fst snd];
      repeat match goal with |- context [if ?b then _ else _] => destruct b; cbn [fst snd] end; auto.
  - exists n1, n2, n3, n4. auto.
  - eauto.
  - eauto.
  - intros j x y z m1 m2 m3 J1 J2 (t & k & Ht & Er).
    assert (Hlt : j < lenN ts') by (apply nthN_lt in Ht; clear -Ht Hlen; lia).
    destruct (nthN_Some _ _ Hlt) as (t' & Ht').
    assert (Tv : forall i, tv t' i = tv t i).
    { intros i. destruct (flip_outer_tn pos ts ts' _ _ u v c w n1 n2 n3 n4 M V1 V2 Hlen Hout j t t' i J1 J2 Ht Ht') as (Q & _). apply Q. }
    pose proof (view_at ts' j t' k Ht') as Q. rewrite !Tv in Q. unfold rot in Er. injection Er as <- <- <- _ _ _. eauto.
Qed.

End WithEnv.
