(** * LawsonGrid: local and global Delaunay for the inputs of [InputSpec.v]. *)

From Coq Require Import ZArith NArith List Bool Lia QArith Lqa Permutation.
From Verif Require Import Base BaseFacts Arith Types Utils Infinite Triangulation Geom Mesh Exact ExactC
  AnyDT Walk Insert DTExact Spec DTOut Lifted MeshEdge Lawson Empty Holes WalkEnd Rep Norm GridSpec InputSpec GridApi ApiProps LawsonApi ApiGrid.
Import ListNotations.
Local Open Scope N_scope.

Lemma circle_same a b c d d' : same_place d d' -> in_circumcircle a b c d -> in_circumcircle a b c d'.
Proof.
  intros (Q1 & Q2) (o & Ha & Hb & Hd). exists o. repeat split; auto.
  unfold sqdist in *. now rewrite <- Q1, <- Q2.
Qed.

Section Grid.
Context {E : Env}.
Variables (vs : list vertex) (px py : N -> Q) (bound : Z).
Notation pos := (pair_at px py).
Hypothesis G : exact_input vs pos bound.
Hypothesis Hid : 2 * lenN vs + 2 <= idmax.

(** The insertions behind a returned triangulation. *)
Lemma dt_run fuel bins first rest out : 3 <= lenN vs ->
  bin_sort bins (normalized vs) = Ret (first :: rest) ->
  triangulation_from_2d_vertices fuel bins vs = Ret out ->
  NoDup (first :: rest) /\ (forall v, In v (first :: rest) -> v < lenN vs) /\
  exists s, inserted fuel (normalized vs) None first rest s /\ out = filter_triangles (s_ts s).
Proof.
  intros H3 Hb. unfold triangulation_from_2d_vertices.
  destruct (N.ltb_spec (lenN vs) 3) as [H|_]; [lia|].
  unfold normalized in Hb. destruct (normalize_vertices_coordinates vs) as (((nvs, c1), c2), c3) eqn:En. cbn [fst] in Hb.
  assert (Hn : nvs = normalized vs) by (unfold normalized; now rewrite En).
  unfold wrap_and_triangulate. rewrite Hb. cbn [bind].
  assert (L4 : last_id (create_initial_triangles first) = Ret 3).
  { unfold last_id, create_initial_triangles. f_equal. apply as_id_small. cbn; lia. }
  rewrite L4. cbn [bind].
  intros H.
  assert (Perm : Permutation (first :: rest) (rangeN 0 (length vs))).
  { pose proof (bin_sort_permutation bins nvs (first :: rest)) as K. rewrite Hn, normalized_lenN, normalized_len in K. apply K; [lia|].
    now rewrite <- Hn. }
  split; [eapply Permutation_NoDup; [apply Permutation_sym; exact Perm|]; apply NoDup_rangeN|].
  split; [intros v Hv; apply (Permutation_in _ Perm) in Hv; apply In_rangeN in Hv; unfold lenN; lia|].
  destruct (foldM (insert_vertex fuel nvs) rest (St (create_initial_triangles first) 3 None)) as [s| | |] eqn:Es; try discriminate.
  cbn [bind] in H. injection H as <-. exists s. unfold inserted. rewrite <- Hn. auto.
Qed.

Lemma dt_order fuel bins out : 3 <= lenN vs -> triangulation_from_2d_vertices fuel bins vs = Ret out ->
  exists first rest, bin_sort bins (normalized vs) = Ret (first :: rest).
Proof.
  intros H3 Ho. destruct (bin_sort bins (normalized vs)) as [order| | |] eqn:Hb.
  2-4: exfalso; revert Ho; unfold triangulation_from_2d_vertices, normalized in *;
       destruct (N.ltb_spec (lenN vs) 3) as [H|_]; [lia|];
       destruct (normalize_vertices_coordinates vs) as (((nvs, c1), c2), c3); cbn [fst] in Hb;
       unfold wrap_and_triangulate; rewrite Hb; cbn; discriminate.
  destruct order as [|first rest].
  { apply bin_sort_permutation in Hb; [|rewrite normalized_lenN; lia].
    apply Permutation_nil in Hb. apply (f_equal (@length N)) in Hb. rewrite length_rangeN, normalized_len in Hb.
    unfold lenN in H3. simpl in Hb. lia. }
  eauto.
Qed.

Lemma grid_more fuel bins first l1 l2 s out : (4 * length vs + 12 <= fuel)%nat -> 3 <= lenN vs ->
  bin_sort bins (normalized vs) = Ret (first :: l1 ++ l2) ->
  inserted fuel (normalized vs) None first l1 s ->
  triangulation_from_2d_vertices fuel bins vs = Ret out ->
  (forall p, covered pos (filter_triangles (s_ts s)) p -> covered pos out p) /\
  ((forall v, In v l2 -> surrounded pos (filter_triangles (s_ts s)) (pos v)) ->
   (forall p, covered pos out p -> covered pos (filter_triangles (s_ts s)) p) /\
   (locally_delaunay pos (filter_triangles (s_ts s)) -> locally_delaunay pos out)).
Proof.
  intros Hf H3 Hb Hs Ho. destruct (dt_run fuel bins first _ out H3 Hb Ho) as (Nd & Hl & s' & Hs' & ->).
  unfold inserted in Hs, Hs'. rewrite foldM_app, Hs in Hs'. cbn [bind] in Hs'.
  destruct (input_api vs px py bound G Hid) as (X & _).
  apply (insert_more (normalized vs) px py X fuel None first l1 l2 s s'); rewrite ?normalized_lenN, ?normalized_len; auto.
  now left.
Qed.

Lemma grid_empty_circles fuel bins out : (4 * length vs + 12 <= fuel)%nat ->
  triangulation_from_2d_vertices fuel bins vs = Ret out ->
  locally_delaunay pos out -> convex_area pos out ->
  forall a b c v, is_tri out a b c -> v < lenN vs -> covered pos out (pos v) ->
    ~ in_circumcircle (pos a) (pos b) (pos c) (pos v).
Proof.
  intros Hf Ho LD Cx a b c v T Hv Cv Ic.
  pose proof (proj1 (grid_valid vs pos bound G Hid fuel bins out Hf Ho)) as VM.
  destruct Cv as (t & Ht & Hin).
  destruct (vm_empty _ _ _ VM t v Ht Hv Hin) as (w & Hw & Sp).
  assert (Cw : covered pos out (pos w)).
  { exists t. split; auto. destruct t as ((a0, b0), c0). simpl in *. destruct Sp as (Q1 & Q2).
    destruct Hin as (I1 & I2 & I3). unfold inside_or_on, orient in *. simpl in *. rewrite !Q1, !Q2. auto. }
  assert (Ic' : in_circumcircle (pos a) (pos b) (pos c) (pos w)).
  { apply (circle_same _ _ _ (pos v)); auto. destruct Sp; split; now symmetry. }
  clear Sp Hin Ic. revert Ho.
  destruct (N.ltb_spec (lenN vs) 3) as [H|H3].
  { unfold triangulation_from_2d_vertices. rewrite (proj2 (N.ltb_lt _ _) H). intros Q. injection Q as <-. destruct Ht. }
  intros Ho. destruct (dt_order fuel bins out H3 Ho) as (first & rest & Hb).
  destruct (dt_run fuel bins first rest out H3 Hb Ho) as (Nd & Hl & s & Hs & ->).
  destruct (input_api vs px py bound G Hid) as (X & _).
  destruct (inserted_inv (normalized vs) px py fuel None first rest s X) as (done & Hd & DI);
    rewrite ?normalized_lenN, ?normalized_len; auto.
  { now left. }
  pose proof (V_inv _ _ _ _ _ DI) as MI.
  destruct (out_tri3 _ _ _ _ T) as (i & Ti & Fa & Fb & Fc).
  assert (K : is_finite w = true /\ hascorner (s_ts s) w).
  { destruct t as ((a0, b0), c0). destruct (out_inv _ _ _ _ Ht) as (j & x & y & zz & V & A & B & C).
    destruct (view_he _ _ _ _ _ _ _ _ V) as (h1 & h2 & h3). simpl in Hw.
    destruct Hw as [->|[->| ->]]; split; auto; exists j; eexists; eexists; eauto. }
  destruct K as (Fw & Kw). apply (proj1 (ldel_circle px py a b c w)) in Ic'; auto.
  apply (empty_circles (normalized vs) px py (s_ts s) i); auto.
  - now apply ldel_out.
  - intros x y x' y' r R R' L1 L2. apply reg_out in R, R'. apply reg_out.
    apply (Cx _ _ r R R'). now split.
  - now apply reg_out.
Qed.

(** All the vertices after a prefix are inside the convex area of its triangles. *)
Lemma grid_interior fuel bins first l1 l2 s out : (4 * length vs + 12 <= fuel)%nat -> 3 <= lenN vs ->
  bin_sort bins (normalized vs) = Ret (first :: l1 ++ l2) ->
  inserted fuel (normalized vs) None first l1 s ->
  triangulation_from_2d_vertices fuel bins vs = Ret out ->
  let before := filter_triangles (s_ts s) in
  locally_delaunay pos before -> convex_area pos before ->
  (forall v, In v l2 -> surrounded pos before (pos v)) ->
  (forall p, covered pos out p <-> covered pos before p) /\
  forall a b c v, is_tri out a b c -> v < lenN vs -> covered pos before (pos v) ->
    ~ in_circumcircle (pos a) (pos b) (pos c) (pos v).
Proof.
  intros Hf H3 Hb Hs Ho before LD Cx Hin.
  destruct (grid_more _ _ _ _ _ _ _ Hf H3 Hb Hs Ho) as (A & B).
  destruct (B Hin) as (S & LD'). specialize (LD' LD).
  split; [split; auto|]. intros a b c v T Hv Cv.
  apply (grid_empty_circles fuel bins out Hf Ho LD'); auto.
  intros p q t Hp Hq Ht. apply A, Cx; auto.
Qed.

(** The vertices in the convex area of a locally Delaunay prefix, border included, are all
    inserted, the area stays the same, and the result is a Delaunay triangulation. *)
Lemma grid_succeeds fuel bins first l1 l2 s : (4 * length vs + 12 <= fuel)%nat -> 3 <= lenN vs ->
  bin_sort bins (normalized vs) = Ret (first :: l1 ++ l2) ->
  inserted fuel (normalized vs) None first l1 s ->
  let before := filter_triangles (s_ts s) in
  locally_delaunay pos before -> convex_area pos before ->
  (forall v, v < lenN vs -> covered pos before (pos v)) ->
  exists out, triangulation_from_2d_vertices fuel bins vs = Ret out /\
    (forall p, covered pos out p <-> covered pos before p) /\
    forall a b c v, is_tri out a b c -> v < lenN vs -> ~ in_circumcircle (pos a) (pos b) (pos c) (pos v).
Proof.
  intros Hf H3 Hb Hs before LD Cx Hc.
  assert (Perm : Permutation (first :: l1 ++ l2) (rangeN 0 (length vs))).
  { pose proof (bin_sort_permutation bins (normalized vs) (first :: l1 ++ l2)) as K. rewrite normalized_lenN, normalized_len in K. apply K; [lia|auto]. }
  assert (Nd : NoDup (first :: l1 ++ l2)) by (eapply Permutation_NoDup; [apply Permutation_sym; exact Perm|]; apply NoDup_rangeN).
  assert (Hl : forall v, In v (first :: l1 ++ l2) -> v < lenN vs)
    by (intros v Hv; apply (Permutation_in _ Perm) in Hv; apply In_rangeN in Hv; unfold lenN; lia).
  destruct (input_api vs px py bound G Hid) as (X & _).
  assert (Nd1 : NoDup (first :: l1) /\ NoDup l2 /\ forall v, In v l2 -> ~ In v (first :: l1)).
  { clear - Nd. change (first :: l1 ++ l2) with ((first :: l1) ++ l2) in Nd. revert Nd. generalize (first :: l1) as a.
    induction a as [|x a IH]; simpl; intros H; [repeat split; auto; constructor|].
    inversion H as [|? ? H1 H2]; subst. destruct (IH H2) as (A & B & C). rewrite in_app_iff in H1.
    repeat split; auto; [constructor; tauto|]. intros v Hv [->|Ha]; [tauto|exact (C v Hv Ha)]. }
  destruct Nd1 as (Na & Nb & Nab).
  destruct (inserted_inv_len (normalized vs) px py fuel None first l1 s X) as (done & Hd & Ld & DI);
    rewrite ?normalized_lenN, ?normalized_len; auto.
  { now left. }
  { intros v Hv. apply Hl. simpl in *. rewrite in_app_iff. tauto. }
  pose proof (order_len vs _ Nd Hl) as Hlen. cbn [length] in Hlen. rewrite app_length in Hlen.
  destruct (fold_succeeds (normalized vs) px py X fuel l2 done s DI) as (s' & Hs' & AL' & Rg'); auto.
  - intros v Hv. rewrite normalized_lenN. split; [apply Hl; right; apply in_or_app; now right|].
    intros K. apply Hd in K. exact (Nab v Hv K).
  - unfold lenN in *. cbn [length] in Ld. lia.
  - unfold lenN in Ld. cbn [length] in Ld. lia.
  - now apply ldel_out.
  - intros x y x' y' t R R' L L'. apply reg_out in R, R'. apply reg_out. apply (Cx _ _ t R R'). now split.
  - intros w Hw. apply (reg_out px py). apply Hc. apply Hl. apply Hd in Hw. simpl in *. rewrite in_app_iff. tauto.
  - intros v Hv. apply (reg_out px py). apply Hc. apply Hl. right. apply in_or_app. now right.
  - assert (W : wrap_and_triangulate fuel bins (normalized vs) None = Ret s').
    { unfold wrap_and_triangulate. rewrite Hb. cbn [bind].
      assert (L4 : last_id (create_initial_triangles first) = Ret 3).
      { unfold last_id, create_initial_triangles. f_equal. apply as_id_small. cbn; lia. }
      rewrite L4. cbn [bind]. unfold inserted in Hs. rewrite foldM_app, Hs. cbn [bind]. exact Hs'. }
    assert (Ho : exists out, triangulation_from_2d_vertices fuel bins vs = Ret out).
    { unfold triangulation_from_2d_vertices. destruct (N.ltb_spec (lenN vs) 3) as [H|_]; [lia|].
      unfold normalized in W. destruct (normalize_vertices_coordinates vs) as (((nvs, c1), c2), c3). cbn [fst] in W.
      rewrite W. cbn [bind]. exact (ex_intro _ _ eq_refl). }
    destruct Ho as (out & Ho).
    assert (Q : out = filter_triangles (s_ts s')).
    { destruct (dt_run fuel bins first (l1 ++ l2) out H3 Hb Ho) as (_ & _ & s2 & Hs2 & ->).
      unfold inserted in Hs, Hs2. rewrite foldM_app, Hs in Hs2. cbn [bind] in Hs2. congruence. }
    assert (A : forall p, covered pos out p <-> covered pos before p).
    { intros (x, y). rewrite Q. unfold before. rewrite <- !(reg_out px py). apply Rg'. }
    exists out. split; auto. split; auto. intros a b c v T Hv.
    apply (grid_empty_circles fuel bins out Hf Ho); auto.
    + rewrite Q. now apply ldel_out.
    + intros p q t Hp Hq Ht. apply A, Cx; auto; now apply A.
    + apply A, Hc, Hv.
Qed.

(** The returned triangles leave no hole. *)
Lemma grid_no_holes fuel bins out : (4 * length vs + 12 <= fuel)%nat ->
  triangulation_from_2d_vertices fuel bins vs = Ret out -> no_holes pos out.
Proof.
  intros Hf Ho p Hp. revert Ho.
  destruct (N.ltb_spec (lenN vs) 3) as [H|H3].
  { unfold triangulation_from_2d_vertices. rewrite (proj2 (N.ltb_lt _ _) H). intros Q. injection Q as <-.
    exists (-1, 0)%Q. split; [simpl; auto|]. intros t _ (t' & [] & _). }
  intros Ho. destruct (dt_order fuel bins out H3 Ho) as (first & rest & Hb).
  destruct (dt_run fuel bins first rest out H3 Hb Ho) as (Nd & Hl & s & Hs & ->).
  destruct (input_api vs px py bound G Hid) as (X & _).
  destruct (inserted_inv (normalized vs) px py fuel None first rest s X) as (done & Hd & DI);
    rewrite ?normalized_lenN, ?normalized_len; auto.
  { now left. }
  pose proof (V_inv _ _ _ _ _ DI) as MI. destruct p as (x, y).
  destruct (escape px py (s_ts s) (P3 x y 1) (I_mesh _ _ _ _ MI)) as (e & He & Hray).
  { simpl. lra. }
  { intros R. apply Hp. now apply reg_out. }
  destruct (inf_dir px py e He) as (d & Hd' & Pd). exists d. split; [exact Hd'|].
  intros t Ht Hc. apply (Hray t Ht). apply reg_out in Hc. rewrite Pd. unfold on_ray in Hc. cbn [fst snd] in Hc.
  destruct Hc as (j & u & v & w & T & F1 & F2 & F3 & I1 & I2 & I3). exists j, u, v, w.
  assert (Sm : forall a b, (det a b (toward (P3 x y 1) (P3 (fst d) (snd d) 0) t) == det a b (P3 (x + t * fst d) (y + t * snd d) 1))%Q)
    by (intros; unfold toward, det; simpl; ring).
  do 4 (split; [now auto|]). split; [|split]; rewrite Sm; auto.
Qed.

End Grid.
