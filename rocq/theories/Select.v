(** * Select: constraints which are already edges of the triangulation only select triangles. *)

From Coq Require Import ZArith NArith List Bool Lia QArith Lqa Permutation.
From Verif Require Import Base BaseFacts Arith Types Utils Infinite Triangulation Constrained Geom Mesh
  MeshOps Exact ExactC MeshVerts AnyDT SpecCdt AnyCDT Walk Insert DTExact Spec DTOut CSwap CCross CReg CPres
  CTerm CApply CTotal CdtApi CdtTotal CLocal SpecSelect.
Import ListNotations.
Local Open Scope N_scope.

Section Same.
Context {E : Env}.
Variable vs : list vertex.
Variables px py : N -> Q.
Hypothesis X : Exact vs px py.
Hypothesis XC : ExactC vs px py.
Notation pos := (hpos px py).

(** A constraint which is an edge of the mesh leaves the mesh as it is. *)
Lemma apply_same (P : N -> N -> Prop) fuel mapping s raw s' a b :
  CInv vs px py P s -> getN mapping (efrom raw) = Ret a -> getN mapping (eto raw) = Ret b ->
  hascorner (c_ts s) a -> hascorner (c_ts s) b -> is_finite a = true -> is_finite b = true ->
  (a <> b -> medge (c_ts s) a b) ->
  apply_constraint fuel vs mapping s raw = Ret s' -> c_ts s' = c_ts s.
Proof.
  intros [I V Keep] Ga Gb Ha Hb Fa Fb Me H. unfold apply_constraint in H. rewrite Ga, Gb in H. cbn [bind] in H.
  destruct ((a =? b) || edge_mem (c_set s) (Edge a b)) eqn:Hc; [apply Ret_inj in H; now subst s'|].
  apply orb_false_iff in Hc. destruct Hc as (Hne & _). apply N.eqb_neq in Hne. specialize (Me Hne).
  pose proof (hascorner_vok vs _ _ (I_ids _ _ _ _ I) Ha) as Va. pose proof (hascorner_vok vs _ _ (I_ids _ _ _ _ I) Hb) as Vb.
  destruct (get_vertex vs a Va Fa) as (va & Gva & Na). destruct (get_vertex vs b Vb Fb) as (vb & Gvb & Nb).
  unfold edge_to_vertices in H. cbn [efrom eto] in H. rewrite Gva, Gvb in H. cbn [bind] in H.
  destruct V as (Lv & VTw). destruct (VTw a Ha Fa) as (start & Hst & Cst).
  destruct (register_intersected_edges (c_ts s) vs (Edge a b) (va, vb) (c_v2t s)) as [l| | |] eqn:HR; cbn [bind] in H; try discriminate.
  pose proof (register_sound vs px py X XC a b va vb Na Nb Hne (c_ts s) (I_mesh _ _ _ _ I) _ _ _ Hst Cst HR) as S.
  destruct S as [(-> & Hm)|(Hl & R)]; [apply Ret_inj in H; now subst s'|exfalso].
  destruct l as [|d l]; [congruence|].
  destruct (G_ok _ _ _ _ _ _ R d (or_introl eq_refl)) as (Ok & Xd).
  apply (edge_uncrossed vs px py X a b Fa Fb (c_ts s) (efrom (d_edge d)) (eto (d_edge d)) (I_mesh _ _ _ _ I) (I_ids _ _ _ _ I) Me).
  - now apply EDok_medge.
  - apply xing_crosses. exact Xd.
Qed.

Lemma fold_same fuel m : forall l s s',
  CInv vs px py (fun _ _ => False) s -> mapped m (c_ts s) ->
  (forall raw a b, In raw l -> map_edge m raw = Some (Edge a b) -> a <> b -> medge (c_ts s) a b) ->
  foldM (apply_constraint fuel vs m) l s = Ret s' -> c_ts s' = c_ts s.
Proof.
  induction l as [|raw l IH]; intros s s' C Mp Me H; cbn [foldM] in H.
  - apply Ret_inj in H. now subst s'.
  - destruct (apply_constraint fuel vs m s raw) as [s1| | |] eqn:H1; cbn [bind] in H; try discriminate.
    destruct (apply_registers _ _ _ _ _ _ H1) as ((e & He & _) & _). destruct e as (a, b).
    pose proof (proj1 (map_edge_inv m raw a b) He) as (Ha & Hb).
    destruct (Mp _ _ Ha) as (Ca & Fa). destruct (Mp _ _ Hb) as (Cb & Fb).
    assert (Ga : getN m (efrom raw) = Ret a) by (unfold getN; now rewrite Ha).
    assert (Gb : getN m (eto raw) = Ret b) by (unfold getN; now rewrite Hb).
    destruct (apply_constraint_sound vs px py X XC (fun _ _ => False) fuel m s raw s1 a b C Ga Gb Ca Cb Fa Fb) as (C1 & _);
      [contradiction|exact H1|].
    assert (Q : c_ts s1 = c_ts s).
    { apply (apply_same _ fuel m s raw s1 a b C Ga Gb Ca Cb Fa Fb); auto.
      intros Hne. exact (Me raw a b (or_introl eq_refl) He Hne). }
    rewrite <- Q. apply (IH s1 s' C1); auto.
    + now rewrite Q.
    + rewrite Q. intros r x y Hr. apply Me. now right.
Qed.

(** ** Triangles of the mesh and triples *)
Lemma filter_he ts a b : In (a, b) (directed_edges (filter_triangles ts)) ->
  exists i t, nthN ts i = Some t /\ tri_is_finite t = true /\ In (a, b) (tri_edges (tverts t)).
Proof.
  unfold directed_edges, filter_triangles. rewrite in_flat_map. intros (q & Hq & He).
  apply in_map_iff in Hq. destruct Hq as (t & <- & Ht). apply filter_In in Ht. destruct Ht as (Ht & Ft).
  apply In_nthN in Ht. destruct Ht as (i & Ht). eauto.
Qed.

Lemma edges_index t a b : In (a, b) (tri_edges (tverts t)) <-> exists k, tedge t k = Edge a b.
Proof.
  unfold tri_edges, tverts, tedge. destruct t as [v1 v2 v3 n1 n2 n3]. cbn. split.
  - intros [Q|[Q|[Q|[]]]]; injection Q as <- <-; [exists I1|exists I2|exists I3]; reflexivity.
  - intros (k & Q). destruct k; cbn in Q; injection Q as <- <-; auto.
Qed.

Lemma edges_he ts i t a b : nthN ts i = Some t -> In (a, b) (tri_edges (tverts t)) ->
  exists k, tedge t k = Edge a b /\ he ts i a b (tn t k).
Proof.
  intros Ht H. apply edges_index in H. destruct H as (k & Q). exists k. split; auto.
  pose proof (he_at _ _ _ k Ht) as He. unfold tedge in Q. destruct k; cbn in Q, He |- *; injection Q as <- <-; exact He.
Qed.

Lemma he_edges ts i t a b n : nthN ts i = Some t -> he ts i a b n ->
  In (a, b) (tri_edges (tverts t)) /\ exists k, tedge t k = Edge a b /\ tn t k = n.
Proof.
  intros Ht He. apply he_inv in He. destruct He as (t' & k & Ht' & <- & <- & <-).
  rewrite Ht in Ht'. injection Ht' as <-. split.
  - apply edges_index. exists k. destruct k; reflexivity.
  - exists k. split; auto. destruct k; reflexivity.
Qed.

Lemma finite_ends t a b : tri_is_finite t = true -> In (a, b) (tri_edges (tverts t)) -> is_finite a = true /\ is_finite b = true.
Proof.
  intros Ft H. apply tri_fin_parts in Ft. destruct Ft as (F1 & F2 & F3).
  unfold tri_edges, tverts in H. destruct H as [Q|[Q|[Q|[]]]]; injection Q as <- <-; auto.
Qed.

Section Kept.
Variable ts : list tri.
Hypothesis M : Mesh pos ts.
Variables cset cs : list edge.
Hypothesis Hset : forall e, In e cset <-> In e cs.

(** The selected triangles are kept. *)
Lemma selected_kept q : selected (filter_triangles ts) cs q ->
  exists i t, nthN ts i = Some t /\ tri_is_finite t = true /\ q = tverts t /\ kept ts cset i.
Proof.
  intros S. induction S as [q a b Hq He Hc|s q a b Hs IH Hq Hs1 Hq1 Nd].
  - apply in_map_iff in Hq. destruct Hq as (t & <- & Ht). apply filter_In in Ht. destruct Ht as (Ht & Ft).
    apply In_nthN in Ht. destruct Ht as (i & Ht). exists i, t. split; auto. split; auto. split; auto.
    apply edges_index in He. destruct He as (k & Q). apply (kept_seed ts cset i t k Ht). rewrite Q. now apply Hset.
  - destruct IH as (i & t & Ht & Ft & -> & Ki).
    apply in_map_iff in Hq. destruct Hq as (u & <- & Hu). apply filter_In in Hu. destruct Hu as (Hu & Fu).
    apply In_nthN in Hu. destruct Hu as (j & Hu). exists j, u. split; auto. split; auto. split; auto.
    destruct (edges_he _ _ _ _ _ Ht Hs1) as (k & Q & He). destruct (edges_he _ _ _ _ _ Hu Hq1) as (k' & Q' & He').
    destruct (finite_ends _ _ _ Ft Hs1) as (Fa & Fb).
    assert (Hn : tn t k <> NONE).
    { intros Z. rewrite Z in He. destruct (glue_none pos ts M _ _ _ He) as (Q0 & _). rewrite inf_not_fin, Fa in Q0. discriminate. }
    pose proof (glue_some pos ts M _ _ _ _ He Hn) as He2.
    assert (j = tn t k) as -> by exact (edge_share pos ts M _ _ _ _ _ _ He' He2).
    apply (kept_step ts cset i t k Ki Ht); auto. rewrite Q. intros Hc. apply Nd. left. now apply Hset.
Qed.

Lemma edge_dec (x y : edge) : {x = y} + {x <> y}.
Proof. decide equality; apply N.eq_dec. Qed.
Lemma pair_dec (x y : N * N) : {x = y} + {x <> y}.
Proof. decide equality; apply N.eq_dec. Qed.

(** The holder of a directed edge of a finite triangle is that triangle. *)
Lemma holder i t a b n : nthN ts i = Some t -> he ts i a b n ->
  In (a, b) (directed_edges (filter_triangles ts)) -> tri_is_finite t = true.
Proof.
  intros Ht He D. apply filter_he in D. destruct D as (j & u & Hu & Fu & D).
  destruct (edges_he _ _ _ _ _ Hu D) as (k2 & _ & He2).
  assert (j = i) by exact (edge_share pos ts M _ _ _ _ _ _ He2 He). subst j. congruence.
Qed.

Lemma filter_mem i t : nthN ts i = Some t -> tri_is_finite t = true -> In (tverts t) (filter_triangles ts).
Proof. intros Ht Ft. apply in_map, filter_In. split; auto. now apply nthN_In in Ht. Qed.

(** If every border edge is given, with the triangle on its right, the finite triangles which are
    kept are selected. *)
Lemma kept_selected : (forall a b, border (filter_triangles ts) a b -> In (Edge a b) cs) ->
  forall i, kept ts cset i -> forall t, nthN ts i = Some t -> tri_is_finite t = true ->
  selected (filter_triangles ts) cs (tverts t).
Proof.
  intros Hb i K. induction K as [i t k Ht Hc|i t k Ki IH Ht Hc Hn]; intros u Hu Fu.
  - rewrite Ht in Hu. injection Hu as <-. destruct (tedge t k) as (a, b) eqn:Q.
    assert (Hin : In (a, b) (tri_edges (tverts t))) by (apply edges_index; eauto).
    apply (selected_right _ _ _ a b); auto; [exact (filter_mem _ _ Ht Fu)|now apply Hset].
  - destruct (tedge t k) as (a, b) eqn:Q.
    assert (Hin : In (a, b) (tri_edges (tverts t))) by (apply edges_index; eauto).
    pose proof (he_at _ _ _ k Ht) as He.
    assert (He' : he ts i a b (tn t k)) by (unfold tedge in Q; destruct k; cbn in Q, He |- *; injection Q as <- <-; exact He).
    pose proof (glue_some pos ts M _ _ _ _ He' Hn) as Hg.
    destruct (he_edges _ _ _ _ _ _ Hu Hg) as (Hin' & _).
    pose proof (filter_mem _ _ Hu Fu) as Iu.
    destruct (in_dec edge_dec (Edge b a) cs) as [D|D]; [exact (selected_right _ _ _ b a Iu Hin' D)|].
    destruct (in_dec pair_dec (a, b) (directed_edges (filter_triangles ts))) as [D'|D'].
    + pose proof (holder _ _ _ _ _ Ht He' D') as Ft.
      apply (selected_next _ _ (tverts t) _ a b); auto. intros [W|W]; [|exact (D W)]. apply Hc. now apply Hset.
    + exfalso. apply D. apply Hb. split; auto. apply in_flat_map. eauto.
Qed.

(** The border edges in the other direction: no finite triangle is kept. *)
Lemma kept_outside : (forall e, In e cs <-> border (filter_triangles ts) (eto e) (efrom e)) ->
  forall i, kept ts cset i -> forall t, nthN ts i = Some t -> tri_is_finite t = true -> False.
Proof.
  intros Hb i K. induction K as [i t k Ht Hc|i t k Ki IH Ht Hc Hn]; intros u Hu Fu.
  - rewrite Ht in Hu. injection Hu as <-. destruct (tedge t k) as (a, b) eqn:Q.
    assert (Hin : In (a, b) (tri_edges (tverts t))) by (apply edges_index; eauto).
    apply Hset, Hb in Hc. apply (proj2 Hc). cbn [efrom eto]. apply in_flat_map. exists (tverts t). split; auto.
    exact (filter_mem _ _ Ht Fu).
  - destruct (tedge t k) as (a, b) eqn:Q.
    pose proof (he_at _ _ _ k Ht) as He.
    assert (He' : he ts i a b (tn t k)) by (unfold tedge in Q; destruct k; cbn in Q, He |- *; injection Q as <- <-; exact He).
    pose proof (glue_some pos ts M _ _ _ _ He' Hn) as Hg.
    destruct (he_edges _ _ _ _ _ _ Hu Hg) as (Hin' & _).
    destruct (in_dec pair_dec (a, b) (directed_edges (filter_triangles ts))) as [D'|D'].
    + exact (IH t Ht (holder _ _ _ _ _ Ht He' D')).
    + apply Hc. apply Hset, Hb. cbn [efrom eto]. split; auto. apply in_flat_map. exists (tverts u). split; auto.
      exact (filter_mem _ _ Hu Fu).
Qed.
End Kept.
End Same.

(** ** The entry points *)
Section Api.
Context {E : Env}.
Variables (fuel : nat) (bins : N) (vs : list vertex).
Variables px py : N -> Q.
Hypothesis X : Exact (normalized vs) px py.
Hypothesis XC : ExactC (normalized vs) px py.
Hypothesis Hid : 2 * lenN vs + 2 <= idmax.
Hypothesis Hf : (4 * length vs + 12 <= fuel)%nat.
Notation pos := (hpos px py).

Lemma directed_edge_corners ts a b : In (a, b) (directed_edges (filter_triangles ts)) ->
  hascorner ts a /\ hascorner ts b /\ is_finite a = true /\ is_finite b = true /\ medge ts a b.
Proof.
  intros D. apply filter_he in D. destruct D as (i & t & Ht & Ft & D).
  destruct (finite_ends _ _ _ Ft D) as (Fa & Fb). destruct (edges_he _ _ _ _ _ Ht D) as (k & _ & He).
  pose proof (he_corner2 _ _ _ _ _ He) as Cb.
  split; [exists i, b, (tn t k); exact He|]. split; [exists i; exact Cb|]. split; auto. split; auto. left. eauto.
Qed.

Lemma cdt_select cs out dt :
  edges_already dt cs ->
  triangulation_from_2d_vertices fuel bins vs = Ret dt ->
  constrained_triangulation_from_2d_vertices fuel bins vs cs = Ret out ->
  incl out dt /\ (forall t, selected dt cs t -> In t out) /\
  ((forall a b, border dt a b -> In (Edge a b) cs) -> forall t, In t out -> selected dt cs t) /\
  ((forall e, In e cs <-> border dt (eto e) (efrom e)) -> out = []).
Proof.
  intros Al H0 H.
  apply dt_inv in H0. destruct H0 as [(L & ->)|(H3 & nvs & c1 & c2 & c3 & s0 & NV & _ & W0 & E0)].
  { assert (out = []) as ->.
    { unfold constrained_triangulation_from_2d_vertices in H. rewrite (proj2 (N.ltb_lt _ _) L) in H. now apply Ret_inj in H. }
    split; [easy|]. split; [|easy]. intros t S. exfalso. destruct S as [t a b [] _ _|s t a b _ [] _ _ _]. }
  assert (EN : nvs = normalized vs) by (unfold normalized; now rewrite NV). rewrite EN in *. clear EN NV.
  destruct (cdt_run fuel bins vs px py X XC Hid Hf cs out H3 H) as (m & ts & cset & [M R1 Lm' _ _ _ Rc (ids & _ & Hk & _ & Eo) (s & W & SM & AC)]).
  pose proof (wrap_erased fuel bins (normalized vs) (Some (rangeN 0 (length vs)))) as Er.
  rewrite W in Er. cbn [erased] in Er. rewrite W0 in Er. apply Ret_inj in Er. subst s0. cbn [erase s_ts] in E0. subst dt.
  destruct (norm_len vs) as (LN' & LN).
  assert (Hb : exists order, bin_sort bins (normalized vs) = Ret order).
  { unfold wrap_and_triangulate in W. destruct (bin_sort bins (normalized vs)); try discriminate. eauto. }
  destruct Hb as (order & Hb).
  pose proof (wrap_post (normalized vs) px py X fuel bins _ order Hb (or_intror eq_refl)) as Wp.
  rewrite LN, W in Wp. cbn [post] in Wp.
  destruct Wp as (done & Hdn & Ld & DI); [lia|lia|lia|].
  destruct DI as [A B C D1 R Mp]. destruct (Mp m SM) as (Lm & Hm & _).
  assert (Sp : forall v w, nthN m v = Some w -> hascorner (s_ts s) w /\ is_finite w = true /\ samepos px py w v).
  { intros v w Hv. pose proof (nthN_lt _ _ _ Hv) as Lv. rewrite Lm, LN' in Lv.
    destruct (Hm v) as (w' & Q & Cw & Fw & S0); [apply Hdn; lia|lia|]. rewrite Hv in Q. injection Q as <-. auto. }
  assert (Self : forall v w, hascorner (s_ts s) v -> is_finite v = true -> nthN m v = Some w -> w = v).
  { intros v w Cv Fv Hv. destruct (Sp v w Hv) as ((j & Cw) & Fw & S0). destruct Cv as (i & Cv).
    exact (I_inj _ _ _ _ A j i w v Cw Cv Fw Fv S0). }
  assert (Def : forall v, hascorner (s_ts s) v -> is_finite v = true -> nthN m v = Some v).
  { intros v Cv Fv. destruct (Hm v) as (w & Q & _); [exact (D1 v Cv Fv)|apply Hdn, (D1 v Cv Fv)|].
    now rewrite (Self v w Cv Fv Q) in Q. }
  assert (Ends : forall e, In e cs -> hascorner (s_ts s) (efrom e) /\ is_finite (efrom e) = true /\
     hascorner (s_ts s) (eto e) /\ is_finite (eto e) = true /\ medge (s_ts s) (efrom e) (eto e)).
  { intros e He. destruct (Al e He) as [D|D]; apply directed_edge_corners in D; destruct D as (K1 & K2 & K3 & K4 & K5).
    - auto.
    - apply medge_sym in K5. auto. }
  assert (Map : forall e, In e cs -> map_edge m e = Some e).
  { intros (f, g) He. destruct (Ends _ He) as (K1 & K2 & K3 & K4 & _). apply map_edge_inv. cbn [efrom eto] in *. auto. }
  assert (MpM : mapped m (s_ts s)) by (intros v w Hv; destruct (Sp v w Hv) as (? & ? & _); auto).
  unfold apply_constraints in AC.
  destruct (index_ok (normalized vs) px py (s_ts s) A) as (v2t & Ix & V). rewrite Ix in AC. cbn [bind] in AC.
  destruct (foldM (apply_constraint fuel (normalized vs) m) cs (CSt (s_ts s) v2t [])) as [s'| | |] eqn:Fo;
    cbn [bind] in AC; try discriminate.
  apply Ret_inj in AC. injection AC as Et Ec.
  assert (C0 : CInv (normalized vs) px py (fun _ _ => False) (CSt (s_ts s) v2t [])) by (constructor; auto; contradiction).
  assert (Same : ts = s_ts s).
  { rewrite <- Et. apply (fold_same (normalized vs) px py X XC fuel m cs _ _ C0 MpM); [|exact Fo].
    intros raw a b Hr Q _. cbn [c_ts]. rewrite (Map raw Hr) in Q. injection Q as ->. destruct (Ends _ Hr) as (_ & _ & _ & _ & K). exact K. }
  rewrite <- Same in *. clear Same.
  assert (Hset : forall e, In e cset <-> In e cs).
  { intros e. rewrite Rc. split.
    - intros (_ & raw & Hr & Q). rewrite (Map raw Hr) in Q. now injection Q as ->.
    - intros He. split; [|exists e; auto]. destruct (Ends e He) as (_ & _ & _ & _ & K).
      assert (Ne : forall i u v n, he ts i u v n -> u <> v).
      { intros i u v n (c & y & z & Vw). exact (proj1 (D_distinct pos _ _ _ (M_cw _ _ (I_mesh _ _ _ _ M) _ _ _ _ _ _ _ Vw))). }
      destruct K as [(i & n & K)|(i & n & K)]; [exact (Ne _ _ _ _ K)|exact (not_eq_sym (Ne _ _ _ _ K))]. }
  subst out. split; [intros t Ht; now apply emitted_filter in Ht|]. split; [|split].
  - intros t S. destruct (selected_kept px py ts (I_mesh _ _ _ _ M) cset cs Hset t S) as (i & t' & Ht & Ft & -> & K).
    unfold emitted. apply in_flat_map. exists i. split; [now apply Hk|]. rewrite Ht, Ft. now left.
  - intros Hbd ((a, b), c) Ht. destruct (emitted_In _ _ _ _ _ Ht) as (i & t & Hi & Hn & Ft & <-).
    apply (kept_selected px py ts (I_mesh _ _ _ _ M) cset cs Hset Hbd i); auto. now apply Hk.
  - intros Hbd. destruct (emitted ts ids) as [|((a, b), c) l] eqn:Eo; auto. exfalso.
    assert (Ht : In (a, b, c) (emitted ts ids)) by (rewrite Eo; now left).
    destruct (emitted_In _ _ _ _ _ Ht) as (i & t & Hi & Hn & Ft & _).
    apply (kept_outside px py ts (I_mesh _ _ _ _ M) cset cs Hset Hbd i (proj1 (Hk i) Hi) t Hn Ft).
Qed.
End Api.
