(** * CLocal: a constraint only changes the triangles it crosses. *)

From Coq Require Import NArith List Bool Lia QArith Lqa Permutation.
From Verif Require Import Base BaseFacts Arith Types Utils Infinite Triangulation Constrained Geom Mesh
  MeshOps Exact ExactC MeshVerts AnyDT SpecCdt AnyCDT Walk Insert DTExact Spec DTOut CSwap CCross CReg CPres
  CTerm CApply CTotal CdtApi CdtTotal.
Import ListNotations.
Local Open Scope N_scope.

(** ** Any arithmetic: the triangles outside of a set of ids keep their vertices *)
Section Any.
Context {E : Env}.

Section Off.
Variable R : N -> Prop.

Definition keeps (ts ts' : list tri) : Prop :=
  forall i, ~ R i -> option_map tverts (nthN ts' i) = option_map tverts (nthN ts i).

Definition in_ids (d : edge_data) : Prop := R (d_from d) /\ R (d_to d).

Lemma keeps_refl ts : keeps ts ts.
Proof. intros i _. reflexivity. Qed.

Lemma keeps_trans t1 t2 t3 : keeps t1 t2 -> keeps t2 t3 -> keeps t1 t3.
Proof. intros A B i Hi. rewrite (B i Hi). now apply A. Qed.

Lemma keeps_set ts i t ts' : R i -> setN ts i t = Ret ts' -> keeps ts ts'.
Proof.
  intros Hi H j Hj. unfold setN in H. destruct (nthN ts i); [|discriminate]. apply Ret_inj in H. subst ts'.
  rewrite nthN_upd_cases. destruct (N.eqb_spec j i); [congruence|reflexivity].
Qed.

Lemma keeps_unn n o w ts ts' : update_neighbor_neighbor n o w ts = Ret ts' -> keeps ts ts'.
Proof.
  unfold update_neighbor_neighbor. destruct (nexists n); intros H; [|apply Ret_inj in H; subst; apply keeps_refl].
  inv_Ret H. intros j _. unfold setN in H. destruct (nthN ts n) as [t|] eqn:Q; [|discriminate]. apply Ret_inj in H. subst ts'.
  apply getN_Ret in Hm. assert (t = a) by congruence. subst t.
  rewrite nthN_upd_cases. destruct (N.eqb_spec j n) as [->|]; [|reflexivity]. rewrite Q. cbn [option_map]. f_equal.
  unfold tverts. change (t_v1 (update_triangle_neighbor a o w)) with (tv (update_triangle_neighbor a o w) I1).
  change (t_v2 (update_triangle_neighbor a o w)) with (tv (update_triangle_neighbor a o w) I2).
  change (t_v3 (update_triangle_neighbor a o w)) with (tv (update_triangle_neighbor a o w) I3).
  now rewrite !tv_update.
Qed.

Lemma update_in n3 n1 from to d : R from -> R to -> in_ids d -> in_ids (update_edge_data n3 n1 from to d).
Proof.
  intros A B (C & D). unfold update_edge_data.
  repeat match goal with |- context [if ?x then _ else _] => destruct x end; split; cbn [d_from d_to]; auto.
Qed.

Lemma swap_keeps ts v2t d q ts' v2t' upd : in_ids d -> swap_quad_diagonal ts v2t d q = Ret (ts', v2t', upd) ->
  keeps ts ts' /\ forall e, in_ids e -> in_ids (upd e).
Proof.
  intros (A & B) H. unfold swap_quad_diagonal in H. do 14 (inv_Ret H). inversion H; subst; clear H.
  split; [|intros e He; now apply update_in].
  repeat match goal with
  | H : setN _ (d_from d) _ = Ret _ |- _ => apply (keeps_set _ _ _ _ A) in H
  | H : setN _ (d_to d) _ = Ret _ |- _ => apply (keeps_set _ _ _ _ B) in H
  | H : update_neighbor_neighbor _ _ _ _ = Ret _ |- _ => apply keeps_unn in H
  end. eauto 10 using keeps_trans.
Qed.

Lemma remove_keeps vs cv : forall fuel ts v2t inters news nc ts' v2t' news',
  Forall in_ids inters -> Forall in_ids news ->
  remove_crossed_edges fuel ts vs v2t cv inters news nc = Ret (ts', v2t', news') ->
  keeps ts ts' /\ Forall in_ids news'.
Proof.
  induction fuel as [|fuel IH]; intros ts v2t inters news nc ts' v2t' news' FI FN H;
  destruct inters as [|d inters]; cbn [remove_crossed_edges] in H; try discriminate.
  - inversion H; subst; auto using keeps_refl.
  - inversion H; subst; auto using keeps_refl.
  - destruct (lenN inters <? nc); [discriminate|]. inv_Ret H. inv_Ret H.
    inversion FI as [|? ? Fd FI']; subst.
    destruct (negb (is_crossing a0)).
    + eapply IH; [|exact FN|exact H]. apply Forall_app; split; auto.
    + inv_Ret H. destruct a1 as ((ts1, v1), upd). inv_Ret H.
      destruct (swap_keeps _ _ _ _ _ _ _ Fd Hm1) as (K1 & U).
      assert (Fm : forall l, Forall in_ids l -> Forall in_ids (map upd l)).
      { intros l F. induction F; cbn [map]; constructor; auto. }
      assert (Fd' : in_ids (ED (d_from d) (d_to d) (Edge (q3 a) (q4 a)))) by exact Fd.
      destruct (is_crossing a1); apply IH in H; auto; try (apply Forall_app; split; auto);
      destruct H as (R1 & R2); eauto using keeps_trans.
Qed.

Lemma restore_keeps vs ce : forall fuel ts v2t news hist ts' v2t',
  Forall in_ids news -> restore_constrained fuel ts vs v2t ce news hist = Ret (ts', v2t') -> keeps ts ts'.
Proof.
  induction fuel as [|fuel IH]; intros ts v2t news hist ts' v2t' FN H;
  destruct news as [|d news]; cbn [restore_constrained] in H; try discriminate.
  - inversion H; subst; auto using keeps_refl.
  - inversion H; subst; auto using keeps_refl.
  - inversion FN as [|? ? Fd FN']; subst.
    destruct (undirected_equals (d_edge d) ce); [eauto|]. inv_Ret H. inv_Ret H.
    destruct (a0 && negb (history_mem hist (d_from d, d_to d))); [|eauto].
    inv_Ret H. destruct a1 as ((ts1, v1), upd).
    destruct (swap_keeps _ _ _ _ _ _ _ Fd Hm1) as (K1 & U).
    apply IH in H; [eauto using keeps_trans|].
    apply Forall_app; split; [|repeat constructor; apply Fd].
    clear - FN' U. induction FN'; cbn [map]; constructor; auto.
Qed.

End Off.
End Any.

(** ** Exact predicates: the changed triangles are crossed *)
Section Crossed.
Context {E : Env}.
Variable vs : list vertex.
Variables px py : N -> Q.
Hypothesis X : Exact vs px py.
Hypothesis XC : ExactC vs px py.
Notation pos := (hpos px py).
Notation D a b c := (det (pos a) (pos b) (pos c)).

(** Triangle [i] is crossed by the segment from [a] to [b]. *)
Definition hit (ts : list tri) (a b i : N) : Prop :=
  exists s t, (0 < s)%Q /\ (0 < t)%Q /\ inT pos ts i (onseg px py a b s t).

(** The triangle behind a crossed edge is crossed. *)
Lemma near_crossing ts a b i u v w n1 n2 n3 : Mesh pos ts ->
  xing px py a b u v -> view ts i u v w n1 n2 n3 -> hit ts a b i.
Proof.
  intros M Xg V. pose proof (M_cw _ _ M _ _ _ _ _ _ _ V) as Cw. destruct (cpt_right px py a b u v w Xg Cw) as (A & B).
  destruct Xg as (X1 & X2 & X3 & X4).
  destruct (small_delta [(det (pos v) (pos w) (cpt px py a b u v), D v w a);
    (det (pos w) (pos u) (cpt px py a b u v), D w u a)]) as (e & He & Hsm).
  { intros xy Hin. simpl in Hin. decompose [or] Hin; subst; simpl; auto; contradiction. }
  specialize (Hsm e He (Qle_refl e)).
  exists (D u v b + e)%Q, (- D u v a)%Q. split; [lra|]. split; [lra|].
  apply (inT_view _ _ _ _ _ _ _ _ _ _ V).
  assert (K : forall x y, (det (pos x) (pos y) (onseg px py a b (D u v b + e) (- D u v a)) ==
     det (pos x) (pos y) (cpt px py a b u v) + e * D x y a)%Q).
  { intros x y. unfold cpt. rewrite !det_onseg. ring. }
  assert (K1 := Hsm _ (or_introl eq_refl)). assert (K2 := Hsm _ (or_intror (or_introl eq_refl))). cbn [fst snd] in K1, K2.
  repeat split; rewrite K; try lra.
  rewrite (cpt_on px py a b u v). assert (0 < e * - D u v a)%Q by (apply Qmul_pos; lra). lra.
Qed.

Lemma xing_back a b u v : xing px py a b u v -> xing px py b a v u.
Proof.
  intros (A & B & C & F). unfold xing.
  destruct (det_anti (pos a) (pos b) (pos u)) as (K1 & _). destruct (det_anti (pos a) (pos b) (pos v)) as (K2 & _).
  destruct (det_anti (pos u) (pos v) (pos a)) as (K3 & _). destruct (det_anti (pos u) (pos v) (pos b)) as (K4 & _).
  repeat split; lra.
Qed.

Lemma inT_peq ts i p q : peq p q -> inT pos ts i p -> inT pos ts i q.
Proof.
  intros (P1 & P2 & P3) (x & y & z & n1 & n2 & n3 & V & A & B & C). apply (inT_view _ _ _ _ _ _ _ _ _ _ V).
  assert (K : forall u v, (det u v q == det u v p)%Q) by (intros u v; unfold det; rewrite P1, P2, P3; reflexivity).
  split; [|split]; rewrite K; auto.
Qed.

Lemma hit_back ts a b i : hit ts b a i -> hit ts a b i.
Proof.
  intros (s & t & Hs & Ht & H). exists t, s. split; auto. split; auto. revert H. apply inT_peq.
  unfold onseg. split; [|split]; cbn [hx hy hw padd pscale]; ring.
Qed.

(** One constraint. *)
Lemma apply_local (P : N -> N -> Prop) fuel mapping s raw s' a b :
  CInv vs px py P s -> getN mapping (efrom raw) = Ret a -> getN mapping (eto raw) = Ret b ->
  hascorner (c_ts s) a -> hascorner (c_ts s) b -> is_finite a = true -> is_finite b = true ->
  apply_constraint fuel vs mapping s raw = Ret s' ->
  forall i, option_map tverts (nthN (c_ts s') i) = option_map tverts (nthN (c_ts s) i) \/
    (a <> b /\ hit (c_ts s) a b i).
Proof.
  intros [I V Keep] Ga Gb Ha Hb Fa Fb H i. unfold apply_constraint in H. rewrite Ga, Gb in H. cbn [bind] in H.
  destruct ((a =? b) || edge_mem (c_set s) (Edge a b)) eqn:Hc; [apply Ret_inj in H; subst s'; now left|].
  apply orb_false_iff in Hc. destruct Hc as (Hne & _). apply N.eqb_neq in Hne.
  pose proof (hascorner_vok vs _ _ (I_ids _ _ _ _ I) Ha) as Va. pose proof (hascorner_vok vs _ _ (I_ids _ _ _ _ I) Hb) as Vb.
  destruct (get_vertex vs a Va Fa) as (va & Gva & Na). destruct (get_vertex vs b Vb Fb) as (vb & Gvb & Nb).
  unfold edge_to_vertices in H. cbn [efrom eto] in H. rewrite Gva, Gvb in H. cbn [bind] in H.
  destruct V as (Lv & VTw). destruct (VTw a Ha Fa) as (start & Hst & Cst).
  destruct (register_intersected_edges (c_ts s) vs (Edge a b) (va, vb) (c_v2t s)) as [l| | |] eqn:HR; cbn [bind] in H; try discriminate.
  pose proof (register_sound vs px py X XC a b va vb Na Nb Hne (c_ts s) (I_mesh _ _ _ _ I) _ _ _ Hst Cst HR) as S.
  destruct S as [(-> & Hm)|(Hl & R)]; [apply Ret_inj in H; subst s'; now left|].
  destruct l as [|d0 l0]; [congruence|].
  destruct (remove_crossed_edges fuel (c_ts s) vs (c_v2t s) (va, vb) (d0 :: l0) [] 0) as [((ts1, v1), news)| | |] eqn:HM;
    cbn [bind] in H; try discriminate.
  destruct (restore_constrained fuel ts1 vs v1 (Edge a b) news []) as [(ts2, v2)| | |] eqn:HS; cbn [bind] in H; try discriminate.
  apply Ret_inj in H; subst s'. cbn [c_ts].
  set (ids := flat_map (fun d => [d_from d; d_to d]) (d0 :: l0)).
  set (Rs := fun j => In j ids).
  assert (F0 : Forall (in_ids Rs) (d0 :: l0)).
  { apply Forall_forall. intros d Hd. split; apply in_flat_map; exists d; split; simpl; auto. }
  destruct (remove_keeps Rs vs (va, vb) _ _ _ _ _ _ _ _ _ F0 (Forall_nil _) HM) as (K1 & F1).
  pose proof (restore_keeps Rs vs (Edge a b) _ _ _ _ _ _ _ F1 HS) as K2.
  destruct (in_dec N.eq_dec i ids) as [Hi|Hi]; [|left; exact (keeps_trans Rs _ _ _ K1 K2 i Hi)].
  right. split; auto. apply in_flat_map in Hi. destruct Hi as (d & Hd & Hi).
  destruct (G_ok _ _ _ _ _ _ R d Hd) as (Ok & Xd). pose proof (I_mesh _ _ _ _ I) as M.
  destruct (EDok_views px py _ _ M Ok) as (w3 & w4 & n1 & n2 & n3 & n4 & V1 & V2 & _).
  destruct Hi as [<-|[<-|[]]].
  - eapply near_crossing; [exact M|exact Xd|]. apply view_rot. exact V1.
  - apply hit_back. eapply near_crossing; [exact M|apply xing_back; exact Xd|exact V2].
Qed.

(** All of them. *)
Lemma fold_local fuel m : forall l s s',
  CInv vs px py (fun _ _ => False) s -> mapped m (c_ts s) ->
  foldM (apply_constraint fuel vs m) l s = Ret s' ->
  forall i, option_map tverts (nthN (c_ts s') i) = option_map tverts (nthN (c_ts s) i) \/
    exists raw a b, In raw l /\ map_edge m raw = Some (Edge a b) /\ a <> b /\ hit (c_ts s) a b i.
Proof.
  induction l as [|raw l IH]; intros s s' C Mp H i; cbn [foldM] in H.
  - apply Ret_inj in H. subst s'. now left.
  - destruct (apply_constraint fuel vs m s raw) as [s1| | |] eqn:H1; cbn [bind] in H; try discriminate.
    destruct (apply_registers _ _ _ _ _ _ H1) as ((e & He & _) & _). destruct e as (a, b).
    pose proof (proj1 (map_edge_inv m raw a b) He) as (Ha & Hb).
    destruct (Mp _ _ Ha) as (Ca & Fa). destruct (Mp _ _ Hb) as (Cb & Fb).
    assert (Ga : getN m (efrom raw) = Ret a) by (unfold getN; now rewrite Ha).
    assert (Gb : getN m (eto raw) = Ret b) by (unfold getN; now rewrite Hb).
    destruct (apply_constraint_sound vs px py X XC (fun _ _ => False) fuel m s raw s1 a b C Ga Gb Ca Cb Fa Fb) as (C1 & _ & _ & _ & K1);
      [contradiction|exact H1|].
    destruct (apply_local _ fuel m s raw s1 a b C Ga Gb Ca Cb Fa Fb H1 i) as [Q|(Hne & Hh)].
    + destruct (IH s1 s' C1) with (i := i) as [Q'|(r & x & y & Hr & Hx & Hn & Hh)]; auto.
      { intros v w Hv. destruct (Mp v w Hv) as (A & B). split; auto. now apply K1. }
      { left. congruence. }
      right. exists r, x, y. split; [now right|]. split; auto. split; auto.
      destruct Hh as (s0 & t0 & Hs & Ht & u & v & w & n1 & n2 & n3 & Vu & Op). exists s0, t0. split; auto. split; auto.
      clear - Q Vu Op. destruct Vu as (t' & k & Ht' & Er).
      rewrite Ht' in Q. cbn [option_map] in Q. destruct (nthN (c_ts s) i) as [t|] eqn:Ht; [|discriminate].
      cbn [option_map] in Q. injection Q as Q1 Q2 Q3.
      exists u, v, w. destruct t as [a1 a2 a3 m1 m2 m3], t' as [b1 b2 b3 k1 k2 k3]. cbn in Q1, Q2, Q3. subst b1 b2 b3.
      unfold rot in Er. destruct k; simpl in Er; injection Er as -> -> -> -> -> ->.
      * exists m1, m2, m3. split; auto. eexists _, I1. split; [exact Ht|reflexivity].
      * exists m2, m3, m1. split; auto. eexists _, I2. split; [exact Ht|reflexivity].
      * exists m3, m1, m2. split; auto. eexists _, I3. split; [exact Ht|reflexivity].
    + right. exists raw, a, b. split; [now left|]. auto.
Qed.

End Crossed.

(** ** The entry points *)
Section Api.
Context {E : Env}.
Variables (fuel : nat) (bins : N) (vs : list vertex).
Variables px py : N -> Q.
Hypothesis X : Exact (normalized vs) px py.
Hypothesis XC : ExactC (normalized vs) px py.
Hypothesis Hid : 2 * lenN vs + 2 <= idmax.
Hypothesis Hf : (4 * length vs + 12 <= fuel)%nat.
Notation at_ := (place px py).

(** A segment with a point strictly inside a finite triangle of the mesh. *)
Lemma hit_place ts a b i t x y z : is_finite a = true -> is_finite b = true ->
  nthN ts i = Some t -> tverts t = (x, y, z) -> is_finite x = true -> is_finite y = true -> is_finite z = true ->
  hit px py ts a b i ->
  exists s, (0 < s < 1)%Q /\ strictly_inside (at_ x) (at_ y) (at_ z) (along (at_ a) (at_ b) s).
Proof.
  intros Fa Fb Ht Tv Fx Fy Fz (s0 & t0 & Hs & Ht0 & H).
  assert (Hst : (~ s0 + t0 == 0)%Q) by lra.
  set (r := (t0 / (s0 + t0))%Q).
  assert (Er : (r * (s0 + t0) == t0)%Q) by (unfold r; field; auto).
  assert (Hr : (0 < r < 1)%Q) by (split; nra).
  exists r. split; auto.
  pose proof (view_exists _ _ _ Ht) as V. unfold tverts in Tv. injection Tv as Tx Ty Tz. rewrite Tx, Ty, Tz in V.
  apply (inT_view _ _ _ _ _ _ _ _ _ _ V) in H. destruct H as (H1 & H2 & H3).
  assert (K : forall u v, is_finite u = true -> is_finite v = true ->
    (det (hpos px py u) (hpos px py v) (onseg px py a b s0 t0) < 0)%Q ->
    (orient (at_ u) (at_ v) (along (at_ a) (at_ b) r) < 0)%Q).
  { intros u v Fu Fv G. rewrite (det_onseg px py), !(det_orient px py) in G by auto. rewrite orient_along.
    set (o1 := orient _ _ (at_ a)) in *. set (o2 := orient _ _ (at_ b)) in *.
    assert (Q2 : (s0 * o1 + t0 * o2 == ((1 - r) * o1 + r * o2) * (s0 + t0))%Q).
    { rewrite <- Er at 1. assert (Q : (s0 == (1 - r) * (s0 + t0))%Q) by lra. rewrite Q at 1. ring. }
    rewrite Q2 in G. nra. }
  split; [|split]; apply K; auto.
Qed.

Lemma strictly_same a b c p q : same_place p q -> strictly_inside a b c p -> strictly_inside a b c q.
Proof.
  intros (A & B) (C & D & F). unfold strictly_inside, orient in *. rewrite <- A, <- B. auto.
Qed.

Lemma filtered ts x y z : In (x, y, z) (filter_triangles ts) ->
  exists i t, nthN ts i = Some t /\ tverts t = (x, y, z) /\ is_finite x = true /\ is_finite y = true /\ is_finite z = true.
Proof.
  unfold filter_triangles. rewrite in_map_iff. intros (t & Q & Ht). apply filter_In in Ht.
  destruct Ht as (Ht & Ff). apply tri_fin_parts in Ff. apply In_nthN in Ht. destruct Ht as (i & Ht).
  exists i, t. split; auto. split; auto. unfold tverts in Q. injection Q as <- <- <-. exact Ff.
Qed.

Lemma in_place ts i t x y z p : nthN ts i = Some t -> tverts t = (x, y, z) ->
  is_finite x = true -> is_finite y = true -> is_finite z = true -> strictly_inside (at_ x) (at_ y) (at_ z) p ->
  inT (hpos px py) ts i (P3 (fst p) (snd p) 1).
Proof.
  intros Ht Tv Fx Fy Fz (P1 & P2 & P3). pose proof (view_exists _ _ _ Ht) as V.
  unfold tverts in Tv. injection Tv as Tx Ty Tz. rewrite Tx, Ty, Tz in V.
  apply (inT_view _ _ _ _ _ _ _ _ _ _ V). split; [|split]; rewrite (det_orient_p px py); auto.
Qed.

(** A triangle of the constrained triangulation that overlaps a triangle of the unconstrained
    one is the same triangle, or the latter is crossed by a constraint. *)
Lemma cdt_local cs out dt a b c x y z p :
  constrained_triangulation_from_2d_vertices fuel bins vs cs = Ret out ->
  triangulation_from_2d_vertices fuel bins vs = Ret dt ->
  In (a, b, c) out -> In (x, y, z) dt ->
  strictly_inside (at_ a) (at_ b) (at_ c) p -> strictly_inside (at_ x) (at_ y) (at_ z) p ->
  (a, b, c) = (x, y, z) \/
  exists e s, In e cs /\ (0 < s < 1)%Q /\
    strictly_inside (at_ x) (at_ y) (at_ z) (along (at_ (efrom e)) (at_ (eto e)) s).
Proof.
  intros H H0 Ho Hd Pa Px.
  apply dt_inv in H0. destruct H0 as [(L & ->)|(H3 & nvs & c1 & c2 & c3 & s0 & NV & _ & W0 & E0)]; [destruct Hd|].
  assert (EN : nvs = normalized vs) by (unfold normalized; now rewrite NV). rewrite EN in *. clear EN NV.
  destruct (cdt_run fuel bins vs px py X XC Hid Hf cs out H3 H) as (m & ts & cset & [M R1 Lm' _ _ _ _ (ids & _ & _ & _ & Eo) (s & W & SM & AC)]).
  pose proof (wrap_erased fuel bins (normalized vs) (Some (rangeN 0 (length vs)))) as Er.
  rewrite W in Er. cbn [erased] in Er. rewrite W0 in Er. apply Ret_inj in Er. subst s0. cbn [erase s_ts] in E0. subst dt.
  destruct (norm_len vs) as (LN' & LN).
  assert (Hb : exists order, bin_sort bins (normalized vs) = Ret order).
  { unfold wrap_and_triangulate in W. destruct (bin_sort bins (normalized vs)); try discriminate. eauto. }
  destruct Hb as (order & Hb).
  pose proof (wrap_post (normalized vs) px py X fuel bins _ order Hb (or_intror eq_refl)) as Wp.
  rewrite LN, W in Wp. cbn [post] in Wp.
  destruct Wp as (done & Hdn & Ld & DI); [lia|lia|lia|].
  destruct DI as [A B C D1 R Mp]. destruct (Mp m SM) as (Lm & Hm & _).
  assert (Sp : forall v w, nthN m v = Some w -> hascorner (s_ts s) w /\ is_finite w = true /\ samepos px py w v).
  { intros v w Hv. pose proof (nthN_lt _ _ _ Hv) as Lv. rewrite Lm, LN' in Lv.
    destruct (Hm v) as (w' & Q & Cw & Fw & S0); [apply Hdn; lia|lia|]. rewrite Hv in Q. injection Q as <-. auto. }
  assert (MpM : mapped m (s_ts s)) by (intros v w Hv; destruct (Sp v w Hv) as (? & ? & _); auto).
  unfold apply_constraints in AC.
  destruct (index_ok (normalized vs) px py (s_ts s) A) as (v2t & Ix & V). rewrite Ix in AC. cbn [bind] in AC.
  destruct (foldM (apply_constraint fuel (normalized vs) m) cs (CSt (s_ts s) v2t [])) as [s'| | |] eqn:Fo;
    cbn [bind] in AC; try discriminate.
  apply Ret_inj in AC. injection AC as Et <-.
  assert (C0 : CInv (normalized vs) px py (fun _ _ => False) (CSt (s_ts s) v2t [])) by (constructor; auto; contradiction).
  pose proof (fold_local (normalized vs) px py X XC fuel m cs _ _ C0 MpM Fo) as Lo. cbn [c_ts] in Lo. rewrite Et in Lo.
  rewrite Eo in Ho. apply emitted_filter in Ho.
  destruct (filtered _ _ _ _ Ho) as (i & t & Hi & Tv & Fa & Fb & Fc).
  destruct (filtered _ _ _ _ Hd) as (j & u & Hj & Tu & Fx & Fy & Fz).
  destruct (Lo j) as [Q|(raw & f & g & Hr & He & Hne & Hh)].
  - left. rewrite Hj in Q. cbn [option_map] in Q. destruct (nthN ts j) as [u'|] eqn:Hj'; [|discriminate].
    assert (Q' : tverts u' = (x, y, z)) by (rewrite <- Tu; cbn [option_map] in Q; congruence).
    destruct (N.eq_dec i j) as [->|Hij]; [rewrite Hi in Hj'; injection Hj' as ->; congruence|exfalso].
    apply (M_disj _ _ (I_mesh _ _ _ _ M) i j (P3 (fst p) (snd p) 1) Hij); [apply (in_place ts i t a b c)|apply (in_place ts j u' x y z)]; auto.
  - right. pose proof He as He'. apply map_edge_inv in He'. destruct He' as (Hf1 & Hg1).
    destruct (Sp _ _ Hf1) as (_ & Ff & Sf). destruct (Sp _ _ Hg1) as (_ & Fg & Sg).
    destruct (hit_place (s_ts s) f g j u x y z Ff Fg Hj Tu Fx Fy Fz Hh) as (r & Hr' & In').
    exists raw, r. split; auto. split; auto. revert In'. apply strictly_same.
    destruct Sf as (S1 & S2). destruct Sg as (S3 & S4).
    unfold along, place. split; cbn [fst snd]; rewrite ?S1, ?S2, ?S3, ?S4; reflexivity.
Qed.

End Api.
