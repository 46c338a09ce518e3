(** * CTotal: the constrained insertion ends, and it returns a mesh whenever its constrained
    edges avoid the other vertices and are covered by bounded triangles. *)

From Coq Require Import NArith List Bool Lia QArith Lqa Permutation.
From Verif Require Import Base BaseFacts Arith Types Utils Infinite Triangulation Constrained Geom Mesh
  MeshOps Exact ExactC MeshVerts AnyDT AnyCDT Small Walk Insert DTExact Spec DTOut CSwap CCross CReg CPres CTerm CSearch CApply.
Import ListNotations.
Local Open Scope N_scope.

(** ** Any arithmetic *)
Section Any.
Context {E : Env}.

Lemma remove_len vs cv : forall fuel ts v2t Q news nc ts' v2t' news',
  remove_crossed_edges fuel ts vs v2t cv Q news nc = Ret (ts', v2t', news') ->
  length news' = (length news + length Q)%nat.
Proof.
  induction fuel as [|fuel IH]; intros ts v2t Q news nc ts' v2t' news' H; destruct Q as [|d Q];
    cbn [remove_crossed_edges] in H; try discriminate.
  - apply Ret_inj in H. injection H as _ _ <-. simpl. lia.
  - apply Ret_inj in H. injection H as _ _ <-. simpl. lia.
  - destruct (lenN Q <? nc); [discriminate|]. inv_Ret H. rename a into q. inv_Ret H. rename a into x.
    destruct (is_crossing x); cbn [negb] in H.
    + inv_Ret H. destruct a as ((ts1, v1), upd). inv_Ret H. rename a into y.
      destruct (is_crossing y); apply IH in H; rewrite ?app_length, ?map_length in H; cbn [length] in *; lia.
    + apply IH in H. rewrite app_length in H. cbn [length] in *. lia.
Qed.

(** The errors of the search. *)
Definition search_error (e : err) : Prop :=
  e = ErrSearchCycle \/ e = ErrCrossedEdgeNoNeighbor \/ e = ErrFirstIntersectionNotFound \/ e = ErrNoNextIntersection.

Definition search_outcome {A} (r : res A) : Prop :=
  (exists x, r = Ret x) \/ r = Panic \/ exists e, r = Fail e /\ search_error e.

Lemma search_bind {A B} (m : res A) (f : A -> res B) :
  search_outcome m -> (forall x, search_outcome (f x)) -> search_outcome (bind m f).
Proof.
  intros [(x & ->)|[-> |(e & -> & He)]] K; cbn [bind]; [apply K|right; left; reflexivity|].
  right; right. exists e. auto.
Qed.

Lemma search_ret {A} (x : A) : search_outcome (Ret x).
Proof. left. eauto. Qed.

Lemma search_getN {A} (l : list A) i : search_outcome (getN l i).
Proof. unfold getN. destruct (nthN l i); [left; eauto|right; left; reflexivity]. Qed.

Lemma search_edge_test vs e cv : search_outcome (edge_and_constrained_edge_intersection vs e cv).
Proof.
  unfold edge_and_constrained_edge_intersection, edge_to_vertices.
  destruct (infinite_vertex_local_quad_index (efrom e)), (infinite_vertex_local_quad_index (eto e));
    repeat (apply search_bind; [auto using search_getN|intros ?]); auto using search_ret.
Qed.

Lemma search_loop ts vs ce cv next : forall n first from tid,
  search_outcome (loop_around n first ts vs from tid ce cv next).
Proof.
  induction n as [|n IH]; intros first from tid; cbn [loop_around]; [apply search_ret|].
  destruct (negb first && (tid =? from)); [right; right; eexists; split; [reflexivity|left; reflexivity]|].
  apply search_bind; [apply search_getN|]. intros t.
  destruct (verts_contains t (eto ce)); [apply search_ret|].
  apply search_bind; [apply search_edge_test|]. intros i.
  destruct (is_crossing i).
  - destruct (nexists _); [apply search_ret|]. right; right; eexists; split; [reflexivity|right; left; reflexivity].
  - destruct (nexists _); [apply IH|apply search_ret].
Qed.

Lemma search_next vs cv t tid fe : forall is, search_outcome (next_intersection is vs cv t tid fe).
Proof.
  induction is as [|i is IH]; cbn [next_intersection]; [apply search_ret|].
  destruct (undirected_equals _ _); auto. apply search_bind; [apply search_edge_test|]. intros x.
  destruct (_ && _); [apply search_ret|apply IH].
Qed.

Lemma search_register_loop ts vs ce cv : forall n cur acc, search_outcome (register_loop n ts vs ce cv cur acc).
Proof.
  induction n as [|n IH]; intros cur acc; cbn [register_loop]; [apply search_ret|].
  apply search_bind; [apply search_getN|]. intros t. destruct (verts_contains t (eto ce)); [apply search_ret|].
  apply search_bind; [apply search_next|]. intros [d|]; [apply IH|].
  right; right; eexists; split; [reflexivity|right; right; right; reflexivity].
Qed.

Lemma search_register ts vs ce cv v2t : search_outcome (register_intersected_edges ts vs ce cv v2t).
Proof.
  unfold register_intersected_edges, search_first_intersected_quad.
  apply search_bind; [apply search_getN|]. intros st. apply search_bind.
  - apply search_bind; [apply search_loop|]. intros [|d|]; try apply search_ret.
    apply search_bind; [apply search_getN|]. intros t. apply search_loop.
  - intros [|d|]; [apply search_ret|apply search_register_loop|].
    right; right; eexists; split; [reflexivity|right; right; left; reflexivity].
Qed.
End Any.

Section WithEnv.
Context {E : Env}.
Variable vs : list vertex.
Variables px py : N -> Q.
Hypothesis X : Exact vs px py.
Hypothesis XC : ExactC vs px py.

Notation pos := (hpos px py).
Notation D a b c := (det (pos a) (pos b) (pos c)).
Notation Mesh := (Mesh pos).
Notation Ids := (Ids vs).
Notation vok := (vok vs).
Notation MInv := (MInv vs px py).
Notation VT := (VT vs).
Notation Cov := (Cov px py).
Notation Covs := (Covs px py).
Notation CInv := (CInv vs px py).

(** ** Restoring the Delaunay criterion *)
Lemma restore_progress ce : forall fuel ts v2t news hist, MInv ts -> VT ts v2t -> Pend ts news ->
  restore_constrained fuel ts vs v2t ce news hist = OutOfFuel \/
  exists ts' v2t', restore_constrained fuel ts vs v2t ce news hist = Ret (ts', v2t') /\ Covs ts ts'.
Proof.
  induction fuel as [|fuel IH]; intros ts v2t news hist I V Pd; destruct news as [|d news]; cbn [restore_constrained].
  - right. exists ts, v2t. split; auto. now intros p.
  - now left.
  - right. exists ts, v2t. split; auto. now intros p.
  - assert (Pt : Pend ts news) by (eapply pend_tail; eauto).
    destruct (undirected_equals (d_edge d) ce); [auto|].
    assert (Hd : EDok ts d) by (apply (P_ok _ _ Pd); now left).
    destruct (pend_quad vs px py ts d I Hd) as (q & Hq & Q1 & Q2 & V1 & V2 & V3 & V4 & C1 & C2).
    rewrite Hq. cbn [bind].
    assert (Sw : exists r, constrained_should_swap_diagonals q vs = Ret r /\
      (r = true -> is_finite (q3 q) = true /\ is_finite (q4 q) = true)).
    { unfold constrained_should_swap_diagonals. rewrite !inf_not_fin.
      destruct (is_finite (q3 q)) eqn:F3; cbn [negb orb]; [|exists false; split; auto; discriminate].
      destruct (is_finite (q4 q)) eqn:F4; cbn [negb orb]; [|exists false; split; auto; discriminate].
      destruct q as [u v c w]; cbn [q1 q2 q3 q4] in *.
      destruct (should_swap_post vs px py X u v c w V1 V2 V3 V4 F4 C1 C2) as (r & Hr & _).
      exists r. split; auto. unfold should_swap_diagonals in Hr. cbn [q1 q2 q3 q4] in Hr. rewrite inf_not_fin, F3 in Hr.
      exact Hr. }
    destruct Sw as (r & Hr & Fr). rewrite Hr. cbn [bind].
    destruct (r && negb (history_mem hist (d_from d, d_to d))) eqn:Hb; [|auto].
    apply andb_true_iff in Hb. destruct Hb as (-> & _). destruct (Fr eq_refl) as (F3 & F4).
    assert (N12 : (D (q4 q) (q1 q) (q3 q) < 0 /\ D (q4 q) (q3 q) (q2 q) < 0)%Q).
    { destruct q as [u v c w]; cbn [q1 q2 q3 q4] in *.
      eapply (constrained_swap_convex vs px py X u v c w); eauto. }
    destruct N12 as (N1 & N2).
    destruct (pend_swap vs px py ts v2t d news q I V Pd Hq N1 N2) as (ts1 & v1 & upd & Hs & W & Pd1 & U).
    rewrite Hs. cbn [bind].
    destruct (IH ts1 v1 (map upd news ++ [ED (d_from d) (d_to d) (Edge (q3 q) (q4 q))]) ((d_from d, d_to d) :: hist))
      as [K|(ts' & v' & K & Cv)].
    + exact (W_inv _ _ _ _ _ _ _ _ _ W).
    + exact (W_vt _ _ _ _ _ _ _ _ _ W).
    + eapply pend_perm; [|exact Pd1]. apply Permutation_cons_append.
    + now left.
    + right. exists ts', v'. split; auto. intros p Hp. apply Cv.
      exact (swap_cov vs px py ts ts1 v1 d q upd (I_mesh _ _ _ _ I) W F3 F4 p Hp).
Qed.

Section Ab.
Variables a b : N.
Variables va vb : vertex.
Hypothesis Na : nthN vs a = Some va.
Hypothesis Nb : nthN vs b = Some vb.
Hypothesis Hab : a <> b.
Notation onseg := (onseg px py a b).
Notation xing := (xing px py a b).

Definition segcov (ts : list tri) : Prop := forall s t, (0 < s)%Q -> (0 < t)%Q -> Cov ts (onseg s t).

(** An edge crossing a covered segment is bounded. *)
Lemma xing_finite ts u v n i : Mesh ts -> segcov ts -> he ts i u v n -> xing u v ->
  is_finite u = true /\ is_finite v = true.
Proof.
  intros M Sc (c & n2 & n3 & V) Xu. pose proof (M_cw _ _ M _ _ _ _ _ _ _ V) as C.
  pose proof (hw_cpt vs px py X a b va vb Na Nb u v Xu) as Hw.
  destruct (cpt_right px py a b u v c Xu C) as (R1 & R2).
  assert (K : Cov ts (cpt px py a b u v)).
  { destruct Xu as (X1 & X2 & X3 & X4). apply Sc; lra. }
  destruct K as (j & x & y & z & m1 & m2 & m3 & Vj & Fx & Fy & Fz & Cj).
  assert (Ic : inC pos ts j (cpt px py a b u v)) by (apply (inC_view _ _ _ _ _ _ _ _ _ _ Vj); exact Cj).
  assert (Fc : forall w, corner ts j w -> is_finite w = true).
  { intros w Cw. destruct (corner_cases px py _ _ _ _ _ _ _ _ _ Vj Cw) as [-> |[-> | ->]]; auto. }
  destruct (view_he _ _ _ _ _ _ _ _ V) as (H1 & H2 & H3).
  destruct (edge_point_closed px py ts i u v c n n2 n3 _ j M V Hw (cpt_on px py a b u v) R1 R2 Ic) as [-> | ->].
  - split; apply Fc; [exists v, n; auto|exists c, n2; auto].
  - assert (Hn : n <> NONE).
    { intros Q. apply view_lt in Vj. pose proof (M_len _ _ M). unfold NONE in Q. lia. }
    pose proof (glue_some _ _ M _ _ _ _ H1 Hn) as G.
    split; apply Fc; [now apply he_corner2 in G|exists u, i; auto].
Qed.
End Ab.

(** ** The search does not panic *)
Section Search.
Variables a b : N.
Variables va vb : vertex.
Hypothesis Na : nthN vs a = Some va.
Hypothesis Nb : nthN vs b = Some vb.
Hypothesis Hab : a <> b.
Variable ts : list tri.
Hypothesis I : MInv ts.
Let M : Mesh ts := I_mesh _ _ _ _ I.

Lemma edge_test_ret t tid k : nthN ts tid = Some t ->
  exists x, edge_and_constrained_edge_intersection vs (tedge t k) (va, vb) = Ret x.
Proof.
  intros Ht. pose proof (he_at ts tid t k Ht) as Hh.
  assert (He : tedge t k = Edge (tv t k) (tv t (next_cw k))) by (destruct k; reflexivity). rewrite He.
  apply edge_test_total; cbn [efrom eto]; apply (hascorner_vok vs ts _ (I_ids _ _ _ _ I)).
  - exists tid; eexists; eexists; exact Hh.
  - exists tid. exact (he_corner2 ts _ _ _ _ Hh).
Qed.

Lemma loop_no_panic next : next = outermost_cw \/ next = outermost_ccw ->
  forall n first from tid, corner ts tid a ->
  loop_around n first ts vs from tid (Edge a b) (va, vb) next <> Panic.
Proof.
  intros Hnext. induction n as [|n IH]; intros first from tid Ca; cbn [loop_around]; [discriminate|].
  destruct (negb first && (tid =? from)); [discriminate|].
  assert (Ht : exists t, nthN ts tid = Some t) by (destruct Ca as (u & m & H); apply he_inv in H; destruct H as (t & k & Ht & _); eauto).
  destruct Ht as (t & Ht). unfold getN. rewrite Ht. cbn [bind efrom eto].
  destruct (verts_contains t b); [discriminate|].
  set (k := vertex_index t a) in *.
  pose proof (vertex_index_corner ts _ _ _ Ht Ca) as Hk. fold k in Hk.
  destruct (edge_test_ret t tid (opposite_edge_index k) Ht) as (x & ->). cbn [bind].
  destruct (is_crossing x); [destruct (nexists _); discriminate|].
  destruct (nexists (tn t (next k))) eqn:Hx; [|discriminate]. apply IH.
  apply nexists_ne in Hx. pose proof (view_at ts tid t k Ht) as V. rewrite Hk in V.
  destruct (view_he _ _ _ _ _ _ _ _ V) as (H1 & H2 & H3).
  destruct Hnext as [-> | ->].
  - assert (Q : tn t (outermost_cw k) = tn t (next_ccw k)) by (destruct k; reflexivity). rewrite Q in *.
    pose proof (glue_some _ _ M _ _ _ _ H3 Hx) as G. eexists; eexists; exact G.
  - assert (Q : tn t (outermost_ccw k) = tn t k) by (destruct k; reflexivity). rewrite Q in *.
    pose proof (glue_some _ _ M _ _ _ _ H1 Hx) as G. now apply he_corner2 in G.
Qed.

Lemma next_no_panic t tid fe : nthN ts tid = Some t -> forall is, next_intersection is vs (va, vb) t tid fe <> Panic.
Proof.
  intros Ht. induction is as [|k is IH]; cbn [next_intersection]; [discriminate|].
  destruct (undirected_equals _ _); auto. destruct (edge_test_ret t tid k Ht) as (x & ->). cbn [bind].
  destruct (_ && _); [discriminate|auto].
Qed.

Lemma register_no_panic v2t start : nthN v2t a = Some start -> corner ts start a ->
  register_intersected_edges ts vs (Edge a b) (va, vb) v2t <> Panic.
Proof.
  intros Hv Ca. unfold register_intersected_edges, getN. cbn [efrom]. rewrite Hv. cbn [bind].
  assert (Ns : search_first_intersected_quad ts vs (Edge a b) (va, vb) start <> Panic).
  { unfold search_first_intersected_quad.
    pose proof (loop_no_panic outermost_cw (or_introl eq_refl) (length ts) true start start Ca) as N1.
    destruct (loop_around _ _ _ _ _ _ _ _ outermost_cw) as [r| | |]; cbn [bind]; try discriminate; [|congruence].
    destruct r; try discriminate.
    assert (Ht : exists t, nthN ts start = Some t) by (destruct Ca as (u & m & H); apply he_inv in H; destruct H as (t & k & Ht & _); eauto).
    destruct Ht as (t & Ht). unfold getN. rewrite Ht. cbn [bind efrom].
    apply loop_no_panic; auto. set (k := vertex_index t a).
    pose proof (vertex_index_corner ts _ _ _ Ht Ca) as Hk. fold k in Hk.
    assert (Q : tn t (outermost_ccw k) = tn t k) by (destruct k; reflexivity). rewrite Q.
    pose proof (he_at ts start t k Ht) as H1. rewrite Hk in H1.
    destruct (M_glue _ _ M _ _ _ _ H1) as [(_ & Ia & _)|G]; [|now apply he_corner2 in G].
    rewrite inf_not_fin, (fin_a vs px py X a va Na) in Ia. discriminate. }
  destruct (search_first_intersected_quad ts vs (Edge a b) (va, vb) start) as [r| | |] eqn:Hr; cbn [bind]; try discriminate; [|congruence].
  destruct r as [|d|]; try discriminate.
  pose proof (search_sound vs px py X XC a b va vb Na Nb Hab ts M start _ Ca Hr) as (Ok & _).
  assert (L : forall n cur acc, EDok ts cur -> register_loop n ts vs (Edge a b) (va, vb) cur acc <> Panic).
  { induction n as [|n IH]; intros cur acc (Hh & Hn); cbn [register_loop]; [discriminate|].
    pose proof (glue_some _ _ M _ _ _ _ Hh Hn) as (z & n3 & n4 & V).
    destruct (view_nth _ _ _ _ _ _ _ _ V) as (t & Ht).
    unfold getN. rewrite Ht. cbn [bind eto]. destruct (verts_contains t b); [discriminate|].
    pose proof (next_no_panic t (d_to cur) (d_edge cur) Ht [I1; I2; I3]) as Np. unfold get_next_triangle_edge_intersection in *.
    destruct (next_intersection [I1; I2; I3] vs (va, vb) t (d_to cur) (d_edge cur)) as [[d'|]| | |] eqn:Hd; cbn [bind]; try discriminate; [|congruence].
    apply IH. destruct (next_intersection_spec vs px py X XC a b va vb Na Nb ts _ _ _ Ht _ _ Hd) as (F1 & F2 & F3 & _).
    split; auto. now rewrite F1. }
  now apply L.
Qed.
End Search.

(** ** One constraint *)
Inductive applied (ts : list tri) (a b : N) : res cstate -> Prop :=
| ap_ret s' : (segcov a b ts -> Covs ts (c_ts s')) -> applied ts a b (Ret s')
| ap_panic : ~ segcov a b ts -> applied ts a b Panic
| ap_fail e : search_error e -> ~ no_vertex px py a b ts -> applied ts a b (Fail e).

Lemma apply_constraint_total fuel mapping s raw a b :
  MInv (c_ts s) -> VT (c_ts s) (c_v2t s) -> getN mapping (efrom raw) = Ret a -> getN mapping (eto raw) = Ret b ->
  hascorner (c_ts s) a -> hascorner (c_ts s) b -> is_finite a = true -> is_finite b = true ->
  (length (c_ts s) * length (c_ts s) + length (c_ts s) <= fuel)%nat ->
  applied (c_ts s) a b (apply_constraint fuel vs mapping s raw).
Proof.
  intros I V Ga Gb Ha Hb Fa Fb Hf. unfold apply_constraint. rewrite Ga, Gb. cbn [bind].
  destruct ((a =? b) || edge_mem (c_set s) (Edge a b)) eqn:Hc; [constructor; intros _; now intros p|].
  apply orb_false_iff in Hc. destruct Hc as (Hne & _). apply N.eqb_neq in Hne.
  pose proof (I_mesh _ _ _ _ I) as M.
  pose proof (hascorner_vok vs _ _ (I_ids _ _ _ _ I) Ha) as Va. pose proof (hascorner_vok vs _ _ (I_ids _ _ _ _ I) Hb) as Vb.
  destruct (get_vertex vs a Va Fa) as (va & Gva & Na). destruct (get_vertex vs b Vb Fb) as (vb & Gvb & Nb).
  unfold edge_to_vertices. cbn [efrom eto]. rewrite Gva, Gvb. cbn [bind].
  pose proof V as (Lv & VTw). destruct (VTw a Ha Fa) as (start & Hst & Cst).
  assert (Found : no_vertex px py a b (c_ts s) -> exists l, register_intersected_edges (c_ts s) vs (Edge a b) (va, vb) (c_v2t s) = Ret l).
  { intros NV. exact (register_found vs px py X XC a b va vb Na Nb Hne (c_ts s) I Hb NV (c_v2t s) start Hst Cst). }
  destruct (register_intersected_edges (c_ts s) vs (Edge a b) (va, vb) (c_v2t s)) as [l|e| |] eqn:HR; cbn [bind].
  2:{ constructor.
      - destruct (search_register (c_ts s) vs (Edge a b) (va, vb) (c_v2t s)) as [(x & Q)|[Q|(e' & Q & He)]]; rewrite HR in Q;
          try discriminate. now injection Q as ->.
      - intros NV. destruct (Found NV) as (l & Q). discriminate. }
  2:{ exfalso. exact (register_no_panic a b va vb Na Nb Hne (c_ts s) I (c_v2t s) start Hst Cst HR). }
  2:{ exfalso. destruct (search_register (c_ts s) vs (Edge a b) (va, vb) (c_v2t s)) as [(x & Q)|[Q|(e' & Q & He)]]; rewrite HR in Q; discriminate. }
  destruct l as [|d0 l0]; [constructor; intros _; now intros p|].
  destruct (register_total vs px py X XC a b va vb Na Nb Hne (c_ts s) (c_v2t s) (d0 :: l0) start M Hst Cst HR) as (Qs & Ll); [discriminate|].
  destruct (register_sound vs px py X XC a b va vb Na Nb Hne (c_ts s) M _ _ _ Hst Cst HR) as [(Q & _)|(_ & Rg)]; [discriminate|].
  assert (Pd : Pend (c_ts s) ((d0 :: l0) ++ [])).
  { rewrite app_nil_r. constructor; [intros d Hd; now apply (G_ok _ _ _ _ _ _ Rg)|exact (G_nd _ _ _ _ _ _ Rg)]. }
  assert (Fin : segcov a b (c_ts s) -> Forall finD (d0 :: l0)).
  { intros Sc. apply Forall_forall. intros d Hd. destruct (G_ok _ _ _ _ _ _ Rg d Hd) as ((Hh & _) & Xd).
    exact (xing_finite a b va vb Na Nb Hne (c_ts s) _ _ _ _ M Sc Hh Xd). }
  assert (Fu : (need true (length (d0 :: l0)) (length (d0 :: l0)) <= fuel)%nat).
  { clear -Ll Hf. unfold need. set (n := length (d0 :: l0)) in *. nia. }
  destruct (remove_total vs px py X XC a b va vb Na Nb Hne fuel (c_ts s) (c_v2t s) (d0 :: l0) [] 0 true _ I V Pd Qs Fu)
    as [(ts1 & v1 & news & HM & Cv)|(HM & Nf)]; rewrite HM; cbn [bind].
  2:{ constructor. auto. }
  assert (R0 : RI vs px py a b (fun _ _ => False) (c_ts s) (c_v2t s) (d0 :: l0) []).
  { constructor; auto.
    - intros d Hd. destruct (G_ok _ _ _ _ _ _ Rg d Hd) as (_ & Xd). now apply xing_crosses.
    - intros x y Hm Hx. exact (registered_complete vs px py X a b va vb Na Nb (c_ts s) M _ _ _ Rg Hm Hx).
    - contradiction. }
  destruct (remove_sound vs px py X XC a b va vb Na Nb (fun _ _ => False) (fun _ _ A => match A with end) _ _ _ _ _ _ _ _ _ R0 HM)
    as ([I1 V1 Pd1 _ _ _ _] & L1 & _).
  pose proof (remove_len _ _ _ _ _ _ _ _ _ _ _ HM) as Ln. cbn [length] in Ln.
  assert (L1' : length ts1 = length (c_ts s)) by (clear -L1; unfold lenN in L1; lia).
  destruct (restore_progress (Edge a b) fuel ts1 v1 news [] I1 V1 Pd1) as [K|(ts2 & v2 & K & Cv2)].
  - exfalso. revert K. apply restore_terminates. rewrite L1', Ln. clear -Ll Hf. cbn [length] in Ll. lia.
  - rewrite K. cbn [bind]. constructor. cbn [c_ts]. intros Sc p Hp. apply Cv2, Cv; auto.
Qed.

(** ** All the constraints *)
Section Fold.
Variable m : list N.
Notation none := (fun _ _ : N => False).

Lemma apply_constraint_same fuel s raw a b : getN m (efrom raw) = Ret a -> getN m (eto raw) = Ret b -> a = b ->
  apply_constraint fuel vs m s raw = Ret s.
Proof. intros A B C. unfold apply_constraint. rewrite A, B. cbn [bind]. subst b. now rewrite N.eqb_refl. Qed.

Lemma fold_outcome fuel : forall l s,
  CInv none s -> mapped m (c_ts s) -> (length (c_ts s) * length (c_ts s) + length (c_ts s) <= fuel)%nat ->
  (exists s', foldM (apply_constraint fuel vs m) l s = Ret s') \/
  foldM (apply_constraint fuel vs m) l s = Panic \/
  (exists e raw a b, foldM (apply_constraint fuel vs m) l s = Fail e /\ search_error e /\
     In raw l /\ map_edge m raw = Some (Edge a b) /\ a <> b /\ ~ no_vertex px py a b (c_ts s)).
Proof.
  induction l as [|raw l IH]; intros s C Mp Hf; cbn [foldM]; [left; eauto|].
  destruct (nthN m (efrom raw)) as [a|] eqn:Ha.
  2:{ right; left. unfold apply_constraint, getN. now rewrite Ha. }
  destruct (nthN m (eto raw)) as [b|] eqn:Hb.
  2:{ right; left. unfold apply_constraint, getN. rewrite Ha, Hb. reflexivity. }
  destruct (Mp _ _ Ha) as (Ca & Fa). destruct (Mp _ _ Hb) as (Cb & Fb).
  assert (Ga : getN m (efrom raw) = Ret a) by (unfold getN; now rewrite Ha).
  assert (Gb : getN m (eto raw) = Ret b) by (unfold getN; now rewrite Hb).
  destruct (N.eq_dec a b) as [Hab|Hab].
  { rewrite (apply_constraint_same fuel s raw a b Ga Gb Hab). cbn [bind].
    destruct (IH s C Mp Hf) as [O|[O|(e & r & u & v & O & He & Hr & Hm & Hn & Nv)]]; auto.
    right; right. exists e, r, u, v. auto 8 using in_cons. }
  pose proof (apply_constraint_total fuel m s raw a b (C_inv _ _ _ _ _ C) (C_vt _ _ _ _ _ C) Ga Gb Ca Cb Fa Fb Hf) as Ap.
  destruct (apply_constraint fuel vs m s raw) as [s1|e| |] eqn:H1; cbn [bind].
  - destruct (apply_constraint_sound vs px py X XC none fuel m s raw s1 a b C Ga Gb Ca Cb Fa Fb) as (C1 & _ & S1 & L1 & K1); auto.
    assert (L1' : length (c_ts s1) = length (c_ts s)) by (clear -L1; unfold lenN in L1; lia).
    destruct (IH s1 C1) as [O|[O|(e & r & u & v & O & He & Hr & Hm & Hn & Nv)]]; auto.
    + intros x w Hx. destruct (Mp x w Hx) as (A & B). split; auto. now apply K1.
    + now rewrite L1'.
    + right; right. exists e, r, u, v. split; auto. split; auto. split; [now right|]. split; auto. split; auto.
      intros NV. apply Nv. intros w s0 t0 Hw. apply NV. now apply K1.
  - right; right. inversion Ap as [| |e' He Nv]; subst. exists e, raw, a, b. split; auto. split; auto. split; [now left|].
    split; auto. apply map_edge_inv. auto.
  - now right; left.
  - inversion Ap.
Qed.

Lemma fold_ret fuel : forall l s,
  CInv none s -> mapped m (c_ts s) -> (length (c_ts s) * length (c_ts s) + length (c_ts s) <= fuel)%nat ->
  (forall raw, In raw l -> exists a b, map_edge m raw = Some (Edge a b) /\
     (a <> b -> no_vertex px py a b (c_ts s) /\ segcov a b (c_ts s))) ->
  exists s', foldM (apply_constraint fuel vs m) l s = Ret s'.
Proof.
  induction l as [|raw l IH]; intros s C Mp Hf Hl; cbn [foldM]; [eauto|].
  destruct (Hl raw (or_introl eq_refl)) as (a & b & Hm & Hc).
  apply map_edge_inv in Hm. destruct Hm as (Ha & Hb).
  destruct (Mp _ _ Ha) as (Ca & Fa). destruct (Mp _ _ Hb) as (Cb & Fb).
  assert (Ga : getN m (efrom raw) = Ret a) by (unfold getN; now rewrite Ha).
  assert (Gb : getN m (eto raw) = Ret b) by (unfold getN; now rewrite Hb).
  destruct (N.eq_dec a b) as [Hab|Hab].
  { rewrite (apply_constraint_same fuel s raw a b Ga Gb Hab). cbn [bind]. apply IH; auto using in_cons. }
  destruct (Hc Hab) as (NV & Sc).
  pose proof (apply_constraint_total fuel m s raw a b (C_inv _ _ _ _ _ C) (C_vt _ _ _ _ _ C) Ga Gb Ca Cb Fa Fb Hf) as Ap.
  destruct (apply_constraint fuel vs m s raw) as [s1|e| |] eqn:H1; cbn [bind];
    [|inversion Ap; contradiction|inversion Ap; contradiction|inversion Ap].
  inversion Ap as [s1' Cv Q| |]. subst s1'. specialize (Cv Sc).
  destruct (apply_constraint_sound vs px py X XC none fuel m s raw s1 a b C Ga Gb Ca Cb Fa Fb) as (C1 & _ & S1 & L1 & K1); auto.
  assert (L1' : length (c_ts s1) = length (c_ts s)) by (clear -L1; unfold lenN in L1; lia).
  apply IH; auto.
  - intros x w Hx. destruct (Mp x w Hx) as (A & B). split; auto. now apply K1.
  - now rewrite L1'.
  - intros r Hr. destruct (Hl r (or_intror Hr)) as (u & v & Hm & Hc'). exists u, v. split; auto.
    intros Huv. destruct (Hc' Huv) as (NV' & Sc'). split.
    + intros w s0 t0 Hw. apply NV'. now apply K1.
    + intros s0 t0 Hs Ht. now apply Cv, Sc'.
Qed.
End Fold.

End WithEnv.
