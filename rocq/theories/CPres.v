(** * CPres: the constrained edges are edges of the mesh. *)

From Coq Require Import NArith List Bool Lia QArith Lqa Permutation.
From Verif Require Import Base BaseFacts Arith Types Utils Infinite Triangulation Constrained Geom Mesh
  MeshOps Exact ExactC MeshVerts AnyDT AnyCDT Walk Insert DTExact CSwap CCross CReg.
Import ListNotations.
Local Open Scope N_scope.

Section WithEnv.
Context {E : Env}.
Variable vs : list vertex.
Variables px py : N -> Q.
Hypothesis X : Exact vs px py.
Hypothesis XC : ExactC vs px py.

Notation pos := (hpos px py).
Notation D a b c := (det (pos a) (pos b) (pos c)).
Notation Mesh := (Mesh pos).
Notation Ids := (Ids vs).
Notation vok := (vok vs).
Notation MInv := (MInv vs px py).
Notation VT := (VT vs).
Notation crosses := (crosses px py).
Notation Swapped := (Swapped vs px py).

(** ** Nothing crosses a b: then a b is an edge *)
Section Present.
Variables a b : N.
Variables va vb : vertex.
Hypothesis Na : nthN vs a = Some va.
Hypothesis Nb : nthN vs b = Some vb.
Hypothesis Hab : a <> b.
Notation onseg := (onseg px py a b).

Definition no_vertex (ts : list tri) : Prop := forall w s t, hascorner ts w -> is_finite w = true ->
  (0 < s)%Q -> (0 < t)%Q -> peq (pos w) (onseg s t) -> False.

Definition all_edges (ts : list tri) : list (N * N) :=
  flat_map (fun t => [(t_v1 t, t_v2 t); (t_v2 t, t_v3 t); (t_v3 t, t_v1 t)]) ts.

Lemma he_all_edges ts i u v n : he ts i u v n -> In (u, v) (all_edges ts).
Proof.
  intros H. apply he_inv in H. destruct H as (t & k & Ht & <- & <- & _).
  apply in_flat_map. exists t. split; [now apply nthN_In in Ht|]. destruct k; simpl; auto.
Qed.

(** A triangle at [a] which contains the beginning of the segment. *)
Lemma first_triangle ts : MInv ts -> hascorner ts a ->
  exists i x y n1 n2 n3, view ts i a x y n1 n2 n3 /\ (D a x b <= 0)%Q /\ (D y a b <= 0)%Q.
Proof.
  intros [M I J O] (ia & Ca).
  pose proof (fin_a vs px py X a va Na) as Fa. 
  set (L := map (fun e => (- D (fst e) (snd e) a, - D (fst e) (snd e) b)%Q)
     (filter (fun e => if Qlt_le_dec 0 (D (fst e) (snd e) a) then true else false) (all_edges ts))).
  destruct (small_delta L) as (k & Hk & Hsm).
  { intros xy Hin. unfold L in Hin. apply in_map_iff in Hin. destruct Hin as (e & <- & He).
    apply filter_In in He. destruct He as (_ & He). simpl. destruct (Qlt_le_dec 0 (D (fst e) (snd e) a)); [lra|discriminate]. }
  specialize (Hsm k Hk (Qle_refl k)).
  assert (Hw : (0 < hw (onseg 1 k))%Q).
  { rewrite (hw_onseg vs px py X a b va vb Na Nb). lra. }
  destruct (M_cover _ _ M _ Hw) as (i & x & y & z & n1 & n2 & n3 & V & (P1 & P2 & P3)).
  destruct (view_he _ _ _ _ _ _ _ _ V) as (H1 & H2 & H3).
  assert (G : forall u v n, he ts i u v n -> (det (pos u) (pos v) (onseg 1 k) <= 0)%Q -> (D u v a <= 0)%Q).
  { intros u v n H Hle. destruct (Qlt_le_dec 0 (D u v a)) as [Hp|]; auto. exfalso.
    assert (Hin : In (- D u v a, - D u v b)%Q L).
    { unfold L. apply in_map_iff. exists (u, v). split; auto. apply filter_In. split; [eapply he_all_edges; eauto|].
      simpl. destruct (Qlt_le_dec 0 (D u v a)); auto. lra. }
    specialize (Hsm _ Hin). simpl in Hsm. rewrite det_onseg in Hle. lra. }
  assert (Cl : in_closed (pos x) (pos y) (pos z) (pos a)) by (repeat split; eapply G; eauto).
  destruct (vertex_in_closed px py ts i x y z n1 n2 n3 ia a M V Ca Fa Cl) as (v & Hv & Fv & Sp).
  assert (Cv : corner ts i v).
  { destruct Hv as [-> |[-> | ->]]; [exists y, n1|exists z, n2|exists x, n3]; auto. }
  assert (v = a) by (eapply J; eauto). subst v.
  rewrite det_onseg in P1, P2, P3.
  assert (Zs : forall q, (k * q <= 0 -> q <= 0)%Q) by (intros q Hq; destruct (Qlt_le_dec 0 q); auto; nra).
  pose proof (det_zero (pos x) (pos y)). pose proof (det_zero (pos y) (pos z)). pose proof (det_zero (pos z) (pos x)).
  pose proof (det_zero (pos y) (pos x)). pose proof (det_zero (pos z) (pos y)). pose proof (det_zero (pos x) (pos z)).
  destruct Hv as [Q|[Q|Q]]; subst.
  - exists i, y, z, n1, n2, n3. split; auto. split; apply Zs; lra.
  - exists i, z, x, n2, n3, n1. split; [now apply view_rot|]. split; apply Zs; lra.
  - exists i, x, y, n3, n1, n2. split; [now apply view_rot2|]. split; apply Zs; lra.
Qed.

(** b behind a corner x on the line a x. *)
Lemma behind_corner ts i u w ax bx n1 n2 n3 (swapped : bool) :
  MInv ts -> hascorner ts b -> no_vertex ts ->
  view ts i a u w n1 n2 n3 ->
  (ax = if swapped then w else u) -> (bx = if swapped then u else w) ->
  (D a u b <= 0)%Q -> (D w a b <= 0)%Q -> (D a ax b == 0)%Q -> medge ts a ax -> ax = b.
Proof.
  intros [M I J O] (ib & Cb) NV V Hax Hbx P1 P2 Z Hm.
  pose proof (fin_a vs px py X a va Na) as Fa. pose proof (fin_b vs px py X b vb Nb) as Fb.
  pose proof (M_cw _ _ M _ _ _ _ _ _ _ V) as C.
  assert (Hwb : (0 < hw (pos b))%Q) by (rewrite (hw_fin px py b Fb); lra).
  pose proof (det_anti (pos a) (pos w) (pos b)) as (An & _).
  pose proof (det_rot3 (pos a) (pos w) (pos b)) as (Ro1 & Ro2).
  pose proof (det_rot3 (pos w) (pos a) (pos b)) as (Ro3 & Ro4).
  destruct (view_he _ _ _ _ _ _ _ _ V) as (H1 & H2 & H3).
  assert (Ca : corner ts i a) by (exists u, n1; auto).
  assert (Cu : corner ts i u) by (exists w, n2; auto).
  assert (Cw : corner ts i w) by (exists a, n3; auto).
  assert (Nz : ~ (D a u b == 0 /\ D w a b == 0)%Q).
  { intros (Z1 & Z2). destruct (at_corner px py a u w b C Fb Z1 Z2) as (_ & Sp).
    apply Hab. eapply J; eauto. }
  pose proof (cramer_w (pos a) (pos u) (pos w) (pos b)) as Cw'.
  pose proof (cramer_x (pos a) (pos u) (pos w) (pos b)) as Cx'.
  pose proof (cramer_y (pos a) (pos u) (pos w) (pos b)) as Cy'.
  rewrite (hw_fin px py b Fb), (hw_fin px py a Fa) in Cw'.
  pose proof (det_rot3 (pos a) (pos u) (pos w)) as (Rt1 & Rt2).
  assert (Lin : forall q, (D a ax b == 0)%Q -> q = D u w b ->
     ((0 < q)%Q -> is_finite ax = true -> exists s t, (0 < s)%Q /\ (0 < t)%Q /\ peq (pos ax) (onseg s t))).
  { intros q Zq -> Hq Fx.
    set (m := if swapped then D a u b else D w a b) in *.
    assert (Hm0 : (m < 0)%Q).
    { destruct swapped; unfold m; subst ax.
      - destruct (Qlt_le_dec (D a u b) 0); auto. exfalso. apply Nz. split; lra.
      - destruct (Qlt_le_dec (D w a b) 0); auto. exfalso. apply Nz. split; lra. }
    exists (D u w b / - m)%Q, (D a u w / m)%Q.
    split; [apply Qlt_shift_div_l; lra|]. split.
    { setoid_replace (D a u w / m)%Q with (- D a u w / - m)%Q by (field; lra). apply Qlt_shift_div_l; lra. }
    assert (Zo : ((if swapped then D w a b else D a u b) == 0)%Q).
    { destruct swapped; subst ax; lra. }
    assert (Eq : forall ca cb cx, (D a u w * cb == D u w b * ca + m * cx)%Q ->
       (cx == D u w b / - m * ca + D a u w / m * cb)%Q).
    { intros ca cb cx Q. setoid_replace (D u w b / - m * ca + D a u w / m * cb)%Q with ((D a u w * cb - D u w b * ca) / m)%Q by (field; lra).
      rewrite Q. field. lra. }
    repeat split; cbn [CCross.onseg padd pscale hx hy hw]; apply Eq;
      rewrite ?(hw_fin px py b Fb), ?(hw_fin px py a Fa), ?(hw_fin px py ax Fx);
      destruct swapped; unfold m in *; subst ax; rewrite Zo in *; rewrite ?(hw_fin px py _ Fx) in Cw'; lra. }
  specialize (Lin _ Z eq_refl).
  assert (Corner : (D u w b == 0)%Q -> ax = b).
  { intros Zb. destruct swapped; subst ax.
    - assert (Z1 : (D w a b == 0)%Q) by lra.
      assert (C2 : (D w a u < 0)%Q) by lra.
      destruct (at_corner px py w a u b C2 Fb Z1 Zb) as (Fw & Sp). eapply J; eauto.
    - assert (C2 : (D u w a < 0)%Q) by lra.
      destruct (at_corner px py u w a b C2 Fb Zb Z) as (Fw & Sp). eapply J; eauto. }
  destruct (Qlt_le_dec (D u w b) 0) as [Hn|Hn].
  - exfalso. destruct swapped; subst ax.
    + assert (P : (D a u b < 0)%Q) by (destruct (Qlt_le_dec (D a u b) 0); auto; exfalso; apply Nz; split; lra).
      apply (vertex_excl_edge px py ts i w a u n3 n1 n2 ib b M (view_rot2 _ _ _ _ _ _ _ _ V) Cb Hwb); auto. lra.
    + assert (P : (D w a b < 0)%Q) by (destruct (Qlt_le_dec (D w a b) 0); auto; exfalso; apply Nz; split; lra).
      apply (vertex_excl_edge px py ts i a u w n1 n2 n3 ib b M V Cb Hwb); auto.
  - destruct (Qeq_dec (D u w b) 0) as [Zb|Zb]; auto.
    exfalso. assert (Hp : (0 < D u w b)%Q) by lra.
    destruct (is_finite ax) eqn:Fx.
    + destruct (Lin Hp eq_refl) as (s & t & Hs & Ht & Pq). apply (NV ax s t); auto.
      destruct swapped; subst ax; exists i; auto.
    + assert (Hx : (hw (pos ax) == 0)%Q) by (rewrite (hw_inf px py ax Fx); reflexivity).
      destruct swapped; subst ax.
      * rewrite Hx in Cw'. assert (Zo : (D w a b == 0)%Q) by lra. rewrite Zo in Cw'. lra.
      * rewrite Hx, Z in Cw'. lra.
Qed.

Lemma edge_present ts : MInv ts -> hascorner ts a -> hascorner ts b -> no_vertex ts ->
  (forall x y, medge ts x y -> ~ crosses a b x y) -> medge ts a b.
Proof.
  intros I Ha Hb NV NX.
  pose proof (fin_a vs px py X a va Na) as Fa. pose proof (fin_b vs px py X b vb Nb) as Fb.
  destruct (first_triangle ts I Ha) as (i & x & y & n1 & n2 & n3 & V & P1 & P2).
  destruct (view_he _ _ _ _ _ _ _ _ V) as (H1 & H2 & H3).
  assert (Mx : medge ts a x) by (left; eauto). assert (My : medge ts a y) by (right; eauto).
  pose proof (det_anti (pos a) (pos x) (pos b)) as (_ & Ax & _). 
  pose proof (det_rot3 (pos a) (pos b) (pos y)) as (Ry1 & Ry2).
  pose proof (det_anti (pos a) (pos y) (pos b)) as (Ay & _ & _).
  destruct (Qeq_dec (D a x b) 0) as [Zx|Zx].
  { rewrite <- (behind_corner ts i x y x y n1 n2 n3 false I Hb NV V eq_refl eq_refl P1 P2 Zx Mx). exact Mx. }
  destruct (Qeq_dec (D a y b) 0) as [Zy|Zy].
  { rewrite <- (behind_corner ts i x y y x n1 n2 n3 true I Hb NV V eq_refl eq_refl P1 P2 Zy My). exact My. }
  exfalso.
  assert (Lx : (D a x b < 0)%Q) by lra. assert (Ly : (D y a b < 0)%Q) by lra.
  destruct (Qlt_le_dec 0 (D x y b)) as [Hp|Hp].
  - apply (NX x y); [left; eauto|]. pose proof (M_cw _ _ (I_mesh _ _ _ _ I) _ _ _ _ _ _ _ V) as C.
    pose proof (det_rot3 (pos a) (pos x) (pos y)).
    assert (A1 : (0 < D a b x)%Q) by lra. assert (A2 : (D a b y < 0)%Q) by lra.
    assert (A3 : (D x y a < 0)%Q) by lra.
    split.
    + assert (0 < D a b x * - D a b y)%Q by (apply Qmul_pos; lra). lra.
    + assert (0 < D x y b * - D x y a)%Q by (apply Qmul_pos; lra). lra.
  - destruct Hb as (ib & Cb).
    destruct (vertex_in_closed px py ts i a x y n1 n2 n3 ib b (I_mesh _ _ _ _ I) V Cb Fb) as (v & Hv & Fv & Sp).
    { repeat split; lra. }
    assert (Cv : corner ts i v).
    { destruct Hv as [-> |[-> | ->]]; [exists x, n1|exists y, n2|exists a, n3]; auto. }
    assert (v = b) by (eapply (I_inj _ _ _ _ I); eauto). subst v.
    pose proof (det_zero (pos a) (pos b)). pose proof (det_zero (pos b) (pos a)).
    destruct Hv as [Q|[Q|Q]]; [congruence| |]; subst; lra.
Qed.
End Present.

(** ** Pending edges *)

Definition distinctE (l : list edge_data) : Prop := ForallOrdPairs (fun d e => ~ sameED d e) l.

Lemma sameED_sym d e : sameED d e -> sameED e d.
Proof. unfold sameED. apply sameE_sym. Qed.

Lemma distinctE_perm l l' : Permutation l l' -> distinctE l -> distinctE l'.
Proof.
  unfold distinctE. induction 1 as [|x l l' P IH|x y l|l1 l2 l3 P1 IH1 P2 IH2]; auto; intros H.
  - inversion H; subst. constructor; auto. eapply Permutation_Forall; eauto.
  - inversion H as [|? ? F1 H1]; subst. inversion H1 as [|? ? F2 H2]; subst. inversion F1; subst.
    constructor; [constructor; auto|constructor; auto]. intros Q. apply sameED_sym in Q. auto.
Qed.

Record Pend (ts : list tri) (l : list edge_data) : Prop := {
  P_ok : forall d, In d l -> EDok ts d;
  P_nd : distinctE l
}.

Lemma pend_perm ts l l' : Permutation l l' -> Pend ts l -> Pend ts l'.
Proof.
  intros P [A B]. constructor; [|eapply distinctE_perm; eauto].
  intros d Hd. apply A. eapply Permutation_in; [apply Permutation_sym; exact P|exact Hd].
Qed.

Lemma pend_tail ts d l : Pend ts (d :: l) -> Pend ts l.
Proof. intros [A B]. constructor; [intros e He; apply A; now right|]. now inversion B. Qed.

Lemma pend_swap ts v2t d l q :
  MInv ts -> VT ts v2t -> Pend ts (d :: l) -> to_quad ts d = Ret q ->
  (D (q4 q) (q1 q) (q3 q) < 0)%Q -> (D (q4 q) (q3 q) (q2 q) < 0)%Q ->
  exists ts' v2t' upd, swap_quad_diagonal ts v2t d q = Ret (ts', v2t', upd) /\ Swapped ts ts' v2t' d q upd /\
    Pend ts' (ED (d_from d) (d_to d) (Edge (q3 q) (q4 q)) :: map upd l) /\
    (forall e, In e l -> d_edge (upd e) = d_edge e).
Proof.
  intros I V [A B] Hq N1 N2.
  destruct (swap_ok vs px py ts v2t d q I V (A d (or_introl eq_refl)) Hq N1 N2) as (ts' & v2t' & upd & Hs & W).
  exists ts', v2t', upd. split; auto. split; auto. inversion B as [|? ? F B']; subst.
  assert (U : forall e, In e l -> EDok ts' (upd e) /\ d_edge (upd e) = d_edge e).
  { intros e He. apply (W_upd _ _ _ _ _ _ _ _ _ W); [apply A; now right|].
    rewrite Forall_forall in F. intros Q. apply (F e He). now apply sameED_sym. }
  split; [|intros e He; now apply U]. constructor.
  - intros e [<- |He]; [exact (W_new _ _ _ _ _ _ _ _ _ W)|]. apply in_map_iff in He.
    destruct He as (e0 & <- & He0). now apply U.
  - constructor.
    + apply Forall_forall. intros e He. apply in_map_iff in He. destruct He as (e0 & <- & He0).
      unfold sameED. destruct (U e0 He0) as (_ & ->). cbn [d_edge efrom eto]. intros Q.
      apply (W_fresh _ _ _ _ _ _ _ _ _ W). apply (medge_same _ _ _ _ _ (sameE_sym _ _ _ _ Q)).
      apply EDok_medge. apply A. now right.
    + assert (Im : forall e, In e l -> d_edge (upd e) = d_edge e) by (intros e He; now apply U).
      clear -B' Im. induction B' as [|x l F B IH]; simpl; constructor.
      * apply Forall_forall. intros e He. apply in_map_iff in He. destruct He as (e0 & <- & He0).
        rewrite Forall_forall in F. specialize (F e0 He0). unfold sameED in *. rewrite !Im; auto; [now right|now left].
      * apply IH. intros e He. apply Im. now right.
Qed.

(** The quad of a pending edge. *)
Lemma pend_quad ts d : MInv ts -> EDok ts d -> exists q, to_quad ts d = Ret q /\
  q1 q = efrom (d_edge d) /\ q2 q = eto (d_edge d) /\ vok (q1 q) /\ vok (q2 q) /\ vok (q3 q) /\ vok (q4 q) /\
  (D (q4 q) (q1 q) (q2 q) < 0)%Q /\ (D (q2 q) (q1 q) (q3 q) < 0)%Q.
Proof.
  intros [M I J O] Hd. destruct (EDok_views px py ts d M Hd) as (c & w & n1 & n2 & n3 & n4 & V1 & V2 & Hq).
  eexists. split; [exact Hq|]. cbn [q1 q2 q3 q4].
  destruct (Ids_view _ _ _ _ _ _ _ _ _ I V1) as (Vw & Vu & Vv).
  destruct (Ids_view _ _ _ _ _ _ _ _ _ I V2) as (_ & _ & Vc).
  repeat split; auto; [exact (M_cw _ _ M _ _ _ _ _ _ _ V1)|exact (M_cw _ _ M _ _ _ _ _ _ _ V2)].
Qed.

(** ** Removing the crossed edges *)
Section Loops.
Variables a b : N.
Variables va vb : vertex.
Hypothesis Na : nthN vs a = Some va.
Hypothesis Nb : nthN vs b = Some vb.
Notation crossD d := (crosses a b (efrom (d_edge d)) (eto (d_edge d))).

(** Edges which must survive. *)
Variable P : N -> N -> Prop.

Record RI (ts : list tri) (v2t : list N) (inters news : list edge_data) : Prop := {
  L_inv : MInv ts;
  L_vt : VT ts v2t;
  L_pend : Pend ts (inters ++ news);
  L_cross : forall d, In d inters -> crossD d;
  L_all : forall x y, medge ts x y -> crosses a b x y ->
    exists d, In d inters /\ sameE x y (efrom (d_edge d)) (eto (d_edge d));
  L_keep : forall x y, P x y -> medge ts x y;
  L_new : forall d x y, In d news -> P x y -> ~ sameE x y (efrom (d_edge d)) (eto (d_edge d))
}.

Lemma swap_keep ts ts' v2t' d q upd x y : Swapped ts ts' v2t' d q upd -> medge ts x y ->
  ~ sameE x y (q1 q) (q2 q) -> medge ts' x y.
Proof. intros W Hm Hn. apply (W_edge _ _ _ _ _ _ _ _ _ W). right. auto. Qed.

Lemma remove_sound : (forall x y, P x y -> ~ crosses a b x y) ->
  forall fuel ts v2t inters news nc ts' v2t' news',
  RI ts v2t inters news ->
  remove_crossed_edges fuel ts vs v2t (va, vb) inters news nc = Ret (ts', v2t', news') ->
  RI ts' v2t' [] news' /\ lenN ts' = lenN ts /\ (forall w, hascorner ts w <-> hascorner ts' w).
Proof.
  intros HP. induction fuel as [|fuel IH]; intros ts v2t inters news nc ts' v2t' news' R H.
  - destruct inters as [|d inters]; simpl in H; [|discriminate]. inversion H; subst. split; auto. split; tauto.
  - destruct inters as [|d inters]; simpl in H; [inversion H; subst; split; auto; split; tauto|].
    destruct (lenN inters <? nc); [discriminate|].
    destruct R as [I V Pd Cr All Keep New].
    assert (Hd : EDok ts d) by (apply (P_ok _ _ Pd); now left).
    destruct (pend_quad ts d I Hd) as (q & Hq & Q1 & Q2 & V1 & V2 & V3 & V4 & C1 & C2).
    rewrite Hq in H. cbn [bind] in H.
    destruct (quad_diagonals_intersection vs q) as [x| | |] eqn:HI; cbn [bind] in H; try discriminate.
    destruct (is_crossing x) eqn:Hx; cbn [negb] in H.
    + assert (N12 : (D (q4 q) (q1 q) (q3 q) < 0 /\ D (q4 q) (q3 q) (q2 q) < 0)%Q).
      { apply (crosses_convex px py); auto. now apply (quad_crossing vs px py X XC q x). }
      destruct N12 as (N1 & N2). cbn [app] in Pd.
      destruct (pend_swap ts v2t d (inters ++ news) q I V Pd Hq N1 N2) as (ts1 & v1 & upd & Hs & W & Pd1 & U).
      rewrite Hs in H. cbn [bind d_edge] in H.
      destruct (edge_and_constrained_edge_intersection vs (Edge (q3 q) (q4 q)) (va, vb)) as [y| | |] eqn:HY;
        cbn [bind] in H; try discriminate.
      pose proof (crossing_test vs px py X XC a b va vb Na Nb _ _ _ HY) as T.
      rewrite map_app in Pd1.
      assert (Dd : crosses a b (q1 q) (q2 q)) by (rewrite Q1, Q2; apply Cr; now left).
      assert (Keep1 : forall x y, P x y -> medge ts1 x y).
      { intros u v Hp. apply (swap_keep _ _ _ _ _ _ _ _ W (Keep _ _ Hp)). intros S.
        apply (HP _ _ Hp). apply (crosses_same px py a b _ _ _ _ (sameE_sym _ _ _ _ S)). exact Dd. }
      assert (NewD : forall x y, P x y -> ~ sameE x y (q3 q) (q4 q)).
      { intros u v Hp S. apply (W_fresh _ _ _ _ _ _ _ _ _ W). apply (medge_same _ _ _ _ _ S). auto. }
      assert (CrM : forall e, In e (map upd inters) -> crossD e).
      { intros e He. apply in_map_iff in He. destruct He as (e0 & <- & He0). rewrite U by (apply in_or_app; auto).
        apply Cr. now right. }
      assert (NewM : forall e x y, In e (map upd news) -> P x y -> ~ sameE x y (efrom (d_edge e)) (eto (d_edge e))).
      { intros e u v He Hp. apply in_map_iff in He. destruct He as (e0 & <- & He0). rewrite U by (apply in_or_app; auto).
        now apply New. }
      assert (Fin : forall x y, medge ts1 x y -> crosses a b x y -> sameE x y (q3 q) (q4 q) \/
         exists e, In e (map upd inters) /\ sameE x y (efrom (d_edge e)) (eto (d_edge e))).
      { intros u v Hm Hc. apply (W_edge _ _ _ _ _ _ _ _ _ W) in Hm. destruct Hm as [S|(Hm & NS)]; [now left|right].
        destruct (All u v Hm Hc) as (e & He & S). destruct He as [<- |He].
        - exfalso. apply NS. now rewrite Q1, Q2.
        - exists (upd e). split; [now apply in_map|]. rewrite U by (apply in_or_app; auto). exact S. }
      set (d' := ED (d_from d) (d_to d) (Edge (q3 q) (q4 q))) in *.
      assert (Res : RI ts1 v1 (map upd inters ++ if is_crossing y then [d'] else []) (map upd news ++ if is_crossing y then [] else [d'])).
      { destruct (is_crossing y) eqn:Hy; constructor; auto; try exact (W_inv _ _ _ _ _ _ _ _ _ W);
          try exact (W_vt _ _ _ _ _ _ _ _ _ W).
        - eapply pend_perm; [|exact Pd1]. rewrite app_nil_r, <- app_assoc. simpl. apply Permutation_middle.
        - intros e He. apply in_app_or in He. destruct He as [He|[<- |[]]]; [auto|]. apply T. reflexivity.
        - intros u v Hm Hc. destruct (Fin u v Hm Hc) as [S|(e & He & S)].
          + exists d'. split; [apply in_or_app; right; now left|exact S].
          + exists e. split; auto. apply in_or_app. now left.
        - intros e u v He Hp. rewrite app_nil_r in He. eapply NewM; eauto.
        - eapply pend_perm; [|exact Pd1]. rewrite app_nil_r, app_assoc. apply Permutation_cons_append.
        - intros e He. rewrite app_nil_r in He. auto.
        - intros u v Hm Hc. destruct (Fin u v Hm Hc) as [S|(e & He & S)].
          + exfalso. assert (crosses a b (q3 q) (q4 q)) by (eapply (crosses_same px py); eauto).
            apply T in H0. discriminate.
          + exists e. rewrite app_nil_r. auto.
        - intros e u v He Hp. apply in_app_or in He. destruct He as [He|[<- |[]]]; [eapply NewM; eauto|].
          cbn [d_edge efrom eto]. auto. }
      assert (H' : exists n, remove_crossed_edges fuel ts1 vs v1 (va, vb)
        (map upd inters ++ if is_crossing y then [d'] else []) (map upd news ++ if is_crossing y then [] else [d']) n = Ret (ts', v2t', news')).
      { exists 0. destruct (is_crossing y); rewrite app_nil_r; exact H. }
      destruct H' as (n & H'). destruct (IH _ _ _ _ _ _ _ _ Res H') as (R' & L' & C').
      split; auto. split; [rewrite L'; exact (W_len _ _ _ _ _ _ _ _ _ W)|].
      intros w. rewrite (W_corner _ _ _ _ _ _ _ _ _ W w). apply C'.
    + apply IH in H; auto. constructor; auto.
      * eapply pend_perm; [|exact Pd]. rewrite <- app_assoc. simpl. apply Permutation_middle.
      * intros e He. apply Cr. apply in_app_or in He. destruct He as [He|[<- |[]]]; [now right|now left].
      * intros u v Hm Hc. destruct (All u v Hm Hc) as (e & He & S). exists e. split; auto.
        apply in_or_app. destruct He as [<- |He]; [right; now left|now left].
Qed.

(** ** Restoring the Delaunay criterion keeps a b and the other protected edges *)

Record RI2 (ts : list tri) (v2t : list N) (news : list edge_data) : Prop := {
  K_inv : MInv ts;
  K_vt : VT ts v2t;
  K_pend : Pend ts news;
  K_ab : medge ts a b;
  K_keep : forall x y, P x y -> medge ts x y;
  K_new : forall d x y, In d news -> P x y -> ~ sameE x y (efrom (d_edge d)) (eto (d_edge d))
}.

Lemma restore_sound : forall fuel ts v2t news hist ts' v2t',
  RI2 ts v2t news -> restore_constrained fuel ts vs v2t (Edge a b) news hist = Ret (ts', v2t') ->
  RI2 ts' v2t' [] /\ lenN ts' = lenN ts /\ (forall w, hascorner ts w <-> hascorner ts' w).
Proof.
  induction fuel as [|fuel IH]; intros ts v2t news hist ts' v2t' R H.
  - destruct news as [|d news]; simpl in H; [|discriminate]. inversion H; subst. split; auto. split; tauto.
  - destruct news as [|d news]; simpl in H; [inversion H; subst; split; auto; split; tauto|].
    destruct R as [I V Pd Kab Keep New].
    assert (Rest : RI2 ts v2t news).
    { constructor; auto. - eapply pend_tail; eauto. - intros e x y He. apply New. now right. }
    destruct (undirected_equals (d_edge d) (Edge a b)) eqn:Hu; [eauto|].
    assert (Nab : ~ sameE a b (efrom (d_edge d)) (eto (d_edge d))).
    { intros S. apply sameE_sym in S. assert (undirected_equals (d_edge d) (Edge a b) = true) by (now apply undirected_sameE). congruence. }
    assert (Hd : EDok ts d) by (apply (P_ok _ _ Pd); now left).
    destruct (pend_quad ts d I Hd) as (q & Hq & Q1 & Q2 & V1 & V2 & V3 & V4 & C1 & C2).
    rewrite Hq in H. cbn [bind] in H.
    destruct (constrained_should_swap_diagonals q vs) as [sw| | |] eqn:Hsw; cbn [bind] in H; try discriminate.
    destruct (sw && negb (history_mem hist (d_from d, d_to d))) eqn:Hb; [|eauto].
    apply andb_true_iff in Hb. destruct Hb as (-> & _).
    assert (N12 : (D (q4 q) (q1 q) (q3 q) < 0 /\ D (q4 q) (q3 q) (q2 q) < 0)%Q).
    { destruct q as [u v c w]; cbn [q1 q2 q3 q4] in *.
      eapply (constrained_swap_convex vs px py X u v c w); eauto. }
    destruct N12 as (N1 & N2).
    destruct (pend_swap ts v2t d news q I V Pd Hq N1 N2) as (ts1 & v1 & upd & Hs & W & Pd1 & U).
    rewrite Hs in H. cbn [bind] in H.
    set (d' := ED (d_from d) (d_to d) (Edge (q3 q) (q4 q))) in *.
    assert (Keep1 : forall x y, P x y -> medge ts1 x y).
    { intros u v Hp. apply (swap_keep _ _ _ _ _ _ _ _ W (Keep _ _ Hp)). intros S.
      rewrite Q1, Q2 in S. exact (New d u v (or_introl eq_refl) Hp S). }
    assert (R1 : RI2 ts1 v1 (map upd news ++ [d'])).
    { constructor; auto.
      - exact (W_inv _ _ _ _ _ _ _ _ _ W).
      - exact (W_vt _ _ _ _ _ _ _ _ _ W).
      - eapply pend_perm; [|exact Pd1]. apply Permutation_cons_append.
      - apply (swap_keep _ _ _ _ _ _ _ _ W Kab). now rewrite Q1, Q2.
      - intros e u v He Hp. apply in_app_or in He. destruct He as [He|[<- |[]]].
        + apply in_map_iff in He. destruct He as (e0 & <- & He0). rewrite U by auto. apply New; auto. now right.
        + cbn [d_edge efrom eto]. intros S. apply (W_fresh _ _ _ _ _ _ _ _ _ W). apply (medge_same _ _ _ _ _ S). auto. }
    destruct (IH _ _ _ _ _ _ R1 H) as (R' & L' & C').
    split; auto. split; [rewrite L'; exact (W_len _ _ _ _ _ _ _ _ _ W)|].
    intros w. rewrite (W_corner _ _ _ _ _ _ _ _ _ W w). apply C'.
Qed.

End Loops.

(** ** One constraint, then all of them *)

Record CInv (P : N -> N -> Prop) (s : cstate) : Prop := {
  C_inv : MInv (c_ts s);
  C_vt : VT (c_ts s) (c_v2t s);
  C_keep : forall x y, P x y -> medge (c_ts s) x y
}.

Lemma apply_constraint_sound (P : N -> N -> Prop) fuel mapping s raw s' a b :
  CInv P s -> getN mapping (efrom raw) = Ret a -> getN mapping (eto raw) = Ret b ->
  hascorner (c_ts s) a -> hascorner (c_ts s) b -> is_finite a = true -> is_finite b = true ->
  (forall x y, P x y -> ~ crosses a b x y) ->
  apply_constraint fuel vs mapping s raw = Ret s' ->
  CInv P s' /\ (a = b \/ In (Edge a b) (c_set s) \/ medge (c_ts s') a b) /\
  (forall e, In e (c_set s') -> In e (c_set s) \/ e = Edge a b) /\
  lenN (c_ts s') = lenN (c_ts s) /\ (forall w, hascorner (c_ts s) w <-> hascorner (c_ts s') w).
Proof.
  intros [I V Keep] Ga Gb Ha Hb Fa Fb HP H. unfold apply_constraint in H. rewrite Ga, Gb in H. cbn [bind] in H.
  destruct ((a =? b) || edge_mem (c_set s) (Edge a b)) eqn:Hc.
  - apply Ret_inj in H; subst s'. apply orb_true_iff in Hc. rewrite N.eqb_eq, edge_mem_In in Hc.
    split; [constructor; auto|]. tauto.
  - apply orb_false_iff in Hc. destruct Hc as (Hne & _). apply N.eqb_neq in Hne.
    pose proof (hascorner_vok vs _ _ (I_ids _ _ _ _ I) Ha) as Va. pose proof (hascorner_vok vs _ _ (I_ids _ _ _ _ I) Hb) as Vb.
    destruct (get_vertex vs a Va Fa) as (va & Gva & Na). destruct (get_vertex vs b Vb Fb) as (vb & Gvb & Nb).
    unfold edge_to_vertices in H. cbn [efrom eto] in H. rewrite Gva, Gvb in H. cbn [bind] in H.
    destruct V as (Lv & VTw). destruct (VTw a Ha Fa) as (start & Hst & Cst).
    destruct (register_intersected_edges (c_ts s) vs (Edge a b) (va, vb) (c_v2t s)) as [l| | |] eqn:HR; cbn [bind] in H; try discriminate.
    pose proof (register_sound vs px py X XC a b va vb Na Nb Hne (c_ts s) (I_mesh _ _ _ _ I) _ _ _ Hst Cst HR) as S.
    destruct S as [(-> & Hm)|(Hl & R)].
    + apply Ret_inj in H; subst s'. cbn [c_ts c_v2t c_set]. split; [constructor; auto; now split|].
      split; [auto|]. split; [|tauto]. intros e [<- |He]; auto.
    + destruct l as [|d0 l0]; [congruence|].
      destruct (remove_crossed_edges fuel (c_ts s) vs (c_v2t s) (va, vb) (d0 :: l0) [] 0) as [((ts1, v1), news)| | |] eqn:HM;
        cbn [bind] in H; try discriminate.
      destruct (restore_constrained fuel ts1 vs v1 (Edge a b) news []) as [(ts2, v2)| | |] eqn:HS; cbn [bind] in H; try discriminate.
      apply Ret_inj in H; subst s'. cbn [c_ts c_v2t c_set].
      assert (R0 : RI a b P (c_ts s) (c_v2t s) (d0 :: l0) []).
      { constructor; auto.
        - now split.
        - rewrite app_nil_r. constructor; [intros d Hd; now apply (G_ok _ _ _ _ _ _ R)|exact (G_nd _ _ _ _ _ _ R)].
        - intros d Hd. destruct (G_ok _ _ _ _ _ _ R d Hd) as (_ & Xd). now apply xing_crosses.
        - intros x y Hm Hx. exact (registered_complete vs px py X a b va vb Na Nb (c_ts s) (I_mesh _ _ _ _ I) _ _ _ R Hm Hx). }
      destruct (remove_sound a b va vb Na Nb P HP _ _ _ _ _ _ _ _ _ R0 HM) as ([I1 V1 Pd1 _ All1 Keep1 New1] & L1 & C1).
      assert (NV : no_vertex a b ts1).
      { intros w s0 t0 Hw Fw Hs0 Ht0 Pq. apply C1 in Hw.
        exact (registered_no_vertex px py a b (c_ts s) (I_mesh _ _ _ _ I) _ w s0 t0 R Hw Fw Hs0 Ht0 Pq). }
      assert (Mab : medge ts1 a b).
      { apply (edge_present a b va vb Na Nb Hne ts1); auto; try (now apply C1).
        intros x y Hm Hx. destruct (All1 x y Hm Hx) as (d & [] & _). }
      assert (R2 : RI2 a b P ts1 v1 news) by (constructor; auto).
      destruct (restore_sound a b P _ _ _ _ _ _ _ R2 HS) as ([I2 V2 _ Kab Keep2 _] & L2 & C2).
      split; [constructor; auto|]. split; [auto|].
      split; [intros e [<- |He]; auto|]. split; [congruence|intros w; rewrite C1; apply C2].
Qed.

End WithEnv.
