(** * CDel: a constraint that crosses at most two edges leaves only Delaunay edges. *)

From Coq Require Import NArith List Bool Lia QArith Lqa Permutation.
From Verif Require Import Base BaseFacts Arith Types Utils Infinite Triangulation Constrained Geom Mesh
  MeshOps Exact ExactC MeshVerts AnyDT SpecCdt AnyCDT Walk Insert DTExact Spec DTOut CSwap CCross CReg CPres
  CTerm CApply CTotal Lifted CLocal.
Import ListNotations.
Local Open Scope N_scope.

Section WithEnv.
Context {E : Env}.
Variable vs : list vertex.
Variables px py : N -> Q.
Hypothesis X : Exact vs px py.
Hypothesis XC : ExactC vs px py.

Notation pos := (hpos px py).
Notation D a b c := (det (pos a) (pos b) (pos c)).
Notation Mesh := (Mesh pos).
Notation vok := (vok vs).
Notation MInv := (MInv vs px py).
Notation VT := (VT vs).
Notation crosses := (crosses px py).
Notation fin v := (is_finite v = true).
Notation ldel := (ldel px py).

(** ** An edge with an empty circle is Delaunay whatever its triangles *)
Lemma pencil a b w c d : fin a -> fin b -> fin w -> fin c -> fin d ->
  (D a b w < 0)%Q -> (D a b c < 0)%Q -> (D b a d < 0)%Q ->
  ldel a b w c -> ldel a b w d -> ldel a b c d.
Proof.
  intros A B W C F Hw Hc Hd Lc Ld f Ea Eb Ec.
  destruct (plane_exists px py a b w A B W) as (g & Ga & Gb & Gw); [lra|].
  pose proof (Lc g Ga Gb Gw) as Kc. pose proof (Ld g Ga Gb Gw) as Kd.
  pose proof (bary px py (psub f g) a b c d A B C F) as Q. rewrite !ev_sub in Q.
  assert (Q1 : (ev px py f a - ev px py g a == 0)%Q) by lra. assert (Q2 : (ev px py f b - ev px py g b == 0)%Q) by lra.
  rewrite Q1, Q2 in Q.
  pose proof (det_swap (pos a) (pos b) (pos d)) as S.
  assert (0 <= (ev px py f c - ev px py g c) * D a b d)%Q by (apply Qmult_le_0_compat; lra).
  assert (0 <= (ev px py f d - ev px py g d) * D a b c)%Q by lra.
  pose proof (qmul_neg (ev px py f d - ev px py g d)%Q (D a b c) Hc H0). lra.
Qed.

(** ** Edges whose two triangles, when finite, see each other outside of their circles *)
Definition Good (ts : list tri) (x y : N) : Prop :=
  forall i j p q, T ts i x y p -> T ts j y x q -> fin x -> fin y -> fin p -> fin q -> ldel x y p q.

Lemma Good_flip ts x y : Mesh ts -> Good ts x y -> Good ts y x.
Proof.
  intros M G i j p q Ti Tj Fx Fy Fp Fq. apply ldel_sym; auto.
  - exact (T_cw px py _ _ _ _ _ M Tj).
  - exact (T_cw px py _ _ _ _ _ M Ti).
  - eapply G; eauto.
Qed.

Lemma Good_same ts x y u v : Mesh ts -> sameE x y u v -> Good ts u v -> Good ts x y.
Proof. intros M [(-> & ->)|(-> & ->)] G; auto. now apply Good_flip. Qed.

Lemma circle_value u v c w r : fin u -> fin v -> fin c -> fin w -> vok u -> vok v -> vok c -> vok w ->
  (D w u v < 0)%Q -> (D v u c < 0)%Q ->
  constrained_should_swap_diagonals (Quad u v c w) vs = Ret r ->
  (r = true <-> 0 < incircle (px u) (py u) (px v) (py v) (px c) (py c) (px w) (py w))%Q.
Proof.
  intros Fu Fv Fc Fw Vu Vv Vc Vw A B H. unfold constrained_should_swap_diagonals in H. cbn [q1 q2 q3 q4] in H.
  rewrite !inf_not_fin, Fc, Fw, Fu, Fv in H. cbn [negb orb andb] in H.
  destruct (get_vertex vs u Vu Fu) as (vu & Gu & Nu). destruct (get_vertex vs v Vv Fv) as (vv & Gv & Nv).
  destruct (get_vertex vs c Vc Fc) as (vc & Gc & Nc). destruct (get_vertex vs w Vw Fw) as (vw & Gw & Nw).
  rewrite Gu, Gv, Gc, Gw in H. cbn [bind] in H. apply Ret_inj in H. subst r.
  exact (X_circle _ _ _ X u v c w vu vv vc vw Nu Nv Nc Nw A B).
Qed.

Lemma incircle_even x1 y1 x2 y2 x3 y3 x4 y4 :
  (incircle x3 y3 x4 y4 x1 y1 x2 y2 == incircle x1 y1 x2 y2 x3 y3 x4 y4)%Q.
Proof. unfold incircle. ring. Qed.

(** The test refuses the swap. *)
Lemma unswapped_good ts d q : MInv ts -> EDok ts d -> to_quad ts d = Ret q ->
  constrained_should_swap_diagonals q vs = Ret false -> Good ts (q1 q) (q2 q).
Proof.
  intros I Hd Hq Hs. pose proof (I_mesh _ _ _ _ I) as M.
  destruct (EDok_views px py ts d M Hd) as (c & w & n1 & n2 & n3 & n4 & V1 & V2 & Hq').
  assert (q = Quad (efrom (d_edge d)) (eto (d_edge d)) c w) by congruence. subst q. cbn [q1 q2 q3 q4] in *.
  set (u := efrom (d_edge d)) in *. set (v := eto (d_edge d)) in *.
  intros i j p r Ti Tj Fu Fv Fp Fr.
  assert (T1 : T ts (d_from d) u v w) by (apply T_rot; exists n2, (d_to d), n1; exact V1).
  assert (T2 : T ts (d_to d) v u c) by (exists (d_from d), n3, n4; exact V2).
  destruct (T_share px py _ _ _ _ _ _ _ M Ti T1) as (-> & ->). destruct (T_share px py _ _ _ _ _ _ _ M Tj T2) as (-> & ->).
  destruct (Ids_view _ _ _ _ _ _ _ _ _ (I_ids _ _ _ _ I) V1) as (Vw & Vu & Vv).
  destruct (Ids_view _ _ _ _ _ _ _ _ _ (I_ids _ _ _ _ I) V2) as (_ & _ & Vc).
  pose proof (M_cw _ _ M _ _ _ _ _ _ _ V1) as C1. pose proof (M_cw _ _ M _ _ _ _ _ _ _ V2) as C2.
  pose proof (circle_value u v c w false Fu Fv Fr Fp Vu Vv Vc Vw C1 C2 Hs) as K.
  apply ldel_sym; auto; [exact (T_cw px py _ _ _ _ _ M T1)|].
  intros f Fv' Fu' Fc'.
  pose proof (incircle_plane px py f u v c w Fu Fv Fr Fp Fu' Fv' Fc') as Ip.
  pose proof (det_swap (pos v) (pos u) (pos c)) as Sw.
  destruct (Qlt_le_dec (z px py w) (ev px py f w)) as [L|L]; auto. exfalso.
  assert (0 < (ev px py f w - z px py w) * D u v c)%Q by (apply Qmul_pos; lra).
  assert (Hi : (0 < incircle (px u) (py u) (px v) (py v) (px c) (py c) (px w) (py w))%Q) by lra.
  apply K in Hi. discriminate.
Qed.

(** The test orders the swap. *)
Lemma swapped_good ts d q ts' v2t' upd : MInv ts -> EDok ts d -> to_quad ts d = Ret q ->
  constrained_should_swap_diagonals q vs = Ret true -> Swapped vs px py ts ts' v2t' d q upd ->
  Good ts' (q3 q) (q4 q).
Proof.
  intros I Hd Hq Hs W. pose proof (I_mesh _ _ _ _ I) as M. pose proof (I_mesh _ _ _ _ (W_inv _ _ _ _ _ _ _ _ _ W)) as M'.
  destruct (EDok_views px py ts d M Hd) as (c & w & n1 & n2 & n3 & n4 & V1 & V2 & Hq').
  assert (q = Quad (efrom (d_edge d)) (eto (d_edge d)) c w) by congruence. subst q.
  destruct (W_from _ _ _ _ _ _ _ _ _ W) as (k1 & k2 & k3 & V1').
  destruct (W_to _ _ _ _ _ _ _ _ _ W) as (k4 & k5 & k6 & V2'). cbn [q1 q2 q3 q4] in *.
  set (u := efrom (d_edge d)) in *. set (v := eto (d_edge d)) in *.
  intros i j p r Ti Tj Fc Fw Fp Fr.
  assert (T1 : T ts' (d_from d) c w u) by (apply T_rot2; exists k1, k2, k3; exact V1').
  assert (T2 : T ts' (d_to d) w c v) by (exists k4, k5, k6; exact V2').
  destruct (T_share px py _ _ _ _ _ _ _ M' Ti T1) as (-> & ->). destruct (T_share px py _ _ _ _ _ _ _ M' Tj T2) as (-> & ->).
  destruct (Ids_view _ _ _ _ _ _ _ _ _ (I_ids _ _ _ _ I) V1) as (Vw & Vu & Vv).
  destruct (Ids_view _ _ _ _ _ _ _ _ _ (I_ids _ _ _ _ I) V2) as (_ & _ & Vc).
  pose proof (M_cw _ _ M _ _ _ _ _ _ _ V1) as C1. pose proof (M_cw _ _ M _ _ _ _ _ _ _ V2) as C2.
  pose proof (proj1 (circle_value u v c w true Fp Fr Fc Fw Vu Vv Vc Vw C1 C2 Hs) eq_refl) as K.
  pose proof (T_cw px py _ _ _ _ _ M' T1) as Cw.
  intros f Ec Ew Eu.
  pose proof (incircle_plane px py f c w u v Fc Fw Fp Fr Ec Ew Eu) as Ip. rewrite incircle_even in Ip.
  destruct (Qlt_le_dec (z px py v) (ev px py f v)) as [L|L]; auto. exfalso.
  assert (0 < (ev px py f v - z px py v) * - D c w u)%Q by (apply Qmul_pos; lra). lra.
Qed.

(** ** Removing the crossed edges: the edges of the mesh are old ones or recorded *)
Notation sameD x y d := (sameE x y (efrom (d_edge d)) (eto (d_edge d))).

Lemma remove_edges (Old : N -> N -> Prop) va vb : forall fuel ts v2t inters news nc ts' v2t' news',
  MInv ts -> VT ts v2t -> Pend ts (inters ++ news) ->
  (forall x y, medge ts x y -> Old x y \/ exists d, In d (inters ++ news) /\ sameD x y d) ->
  remove_crossed_edges fuel ts vs v2t (va, vb) inters news nc = Ret (ts', v2t', news') ->
  forall x y, medge ts' x y -> Old x y \/ exists d, In d news' /\ sameD x y d.
Proof.
  induction fuel as [|fuel IH]; intros ts v2t inters news nc ts' v2t' news' I V Pd Ed H.
  - destruct inters as [|d inters]; simpl in H; [|discriminate]. inversion H; subst. exact Ed.
  - destruct inters as [|d inters]; simpl in H; [inversion H; subst; exact Ed|].
    destruct (lenN inters <? nc); [discriminate|].
    assert (Hd : EDok ts d) by (apply (P_ok _ _ Pd); now left).
    destruct (pend_quad vs px py ts d I Hd) as (q & Hq & Q1 & Q2 & V1 & V2 & V3 & V4 & C1 & C2).
    rewrite Hq in H. cbn [bind] in H.
    destruct (quad_diagonals_intersection vs q) as [x| | |] eqn:HI; cbn [bind] in H; try discriminate.
    destruct (is_crossing x) eqn:Hx; cbn [negb] in H.
    + assert (N12 : (D (q4 q) (q1 q) (q3 q) < 0 /\ D (q4 q) (q3 q) (q2 q) < 0)%Q).
      { apply (crosses_convex px py); auto. now apply (quad_crossing vs px py X XC q x). }
      destruct N12 as (N1 & N2). cbn [app] in Pd.
      destruct (pend_swap vs px py ts v2t d (inters ++ news) q I V Pd Hq N1 N2) as (ts1 & v1 & upd & Hs & W & Pd1 & U).
      rewrite Hs in H. cbn [bind d_edge] in H.
      destruct (edge_and_constrained_edge_intersection vs (Edge (q3 q) (q4 q)) (va, vb)) as [y| | |] eqn:HY;
        cbn [bind] in H; try discriminate.
      set (d' := ED (d_from d) (d_to d) (Edge (q3 q) (q4 q))) in *. rewrite map_app in Pd1.
      assert (Ed1 : forall x0 y0, medge ts1 x0 y0 -> Old x0 y0 \/ sameD x0 y0 d' \/
        exists e, In e (map upd inters ++ map upd news) /\ sameD x0 y0 e).
      { intros u v Hm. apply (W_edge _ _ _ _ _ _ _ _ _ W) in Hm. destruct Hm as [S|(Hm & NS)]; [auto|].
        destruct (Ed u v Hm) as [O|(e & [<- |He] & S)]; [auto| |].
        - exfalso. apply NS. now rewrite Q1, Q2.
        - right. right. exists (upd e). rewrite <- map_app. split; [now apply in_map|]. now rewrite U. }
      destruct (is_crossing y).
      * eapply IH; [exact (W_inv _ _ _ _ _ _ _ _ _ W)|exact (W_vt _ _ _ _ _ _ _ _ _ W)| | |exact H].
        -- eapply pend_perm; [|exact Pd1]. rewrite <- app_assoc. simpl. apply Permutation_middle.
        -- intros u v Hm. destruct (Ed1 u v Hm) as [O|[S|(e & He & S)]]; auto; right.
           ++ exists d'. split; auto. apply in_or_app. left. apply in_or_app. right. now left.
           ++ exists e. split; auto. rewrite <- app_assoc. apply in_app_or in He. destruct He as [He|He]; apply in_or_app; auto.
              right. now right.
      * eapply IH; [exact (W_inv _ _ _ _ _ _ _ _ _ W)|exact (W_vt _ _ _ _ _ _ _ _ _ W)| | |exact H].
        -- eapply pend_perm; [|exact Pd1]. rewrite app_assoc. apply Permutation_cons_append.
        -- intros u v Hm. destruct (Ed1 u v Hm) as [O|[S|(e & He & S)]]; auto; right.
           ++ exists d'. split; auto. apply in_or_app. right. apply in_or_app. right. now left.
           ++ exists e. split; auto. rewrite app_assoc. apply in_or_app. now left.
    + eapply IH; [exact I|exact V| | |exact H].
      * eapply pend_perm; [|exact Pd]. rewrite <- app_assoc. simpl. apply Permutation_middle.
      * intros u v Hm. destruct (Ed u v Hm) as [O|(e & He & S)]; auto. right. exists e. split; auto.
        rewrite <- app_assoc. simpl in He. destruct He as [<- |He].
        -- apply in_or_app. right. now left.
        -- apply in_app_or in He. apply in_or_app. destruct He; auto. right. now right.
Qed.

(** ** Restoring *)
Section Restore.
Variables a b : N.
Variable Old : N -> N -> Prop.

Definition isab (d : edge_data) : Prop := sameE (efrom (d_edge d)) (eto (d_edge d)) a b.

Definition pending (ts : list tri) (news : list edge_data) (hist : list (N * N)) : Prop :=
  exists l1 d l2, news = l1 ++ d :: l2 /\ Forall isab l1 /\ Forall isab l2 /\
    (forall x y, medge ts x y -> Old x y \/ sameE x y a b \/ sameD x y d) /\
    (hist = [] \/ Good ts (efrom (d_edge d)) (eto (d_edge d))).

Definition finished (ts : list tri) (news : list edge_data) : Prop :=
  Forall isab news /\ (forall x y, medge ts x y -> Old x y \/ sameE x y a b \/ Good ts x y).

Lemma restore_edges : forall fuel ts v2t news hist ts' v2t',
  MInv ts -> VT ts v2t -> Pend ts news -> (pending ts news hist \/ finished ts news) ->
  restore_constrained fuel ts vs v2t (Edge a b) news hist = Ret (ts', v2t') ->
  forall x y, medge ts' x y -> Old x y \/ sameE x y a b \/ Good ts' x y.
Proof.
  induction fuel as [|fuel IH]; intros ts v2t news hist ts' v2t' I V Pd St H.
  - destruct news as [|d news]; simpl in H; [|discriminate]. inversion H; subst.
    destruct St as [(l1 & d & l2 & Q & _)|(_ & Ed)]; [destruct l1; discriminate|exact Ed].
  - destruct news as [|d news]; simpl in H.
    { inversion H; subst. destruct St as [(l1 & d & l2 & Q & _)|(_ & Ed)]; [destruct l1; discriminate|exact Ed]. }
    pose proof (pend_tail _ _ _ Pd) as Pt.
    destruct (undirected_equals (d_edge d) (Edge a b)) eqn:Hu.
    { apply undirected_sameE in Hu. cbn [efrom eto] in Hu.
      eapply IH; [exact I|exact V|exact Pt| |exact H].
      destruct St as [(l1 & d0 & l2 & Q & F1 & F2 & Ed & Hi)|(F & Ed)].
      - destruct l1 as [|d1 l1].
        + cbn [app] in Q. injection Q as <- <-. right. split; auto.
          intros x y Hm. destruct (Ed x y Hm) as [O|[S|S]]; auto. right. left. exact (sameE_trans _ _ _ _ _ _ S Hu).
        + cbn [app] in Q. injection Q as <- ->. inversion F1; subst. left. exists l1, d0, l2. auto.
      - inversion F; subst. right. split; auto. }
    assert (Nu : ~ isab d).
    { intros S. assert (undirected_equals (d_edge d) (Edge a b) = true) by (now apply undirected_sameE). congruence. }
    destruct St as [(l1 & d0 & l2 & Q & F1 & F2 & Ed & Hi)|(F & _)]; [|inversion F; contradiction].
    destruct l1 as [|d1 l1]; [|cbn [app] in Q; injection Q as -> ->; inversion F1; contradiction].
    cbn [app] in Q. injection Q as <- <-. clear F1.
    assert (Hd : EDok ts d) by (apply (P_ok _ _ Pd); now left).
    destruct (pend_quad vs px py ts d I Hd) as (q & Hq & Q1 & Q2 & V1 & V2 & V3 & V4 & C1 & C2).
    rewrite Hq in H. cbn [bind] in H.
    destruct (constrained_should_swap_diagonals q vs) as [sw| | |] eqn:Hsw; cbn [bind] in H; try discriminate.
    destruct (sw && negb (history_mem hist (d_from d, d_to d))) eqn:Hb.
    + apply andb_true_iff in Hb. destruct Hb as (-> & _).
      assert (N12 : (D (q4 q) (q1 q) (q3 q) < 0 /\ D (q4 q) (q3 q) (q2 q) < 0)%Q).
      { destruct q as [u v c w]; cbn [q1 q2 q3 q4] in *.
        eapply (constrained_swap_convex vs px py X u v c w); eauto. }
      destruct N12 as (N1 & N2).
      destruct (pend_swap vs px py ts v2t d news q I V Pd Hq N1 N2) as (ts1 & v1 & upd & Hs & W & Pd1 & U).
      rewrite Hs in H. cbn [bind] in H.
      set (d' := ED (d_from d) (d_to d) (Edge (q3 q) (q4 q))) in *.
      assert (Fm : Forall isab (map upd news)).
      { apply Forall_forall. intros e He. apply in_map_iff in He. destruct He as (e0 & <- & He0).
        unfold isab. rewrite U by auto. rewrite Forall_forall in F2. now apply F2. }
      assert (Ed1 : forall x y, medge ts1 x y -> Old x y \/ sameE x y a b \/ sameD x y d').
      { intros x y Hm. apply (W_edge _ _ _ _ _ _ _ _ _ W) in Hm. destruct Hm as [S|(Hm & NS)]; auto.
        destruct (Ed x y Hm) as [O|[S|S]]; auto. exfalso. apply NS. now rewrite Q1, Q2. }
      eapply IH; [exact (W_inv _ _ _ _ _ _ _ _ _ W)|exact (W_vt _ _ _ _ _ _ _ _ _ W)| | |exact H].
      * eapply pend_perm; [|exact Pd1]. apply Permutation_cons_append.
      * left. exists (map upd news), d', []. split; auto. split; auto. split; auto. split; auto.
        right. exact (swapped_good ts d q ts1 v1 upd I Hd Hq Hsw W).
    + assert (G : Good ts (efrom (d_edge d)) (eto (d_edge d))).
      { apply andb_false_iff in Hb. destruct Hb as [->|Hh].
        - rewrite <- Q1, <- Q2. exact (unswapped_good ts d q I Hd Hq Hsw).
        - destruct Hi as [->|G]; auto. discriminate Hh. }
      eapply IH; [exact I|exact V|exact Pt| |exact H].
      right. split; auto. intros x y Hm. destruct (Ed x y Hm) as [O|[S|S]]; auto.
      right. right. exact (Good_same _ _ _ _ _ (I_mesh _ _ _ _ I) S G).
Qed.
End Restore.

(** ** One constraint *)

(** At most two edges cross a b. *)
Definition few (ts : list tri) (a b : N) : Prop :=
  forall l, ForallOrdPairs (fun d e => ~ sameED d e) l ->
    (forall d, In d l -> medge ts (efrom (d_edge d)) (eto (d_edge d)) /\ xing px py a b (efrom (d_edge d)) (eto (d_edge d))) ->
    (length l <= 2)%nat.

Lemma apply_good fuel mapping s raw s' a b :
  MInv (c_ts s) -> VT (c_ts s) (c_v2t s) -> getN mapping (efrom raw) = Ret a -> getN mapping (eto raw) = Ret b ->
  hascorner (c_ts s) a -> hascorner (c_ts s) b -> fin a -> fin b -> few (c_ts s) a b ->
  apply_constraint fuel vs mapping s raw = Ret s' ->
  forall x y, medge (c_ts s') x y -> medge (c_ts s) x y \/ sameE x y a b \/ Good (c_ts s') x y.
Proof.
  intros I V Ga Gb Ha Hb Fa Fb Few H x y Hm. unfold apply_constraint in H. rewrite Ga, Gb in H. cbn [bind] in H.
  destruct ((a =? b) || edge_mem (c_set s) (Edge a b)) eqn:Hc; [apply Ret_inj in H; subst s'; now left|].
  apply orb_false_iff in Hc. destruct Hc as (Hne & _). apply N.eqb_neq in Hne.
  pose proof (hascorner_vok vs _ _ (I_ids _ _ _ _ I) Ha) as Va. pose proof (hascorner_vok vs _ _ (I_ids _ _ _ _ I) Hb) as Vb.
  destruct (get_vertex vs a Va Fa) as (va & Gva & Na). destruct (get_vertex vs b Vb Fb) as (vb & Gvb & Nb).
  unfold edge_to_vertices in H. cbn [efrom eto] in H. rewrite Gva, Gvb in H. cbn [bind] in H.
  pose proof V as V0. destruct V as (Lv & VTw). destruct (VTw a Ha Fa) as (start & Hst & Cst).
  destruct (register_intersected_edges (c_ts s) vs (Edge a b) (va, vb) (c_v2t s)) as [l| | |] eqn:HR; cbn [bind] in H; try discriminate.
  pose proof (register_sound vs px py X XC a b va vb Na Nb Hne (c_ts s) (I_mesh _ _ _ _ I) _ _ _ Hst Cst HR) as S.
  destruct S as [(-> & _)|(Hl & R)]; [apply Ret_inj in H; subst s'; now left|].
  destruct l as [|d0 l0]; [congruence|].
  destruct (remove_crossed_edges fuel (c_ts s) vs (c_v2t s) (va, vb) (d0 :: l0) [] 0) as [((ts1, v1), news)| | |] eqn:HM;
    cbn [bind] in H; try discriminate.
  destruct (restore_constrained fuel ts1 vs v1 (Edge a b) news []) as [(ts2, v2)| | |] eqn:HS; cbn [bind] in H; try discriminate.
  apply Ret_inj in H; subst s'. cbn [c_ts c_v2t c_set] in *.
  assert (R0 : RI vs px py a b (fun _ _ => False) (c_ts s) (c_v2t s) (d0 :: l0) []).
  { constructor; auto; try contradiction.
    - rewrite app_nil_r. constructor; [intros d Hd; now apply (G_ok _ _ _ _ _ _ R)|exact (G_nd _ _ _ _ _ _ R)].
    - intros d Hd. destruct (G_ok _ _ _ _ _ _ R d Hd) as (_ & Xd). now apply xing_crosses.
    - intros x0 y0 Hm0 Hx. exact (registered_complete vs px py X a b va vb Na Nb (c_ts s) (I_mesh _ _ _ _ I) _ _ _ R Hm0 Hx). }
  pose proof (L_pend _ _ _ _ _ _ _ _ _ _ R0) as Pd0.
  destruct (remove_sound vs px py X XC a b va vb Na Nb (fun _ _ => False) (fun _ _ A => match A with end) _ _ _ _ _ _ _ _ _ R0 HM) as ([I1 V1 Pd1 _ All1 _ _] & _ & C1).
  assert (NV : no_vertex px py a b ts1).
  { intros w s0 t0 Hw Fw Hs0 Ht0 Pq. apply C1 in Hw.
    exact (registered_no_vertex px py a b (c_ts s) (I_mesh _ _ _ _ I) _ w s0 t0 R Hw Fw Hs0 Ht0 Pq). }
  assert (Mab : medge ts1 a b).
  { apply (edge_present vs px py X a b va vb Na Nb Hne ts1); auto; try (now apply C1).
    intros x0 y0 Hm0 Hx. destruct (All1 x0 y0 Hm0 Hx) as (d & [] & _). }
  assert (Ed0 : forall x0 y0, medge (c_ts s) x0 y0 -> medge (c_ts s) x0 y0 \/ exists d, In d ((d0 :: l0) ++ []) /\ sameD x0 y0 d) by auto.
  pose proof (remove_edges (medge (c_ts s)) va vb _ _ _ _ _ _ _ _ _ I V0 Pd0 Ed0 HM) as Ed1.
  pose proof (remove_len vs (va, vb) _ _ _ _ _ _ _ _ _ HM) as Ln. cbn [length plus] in Ln.
  assert (L2 : (length (d0 :: l0) <= 2)%nat) by (apply Few; [exact (G_nd _ _ _ _ _ _ R)|intros d Hd; destruct (G_ok _ _ _ _ _ _ R d Hd); split; auto; now apply EDok_medge]).
  cbn [length] in L2.
  destruct (Ed1 a b Mab) as [Old|(dab & Hin & Sab)].
  { exfalso. destruct (G_ok _ _ _ _ _ _ R d0 (or_introl eq_refl)) as (Ok & Xd).
    apply (edge_uncrossed vs px py X a b Fa Fb (c_ts s) _ _ (I_mesh _ _ _ _ I) (I_ids _ _ _ _ I) Old (EDok_medge _ _ Ok)).
    now apply xing_crosses. }
  apply sameE_sym in Sab.
  assert (St : pending a b (medge (c_ts s)) ts1 news [] \/ finished a b (medge (c_ts s)) ts1 news).
  { destruct news as [|e1 [|e2 [|e3 news]]]; [destruct Hin| | |cbn [length] in Ln; lia].
    - destruct Hin as [<-|[]]. right. split; [constructor; [exact Sab|constructor]|].
      intros x0 y0 Hm0. destruct (Ed1 x0 y0 Hm0) as [O|(d & [<-|[]] & S)]; auto. right. left. exact (sameE_trans _ _ _ _ _ _ S Sab).
    - destruct Hin as [<-|[<-|[]]]; left.
      + exists [e1], e2, []. split; auto. split; [constructor; [exact Sab|constructor]|]. split; auto. split; [|now left].
        intros x0 y0 Hm0. destruct (Ed1 x0 y0 Hm0) as [O|(d & [<-|[<-|[]]] & S)]; auto. right. left. exact (sameE_trans _ _ _ _ _ _ S Sab).
      + exists [], e1, [e2]. split; auto. split; auto. split; [constructor; [exact Sab|constructor]|]. split; [|now left].
        intros x0 y0 Hm0. destruct (Ed1 x0 y0 Hm0) as [O|(d & [<-|[<-|[]]] & S)]; auto. right. left. exact (sameE_trans _ _ _ _ _ _ S Sab). }
  exact (restore_edges a b (medge (c_ts s)) _ _ _ _ _ _ _ I1 V1 Pd1 St HS x y Hm).
Qed.

(** A constraint that is an edge already changes nothing. *)
Lemma apply_noop fuel mapping s raw s' a b :
  MInv (c_ts s) -> VT (c_ts s) (c_v2t s) -> getN mapping (efrom raw) = Ret a -> getN mapping (eto raw) = Ret b ->
  hascorner (c_ts s) a -> hascorner (c_ts s) b -> fin a -> fin b -> medge (c_ts s) a b ->
  apply_constraint fuel vs mapping s raw = Ret s' -> c_ts s' = c_ts s.
Proof.
  intros I V Ga Gb Ha Hb Fa Fb Hm H. unfold apply_constraint in H. rewrite Ga, Gb in H. cbn [bind] in H.
  destruct ((a =? b) || edge_mem (c_set s) (Edge a b)) eqn:Hc; [apply Ret_inj in H; now subst s'|].
  apply orb_false_iff in Hc. destruct Hc as (Hne & _). apply N.eqb_neq in Hne.
  pose proof (hascorner_vok vs _ _ (I_ids _ _ _ _ I) Ha) as Va. pose proof (hascorner_vok vs _ _ (I_ids _ _ _ _ I) Hb) as Vb.
  destruct (get_vertex vs a Va Fa) as (va & Gva & Na). destruct (get_vertex vs b Vb Fb) as (vb & Gvb & Nb).
  unfold edge_to_vertices in H. cbn [efrom eto] in H. rewrite Gva, Gvb in H. cbn [bind] in H.
  destruct V as (Lv & VTw). destruct (VTw a Ha Fa) as (start & Hst & Cst).
  destruct (register_intersected_edges (c_ts s) vs (Edge a b) (va, vb) (c_v2t s)) as [l| | |] eqn:HR; cbn [bind] in H; try discriminate.
  pose proof (register_sound vs px py X XC a b va vb Na Nb Hne (c_ts s) (I_mesh _ _ _ _ I) _ _ _ Hst Cst HR) as S.
  destruct S as [(-> & _)|(Hl & R)]; [apply Ret_inj in H; now subst s'|].
  exfalso. destruct l as [|d0 l0]; [congruence|].
  destruct (G_ok _ _ _ _ _ _ R d0 (or_introl eq_refl)) as (Ok & Xd).
  apply (edge_uncrossed vs px py X a b Fa Fb (c_ts s) _ _ (I_mesh _ _ _ _ I) (I_ids _ _ _ _ I) Hm (EDok_medge _ _ Ok)).
  now apply xing_crosses.
Qed.

(** ** Triangles with the same vertices in two meshes *)
Definition same_at (ts ts' : list tri) (i : N) : Prop :=
  option_map tverts (nthN ts i) = option_map tverts (nthN ts' i).

Lemma same_view ts ts' i u v w n1 n2 n3 : same_at ts ts' i -> view ts i u v w n1 n2 n3 ->
  exists k1 k2 k3, view ts' i u v w k1 k2 k3.
Proof.
  unfold same_at. intros Q (t' & k & Ht' & Er).
  rewrite Ht' in Q. cbn [option_map] in Q. destruct (nthN ts' i) as [t|] eqn:Ht; [|discriminate].
  cbn [option_map] in Q. injection Q as Q1 Q2 Q3.
  destruct t as [a1 a2 a3 m1 m2 m3], t' as [b1 b2 b3 k1 k2 k3]. cbn in Q1, Q2, Q3. subst b1 b2 b3.
  unfold rot in Er. destruct k; simpl in Er; injection Er as -> -> -> -> -> ->.
  - exists m1, m2, m3. eexists _, I1. split; [exact Ht|reflexivity].
  - exists m2, m3, m1. eexists _, I2. split; [exact Ht|reflexivity].
  - exists m3, m1, m2. eexists _, I3. split; [exact Ht|reflexivity].
Qed.

Lemma same_T ts ts' i u v w : same_at ts ts' i -> T ts i u v w -> T ts' i u v w.
Proof. intros Q (n1 & n2 & n3 & V). exact (same_view _ _ _ _ _ _ _ _ _ Q V). Qed.

Lemma T_medge ts i x y p : T ts i x y p -> medge ts x y.
Proof. intros (n1 & n2 & n3 & V). destruct (view_he _ _ _ _ _ _ _ _ V) as (H & _). left. eauto. Qed.

Definition edge_in (x y : N) (t : tri) : bool :=
  existsb (fun k => ((tv t k =? x) && (tv t (next_cw k) =? y)) || ((tv t k =? y) && (tv t (next_cw k) =? x))) [I1; I2; I3].

Lemma medge_dec ts x y : medge ts x y \/ ~ medge ts x y.
Proof.
  destruct (existsb (edge_in x y) ts) eqn:Ex.
  - left. apply existsb_exists in Ex. destruct Ex as (t & Ht & Hb). apply existsb_exists in Hb. destruct Hb as (k & _ & Hb).
    apply In_nthN in Ht. destruct Ht as (i & Ht). pose proof (he_at _ _ _ k Ht) as He.
    apply orb_true_iff in Hb. destruct Hb as [Hb|Hb]; apply andb_true_iff in Hb; destruct Hb as (A & B);
      apply N.eqb_eq in A, B; rewrite A, B in He; [left|right]; eauto.
  - right. intros Hm. assert (K : existsb (edge_in x y) ts = true); [|congruence].
    apply existsb_exists.
    destruct Hm as [(i & n & He)|(i & n & He)]; apply he_inv in He; destruct He as (t & k & Ht & <- & <- & _);
      exists t; (split; [exact (nthN_In _ _ _ Ht)|]); apply existsb_exists; exists k;
      (split; [destruct k; cbn; auto|]); rewrite !N.eqb_refl; cbn; auto using orb_true_r.
Qed.

End WithEnv.
