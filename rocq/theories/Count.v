(** * Count: Euler's formula for the returned triangles. *)

From Coq Require Import ZArith NArith List Bool Lia QArith Lqa Permutation.
From Verif Require Import Base BaseFacts Arith Types Utils Infinite Triangulation Geom Mesh MeshVerts Exact
  AnyDT Walk Insert DTExact Spec SpecCount DTOut MeshEdge Lifted Lawson Rep Norm GridSpec GridApi InputSpec ApiProps LawsonApi ApiGrid LawsonGrid SpecBox BoxGrid Hull.
Import ListNotations.
Local Open Scope N_scope.

(** ** Choosing indices *)

Lemma choose {A} (R : A -> N -> Prop) (l : list A) : NoDup l ->
  (forall a, In a l -> exists i, R a i) ->
  (forall a b i, In a l -> In b l -> R a i -> R b i -> a = b) ->
  exists ids, length ids = length l /\ NoDup ids /\ forall i, In i ids -> exists a, In a l /\ R a i.
Proof.
  induction l as [|a l IH]; intros Nd T J.
  - exists []. repeat split; try constructor. contradiction.
  - inversion Nd as [|? ? Na Nl]; subst. destruct IH as (ids & L & Ni & K); auto.
    { intros; apply T; now right. }
    { intros; eapply J; eauto; now right. }
    destruct (T a (or_introl eq_refl)) as (i & Hi). exists (i :: ids). cbn [length]. split; [now rewrite L|].
    split.
    + constructor; auto. intros Hin. destruct (K i Hin) as (b & Hb & Rb).
      assert (a = b) by (apply (J a b i); auto; [now left|now right]). now subst.
    + intros j [<-|Hj]; [exists a; split; [now left|auto]|]. destruct (K j Hj) as (b & Hb & Rb).
      exists b. split; [now right|auto].
Qed.

(** At least the elements failing the test that can be labelled injectively. *)
Lemma cnt_labels {A B} (f : A -> bool) (R : N -> B -> Prop) (l : list A) (L : list B) :
  (forall i x, nthN l i = Some x -> f x = false -> exists b, In b L /\ R i b) ->
  (forall i j b, R i b -> R j b -> i = j) ->
  (length l <= length (filter f l) + length L)%nat.
Proof.
  revert R L. induction l as [|x l IH]; intros R L T J; [simpl; lia|].
  destruct (f x) eqn:Fx; cbn [filter length]; rewrite Fx; cbn [length].
  - specialize (IH (fun i => R (N.succ i)) L).
    assert (length l <= length (filter f l) + length L)%nat; [|lia]. apply IH.
    + intros i y Hi Fy. apply (T (N.succ i) y); auto. cbn [nthN].
      rewrite (proj2 (N.eqb_neq _ _)) by lia. now rewrite N.pred_succ.
    + intros i j b Ri Rj. apply (N.succ_inj i j). eapply J; eauto.
  - destruct (T 0 x eq_refl Fx) as (b & Hb & Rb).
    apply in_split in Hb. destruct Hb as (L1 & L2 & ->).
    assert (length l <= length (filter f l) + length (L1 ++ L2))%nat; [|rewrite app_length in *; cbn [length]; lia].
    apply (IH (fun i => R (N.succ i)) (L1 ++ L2)).
    + intros i y Hi Fy. destruct (T (N.succ i) y) as (c & Hc & Rc); auto.
      { cbn [nthN]. rewrite (proj2 (N.eqb_neq _ _)) by lia. now rewrite N.pred_succ. }
      exists c. split; auto. apply in_app_or in Hc. apply in_or_app. destruct Hc as [|[<-|]]; auto.
      assert (0 = N.succ i) by (eapply J; eauto). lia.
    + intros i j c Ri Rj. apply (N.succ_inj i j). eapply J; eauto.
Qed.

Section WithEnv.
Context {E : Env}.
Variable vs : list vertex.
Variables px py : N -> Q.
Hypothesis X : Exact vs px py.
Notation pos := (hpos px py).
Notation fin v := (is_finite v = true).
Notation D a b c := (det (pos a) (pos b) (pos c)).
Local Notation at_ := (pair_at px py).

Lemma edge_out ts u v : In (u, v) (directed_edges (filter_triangles ts)) <->
  exists i c x y z, view ts i u v c x y z /\ fin u /\ fin v /\ fin c.
Proof.
  unfold directed_edges. rewrite in_flat_map. split.
  - intros (((a, b), c) & Hin & He). destruct (out_inv _ _ _ _ Hin) as (i & x & y & z & V & A & B & C).
    cbn [tri_edges In] in He. destruct He as [Q|[Q|[Q|[]]]]; injection Q as <- <-.
    + exists i, c, x, y, z. auto.
    + exists i, a, y, z, x. split; [now apply view_rot|auto].
    + exists i, b, z, x, y. split; [now apply view_rot2|auto].
  - intros (i & c & x & y & z & V & A & B & C).
    destruct (view_out ts _ _ _ _ _ _ _ V A B C) as [H|[H|H]]; (eexists; split; [exact H|]); simpl; auto.
Qed.

Lemma border_iff out u v : In (u, v) (border_edges out) <->
  In (u, v) (directed_edges out) /\ ~ In (v, u) (directed_edges out).
Proof.
  unfold border_edges. rewrite filter_In. cbn [fst snd]. rewrite negb_true_iff. split; intros (H1 & H2); split; auto.
  - intros K. assert (Q : existsb (fun f => (fst f =? v) && (snd f =? u)) (directed_edges out) = true).
    { apply existsb_exists. exists (v, u). cbn [fst snd]. rewrite !N.eqb_refl. auto. }
    congruence.
  - destruct (existsb _ _) eqn:Q; auto. exfalso. apply existsb_exists in Q. destruct Q as ((a, b) & Hin & Q).
    cbn [fst snd] in Q. apply andb_true_iff in Q. destruct Q as (Q1 & Q2).
    apply N.eqb_eq in Q1, Q2. subst. auto.
Qed.

Definition corners_at_infinity : list (N * N) := [(INF1, INF0); (INF2, INF1); (INF3, INF2); (INF0, INF3)].

(** The edges of the unbounded triangles that are opposite to the others. *)
Definition pure_edge (u v : N) : Prop := (fin u /\ fin v) \/ (is_finite u = false /\ is_finite v = false).

Section Mesh.
Variable ts : list tri.
Hypothesis MI : MInv vs px py ts.

Definition labels (e : N * N) (i : N) : Prop :=
  exists c x y z, view ts i (snd e) (fst e) c x y z /\ pure_edge (fst e) (snd e) /\ ~ (fin (fst e) /\ fin c).

Lemma labels_fun e e' i : labels e i -> labels e' i -> e = e'.
Proof.
  destruct e as (u, v), e' as (u', v'). intros (c & x & y & z & V & P & N) (c' & x' & y' & z' & V' & P' & N').
  cbn [fst snd] in *. pose proof (M_cw _ _ (I_mesh _ _ _ _ MI) _ _ _ _ _ _ _ V) as Cw.
  pose proof (fun A B C => three_inf px py v u c A B C) as TI. unfold pure_edge in *.
  destruct (is_finite u) eqn:Fu, (is_finite v) eqn:Fv, (is_finite c) eqn:Fc;
    try (exfalso; intuition congruence);
    try (exfalso; specialize (TI eq_refl eq_refl eq_refl); lra);
    destruct (view_fun _ _ _ _ _ _ _ _ _ _ _ _ _ _ V V') as [Q|[Q|Q]];
    destruct Q as (-> & -> & -> & _); try reflexivity;
    exfalso; rewrite ?Fu, ?Fv, ?Fc in *; intuition congruence.
Qed.

Lemma labels_inj e i j : labels e i -> labels e j -> i = j.
Proof.
  intros (c & x & y & z & V & _) (c' & x' & y' & z' & V' & _).
  apply (edge_share _ _ (I_mesh _ _ _ _ MI) _ _ _ _ _ _ (proj1 (view_he _ _ _ _ _ _ _ _ V)) (proj1 (view_he _ _ _ _ _ _ _ _ V'))).
Qed.

Lemma labels_unbounded e i : labels e i -> exists t, nthN ts i = Some t /\ tri_is_finite t = false.
Proof.
  destruct e as (u, v). intros (c & x & y & z & (t & k & Ht & R) & P & N). cbn [fst snd] in *.
  exists t. split; auto. unfold tri_is_finite. unfold rot in R. injection R as r1 r2 r3 _ _ _.
  assert (K : is_finite u && is_finite v && is_finite c = false).
  { unfold pure_edge in P. destruct (is_finite u), (is_finite v), (is_finite c); auto. exfalso. tauto. }
  destruct k; cbn [tv next_cw next_ccw] in *; subst;
    destruct (is_finite (t_v1 t)), (is_finite (t_v2 t)), (is_finite (t_v3 t)); auto.
Qed.

Lemma border_label u v : In (u, v) (border_edges (filter_triangles ts)) -> exists i, labels (u, v) i.
Proof.
  intros H. apply border_iff in H. destruct H as (H1 & H2). apply edge_out in H1.
  destruct H1 as (i & c & x & y & z & V & Fu & Fv & Fc).
  pose proof (I_mesh _ _ _ _ MI) as M.
  destruct (M_glue _ _ M _ _ _ _ (proj1 (view_he _ _ _ _ _ _ _ _ V))) as [(_ & K & _)|(c' & y' & z' & V')].
  { unfold is_infinite, is_finite in *. apply N.leb_le in K. apply N.ltb_lt in Fu. lia. }
  exists x, c', i, y', z'. cbn [fst snd]. split; [exact V'|]. split; [left; auto|].
  intros (_ & Fc'). apply H2. apply edge_out. exists x, c', i, y', z'. auto.
Qed.

(** No covered point is on the outer side of a border edge of a convex area. *)
Lemma border_support u v q : In (u, v) (border_edges (filter_triangles ts)) -> convex_area at_ (filter_triangles ts) ->
  covered at_ (filter_triangles ts) (at_ u) -> covered at_ (filter_triangles ts) (at_ v) ->
  covered at_ (filter_triangles ts) q -> (orient (at_ u) (at_ v) q <= 0)%Q.
Proof.
  intros B Cx Cu Cv Cq. pose proof (I_mesh _ _ _ _ MI) as M.
  destruct (Qlt_le_dec 0 (orient (at_ u) (at_ v) q)) as [G|]; auto. exfalso.
  assert (Fuv : fin u /\ fin v).
  { apply border_iff in B. destruct B as (B & _). apply edge_out in B. destruct B as (? & ? & ? & ? & ? & ? & A1 & A2 & _). auto. }
  destruct Fuv as (Fu & Fv).
  destruct (border_label u v B) as (i & c & x & y & z & V & _ & Nc). cbn [fst snd] in V, Nc.
  assert (Fc : is_finite c = false) by (destruct (is_finite c); auto; exfalso; tauto).
  pose proof (M_cw _ _ M _ _ _ _ _ _ _ V) as Cw.
  set (P := fun p : point => P3 (fst p) (snd p) 1).
  set (m := along (at_ u) (at_ v) (1 # 2)).
  assert (Lin : forall a b p r s, (det a b (P (along p r s)) == det a b (P p) + s * (det a b (P r) - det a b (P p)))%Q).
  { intros a b p r s. unfold P, along, det. cbn. ring. }
  assert (Pu : P (at_ u) = pos u) by (unfold P, pair_at; cbn [fst snd]; now rewrite (hpos_fin px py u Fu)).
  assert (Pv : P (at_ v) = pos v) by (unfold P, pair_at; cbn [fst snd]; now rewrite (hpos_fin px py v Fv)).
  pose proof (det_rot3 (pos v) (pos u) (pos c)) as (R1 & R2).
  assert (Z : (det (pos v) (pos u) (P m) == 0)%Q).
  { unfold m. rewrite Lin, Pu, Pv. pose proof (det_zero (pos v) (pos u)) as (Z1 & Z2 & Z3).
    pose proof (det_zero (pos u) (pos v)) as (Z1' & Z2' & Z3'). lra. }
  assert (G1 : (det (pos u) (pos c) (P m) < 0)%Q).
  { unfold m. rewrite Lin, Pu, Pv. pose proof (det_zero (pos u) (pos c)) as (_ & Y & _). lra. }
  assert (G2 : (det (pos c) (pos v) (P m) < 0)%Q).
  { unfold m. rewrite Lin, Pu, Pv. pose proof (det_zero (pos v) (pos c)) as (_ & _ & Y). lra. }
  assert (G3 : (det (pos v) (pos u) (P q) < 0)%Q).
  { rewrite <- Pu, <- Pv. unfold P, det. unfold orient in G. cbn. cbn in G. lra. }
  destruct (affine_pos (- det (pos u) (pos c) (P m)) (- (det (pos u) (pos c) (P q) - det (pos u) (pos c) (P m)))) as (e1 & H1 & K1); [lra|].
  destruct (affine_pos (- det (pos c) (pos v) (P m)) (- (det (pos c) (pos v) (P q) - det (pos c) (pos v) (P m)))) as (e2 & H2 & K2); [lra|].
  destruct (below e1 e2 H1 H2) as (e3 & H3 & L1 & L2). destruct (below e3 1 H3) as (s & S1 & S2 & S3); [reflexivity|].
  assert (S1e : (0 < s < e1)%Q) by lra. assert (S2e : (0 < s < e2)%Q) by lra.
  specialize (K1 s S1e). specialize (K2 s S2e).
  assert (I : inT pos ts i (P (along m q s))).
  { apply (inT_view _ _ _ _ _ _ _ _ _ _ V). split; [|split]; rewrite Lin; [rewrite Z; nra|lra|lra]. }
  assert (Cs : covered at_ (filter_triangles ts) (along m q s)).
  { apply Cx; auto; [|lra]. apply Cx; auto. split; discriminate. }
  rewrite (surjective_pairing (along m q s)) in Cs. apply (reg_out px py ts) in Cs.
  destruct Cs as (j & a & b & d & T & Fa & Fb & Fd & Hc). destruct T as (x1 & y1 & z1 & Vj).
  assert (Hj : inC pos ts j (P (along m q s))) by (apply (inC_view _ _ _ _ _ _ _ _ _ _ Vj); exact Hc).
  pose proof (open_closed_excl pos ts M i j _ I Hj) as ->.
  destruct (view_fun _ _ _ _ _ _ _ _ _ _ _ _ _ _ V Vj) as [K|[K|K]]; destruct K as (-> & -> & -> & _); congruence.
Qed.

Lemma infinity_label e : In e corners_at_infinity -> exists i, labels e i.
Proof.
  destruct (I_outer _ _ _ _ MI) as ((i0 & c0 & y0 & z0 & H0) & (i1 & c1 & y1 & z1 & H1) & (i2 & c2 & y2 & z2 & H2) & (i3 & c3 & y3 & z3 & H3)).
  destruct (inf_facts vs px py X) as (F0 & F1 & F2 & F3 & _).
  intros [<-|[<-|[<-|[<-|[]]]]].
  - exists i0, c0, NONE, y0, z0. cbn [fst snd]. split; [exact H0|]. split; [right; auto|]. intros (K & _). congruence.
  - exists i1, c1, NONE, y1, z1. cbn [fst snd]. split; [exact H1|]. split; [right; auto|]. intros (K & _). congruence.
  - exists i2, c2, NONE, y2, z2. cbn [fst snd]. split; [exact H2|]. split; [right; auto|]. intros (K & _). congruence.
  - exists i3, c3, NONE, y3, z3. cbn [fst snd]. split; [exact H3|]. split; [right; auto|]. intros (K & _). congruence.
Qed.

(** Two infinite corners of a triangle are consecutive. *)
Lemma same_place_edge i j a b v u c x y z c' x' y' z' :
  view ts i v u c x y z -> view ts j a b c' x' y' z' -> pos v = pos a -> pos u = pos b ->
  fin c -> is_finite a = false -> is_finite b = false -> v = a /\ u = b.
Proof.
  intros V V' Pv Pu Fc Fa Fb. pose proof (I_mesh _ _ _ _ MI) as M.
  pose proof (M_cw _ _ M _ _ _ _ _ _ _ V) as C. pose proof (M_cw _ _ M _ _ _ _ _ _ _ V') as C'.
  assert (K : i = j).
  { destruct (N.eq_dec i j) as [|Hne]; auto. exfalso. rewrite <- Pv, <- Pu in C'.
    destruct (same_edge_meet _ _ _ _ C C') as (p & A & B).
    apply (M_disj _ _ M i j p Hne); [apply (inT_view _ _ _ _ _ _ _ _ _ _ V)|apply (inT_view _ _ _ _ _ _ _ _ _ _ V')]; auto.
    rewrite <- Pv, <- Pu. exact B. }
  subst j. destruct (view_fun _ _ _ _ _ _ _ _ _ _ _ _ _ _ V V') as [K|[K|K]]; destruct K as (? & ? & ? & _); subst; auto; congruence.
Qed.

Lemma infinity_pairs i v u c x y z : view ts i v u c x y z -> fin c -> is_finite v = false -> is_finite u = false ->
  In (u, v) corners_at_infinity.
Proof.
  intros V Fc Fv Fu. pose proof (M_cw _ _ (I_mesh _ _ _ _ MI) _ _ _ _ _ _ _ V) as C.
  destruct (I_outer _ _ _ _ MI) as ((i0 & c0 & y0 & z0 & H0) & (i1 & c1 & y1 & z1 & H1) & (i2 & c2 & y2 & z2 & H2) & (i3 & c3 & y3 & z3 & H3)).
  destruct (inf_facts vs px py X) as (F0 & F1 & F2 & F3 & _).
  destruct (pos_inf vs px py X) as (P0 & P1 & P2 & P3).
  assert (Cases : forall w, is_finite w = false -> pos w = pos INF0 \/ pos w = pos INF1 \/ pos w = pos INF2 \/ pos w = pos INF3).
  { intros w Fw. rewrite P0, P1, P2, P3. unfold hpos. rewrite Fw.
    destruct (w =? INF0); auto. destruct (w =? INF1); auto. destruct (w =? INF2); auto. }
  rewrite (hpos_fin px py c Fc) in C. unfold corners_at_infinity.
  assert (S : forall j a b d x' y' z', view ts j a b d x' y' z' -> pos v = pos a -> pos u = pos b ->
    is_finite a = false -> is_finite b = false -> (u, v) = (b, a)).
  { intros j a b d x' y' z' Vj Pv Pu Fa Fb.
    destruct (same_place_edge i j a b v u c x y z d x' y' z' V Vj Pv Pu Fc Fa Fb) as (-> & ->). reflexivity. }
  destruct (Cases v Fv) as [Qv|[Qv|[Qv|Qv]]], (Cases u Fu) as [Qu|[Qu|[Qu|Qu]]];
    rewrite Qv, Qu, ?P0, ?P1, ?P2, ?P3 in C; unfold det in C; cbn in C;
    try (exfalso; lra).
  - left. symmetry. eapply S; eauto.
  - right; left. symmetry. eapply S; eauto.
  - right; right; left. symmetry. eapply S; eauto.
  - right; right; right; left. symmetry. eapply S; eauto.
Qed.

Definition all_labels : list (N * N) := corners_at_infinity ++ border_edges (filter_triangles ts).

Lemma border_nodup : NoDup (directed_edges (filter_triangles ts)) -> NoDup all_labels.
Proof.
  intros Nd. destruct (inf_facts vs px py X) as (F0 & F1 & F2 & F3 & L1 & L2 & L3).
  assert (Nb : NoDup (border_edges (filter_triangles ts))) by (apply NoDup_filter; exact Nd).
  assert (Nf : forall u v, In (u, v) (border_edges (filter_triangles ts)) -> fin u).
  { intros u v H. apply border_iff in H. destruct H as (H & _). apply edge_out in H.
    destruct H as (_ & _ & _ & _ & _ & _ & A & _). exact A. }
  unfold all_labels, corners_at_infinity. cbn [app].
  repeat constructor; auto; cbn [In]; intros Q; repeat (destruct Q as [Q|Q]; [injection Q; intros; lia|]);
    apply Nf in Q; congruence.
Qed.

Lemma count_le : NoDup (directed_edges (filter_triangles ts)) ->
  lenN (filter_triangles ts) + lenN (border_edges (filter_triangles ts)) + 4 <= lenN ts.
Proof.
  intros Nd. destruct (choose labels all_labels (border_nodup Nd)) as (ids & Li & Ni & K).
  { intros (u, v) H. apply in_app_or in H. destruct H as [H|H]; [now apply infinity_label|now apply border_label]. }
  { intros a b i _ _. apply labels_fun. }
  pose proof (cnt_others tri_is_finite ts ids Ni) as C.
  assert (Q : (length (filter tri_is_finite ts) + length ids <= length ts)%nat).
  { apply C. intros i Hi. destruct (K i Hi) as (e & _ & He). eapply labels_unbounded; eauto. }
  rewrite Li in Q. unfold all_labels in Q. rewrite app_length in Q. cbn [corners_at_infinity length] in Q.
  unfold filter_triangles at 1. unfold lenN. rewrite map_length. lia.
Qed.

(** The middle of every edge between two vertices of the mesh is covered. *)
Hypothesis middles : forall u v, hascorner ts u -> hascorner ts v -> fin u -> fin v ->
  covered at_ (filter_triangles ts) (along (at_ u) (at_ v) (1 # 2)).

Lemma unbounded_label i t : nthN ts i = Some t -> tri_is_finite t = false ->
  exists e, In e all_labels /\ labels e i.
Proof.
  intros Ht Ft. pose proof (I_mesh _ _ _ _ MI) as M.
  assert (Hv : exists u v c x y z, view ts i v u c x y z /\ pure_edge u v /\ ~ (fin u /\ fin c)).
  { pose proof (fun k => view_at ts i t k Ht) as V.
    pose proof (M_cw _ _ M _ _ _ _ _ _ _ (V I1)) as Cw. cbn [tv next_cw next_ccw] in Cw.
    pose proof (fun A B C => three_inf px py (t_v1 t) (t_v2 t) (t_v3 t) A B C) as TI.
    unfold tri_is_finite in Ft. unfold pure_edge.
    pose proof (V I1) as V1. pose proof (V I2) as V2. pose proof (V I3) as V3. cbn [tv next_cw next_ccw] in V1, V2, V3.
    destruct (is_finite (t_v1 t)) eqn:F1, (is_finite (t_v2 t)) eqn:F2, (is_finite (t_v3 t)) eqn:F3; try discriminate Ft;
      try (exfalso; specialize (TI eq_refl eq_refl eq_refl); lra);
      first [ do 6 eexists; split; [exact V1|]; rewrite F1, F2, F3; split; [now auto|intuition congruence]
            | do 6 eexists; split; [exact V2|]; rewrite F1, F2, F3; split; [now auto|intuition congruence]
            | do 6 eexists; split; [exact V3|]; rewrite F1, F2, F3; split; [now auto|intuition congruence] ]. }
  destruct Hv as (u & v & c & x & y & z & V & P & N).
  exists (u, v). split; [|do 4 eexists; split; [exact V|]; cbn [fst snd]; auto].
  pose proof (M_cw _ _ M _ _ _ _ _ _ _ V) as Cw. apply in_or_app.
  destruct P as [(Fu & Fv)|(Fu & Fv)].
  - right. apply border_iff.
    assert (Fc : is_finite c = false) by (destruct (is_finite c); auto; exfalso; tauto).
    assert (Hu : hascorner ts u).
    { exists i. destruct (view_he _ _ _ _ _ _ _ _ V) as (_ & K & _). eexists; eexists; exact K. }
    assert (Hv : hascorner ts v).
    { exists i. destruct (view_he _ _ _ _ _ _ _ _ V) as (K & _). eexists; eexists; exact K. }
    set (m := along (at_ u) (at_ v) (1 # 2)) in *.
    pose proof (middles u v Hu Hv Fu Fv) as Cm. fold m in Cm. rewrite (surjective_pairing m) in Cm.
    apply (reg_out px py ts) in Cm.
    set (q := P3 (fst m) (snd m) 1) in *.
    assert (Comb : forall a b, (det a b q == (1 # 2) * det a b (pos u) + (1 # 2) * det a b (pos v))%Q).
    { intros a b. unfold q, m, along, pair_at. rewrite (hpos_fin px py u Fu), (hpos_fin px py v Fv).
      unfold det; simpl. ring. }
    pose proof (det_rot3 (pos v) (pos u) (pos c)) as (R1 & R2).
    pose proof (det_zero (pos v) (pos u)) as (Z1 & Z2 & Z3). pose proof (det_zero (pos u) (pos v)) as (Z1' & Z2' & Z3').
    assert (Z : (det (pos v) (pos u) q == 0)%Q) by (rewrite Comb; lra).
    assert (G1 : (det (pos u) (pos c) q < 0)%Q).
    { rewrite Comb. pose proof (det_zero (pos u) (pos c)) as (_ & Y & _). lra. }
    assert (G2 : (det (pos c) (pos v) q < 0)%Q).
    { rewrite Comb. pose proof (det_zero (pos v) (pos c)) as (_ & _ & Y). lra. }
    destruct Cm as (j & a & b & d & T & Fa & Fb & Fd & Hc).
    destruct T as (x1 & y1 & z1 & Vj).
    assert (Hj : inC pos ts j q) by (apply (inC_view _ _ _ _ _ _ _ _ _ _ Vj); exact Hc).
    destruct (edge_excl px py ts i v u c x y z q j M V) as [->| ->]; auto.
    { simpl. lra. }
    { exfalso. destruct (view_fun _ _ _ _ _ _ _ _ _ _ _ _ _ _ V Vj) as [Q|[Q|Q]]; destruct Q as (-> & -> & -> & _); congruence. }
    split.
    + apply edge_out. assert (Nx : x <> NONE) by (pose proof (view_lt _ _ _ _ _ _ _ _ Vj); pose proof (M_len _ _ M); unfold NONE; lia).
      pose proof (glue_some _ _ M _ _ _ _ (proj1 (view_he _ _ _ _ _ _ _ _ V)) Nx) as (c' & y' & z' & V').
      exists x, c', i, y', z'. split; auto. split; auto. split; auto.
      destruct (view_fun _ _ _ _ _ _ _ _ _ _ _ _ _ _ V' Vj) as [Q|[Q|Q]]; destruct Q as (-> & -> & -> & _); auto.
    + intros K. apply edge_out in K. destruct K as (k & c' & x' & y' & z' & V' & _ & _ & Fc').
      assert (k = i) by (apply (edge_share _ _ M _ _ _ _ _ _ (proj1 (view_he _ _ _ _ _ _ _ _ V')) (proj1 (view_he _ _ _ _ _ _ _ _ V)))).
      subst k. destruct (view_fun _ _ _ _ _ _ _ _ _ _ _ _ _ _ V V') as [Q|[Q|Q]]; destruct Q as (? & ? & ? & _); subst; congruence.
  - left. destruct (is_finite c) eqn:Fc.
    + eapply infinity_pairs; eauto.
    + pose proof (three_inf px py v u c Fv Fu Fc). lra.
Qed.

Lemma count_eq : NoDup (directed_edges (filter_triangles ts)) ->
  lenN (filter_triangles ts) + lenN (border_edges (filter_triangles ts)) + 4 = lenN ts.
Proof.
  intros Nd. pose proof (count_le Nd) as L.
  pose proof (cnt_labels tri_is_finite (fun i e => labels e i) ts all_labels) as C.
  assert (Q : (length ts <= length (filter tri_is_finite ts) + length all_labels)%nat).
  { apply C; [exact unbounded_label|]. intros i j e. apply labels_inj. }
  unfold all_labels in Q. rewrite app_length in Q. cbn [corners_at_infinity length] in Q.
  unfold filter_triangles at 1. unfold filter_triangles at 1 in L. unfold lenN in *. rewrite map_length in *. lia.
Qed.
End Mesh.
End WithEnv.

(** ** The number of different places *)

Lemma reps_le (S : N -> N -> Prop) (l l' : list N) : (forall u v, S u v -> S v u) ->
  (forall u v w, S u v -> S v w -> S u w) -> NoDup l -> (forall u v, In u l -> In v l -> S u v -> u = v) ->
  (forall u, In u l -> exists w, In w l' /\ S u w) -> (length l <= length l')%nat.
Proof.
  intros Sy Tr Nd J T. destruct (choose (fun u w => In w l' /\ S u w) l Nd T) as (ids & L & Ni & K).
  { intros a b i Ha Hb (_ & Ra) (_ & Rb). apply J; auto. eapply Tr; [exact Ra|]. now apply Sy. }
  rewrite <- L. apply NoDup_incl_length; auto. intros i Hi. destruct (K i Hi) as (a & _ & H & _). exact H.
Qed.

Lemma same_place_sym p q : same_place p q -> same_place q p.
Proof. intros (A & B). split; now symmetry. Qed.

Lemma same_place_trans p q r : same_place p q -> same_place q r -> same_place p r.
Proof. intros (A & B) (C & D). split; [now rewrite A|now rewrite B]. Qed.

Lemma places_nodup (at_ : N -> point) l : ForallOrdPairs (fun u v => ~ same_place (at_ u) (at_ v)) l ->
  NoDup l /\ forall u v, In u l -> In v l -> same_place (at_ u) (at_ v) -> u = v.
Proof.
  intros H. split.
  - induction H as [|u l H _ IH]; constructor; auto. intros Hin. rewrite Forall_forall in H.
    apply (H u Hin). split; reflexivity.
  - intros u v Hu Hv Sp. destruct (ForallOrdPairs_In H u v Hu Hv) as [K|[K|K]]; auto.
    + contradiction.
    + exfalso. apply K. now apply same_place_sym.
Qed.

(** ** The API *)

Section Grid.
Context {E : Env}.
Variables (vs : list vertex) (px py : N -> Q) (bound : Z).
Notation pos := (pair_at px py).
Hypothesis G : exact_input vs pos bound.
Hypothesis Hid : 2 * lenN vs + 2 <= idmax.
Variables (fuel : nat) (bins k : N).
Variable out : list (N * N * N).
Hypothesis Hf : (4 * length vs + 12 <= fuel)%nat.
Hypothesis H3 : 3 <= lenN vs.
Hypothesis Ho : triangulation_from_2d_vertices fuel bins vs = Ret out.
Hypothesis Hk : different_places pos (lenN vs) k.

Lemma run_count : exists ts, MInv (normalized vs) px py ts /\ Exact (normalized vs) px py /\
  out = filter_triangles ts /\ lenN ts = 2 * k + 2 /\
  forall w, hascorner ts w -> is_finite w = true -> w < lenN vs.
Proof.
  destruct (dt_order vs Hid fuel bins out H3 Ho) as (first & rest & Hb).
  destruct (dt_run vs Hid fuel bins first rest out H3 Hb Ho) as (Nd & Hl & s & Hs & Eo).
  destruct (input_api vs px py bound G Hid) as (X & _).
  destruct (inserted_inv (normalized vs) px py fuel None first rest s X) as (done & Hd & DI);
    rewrite ?normalized_lenN, ?normalized_len; auto.
  { now left. }
  exists (s_ts s). split; [exact (V_inv _ _ _ _ _ DI)|]. split; [exact X|]. split; [exact Eo|].
  assert (Hc : forall w, hascorner (s_ts s) w -> is_finite w = true -> w < lenN vs).
  { intros w Hw Fw. apply Hl. apply Hd. apply (V_done _ _ _ _ _ DI); auto. }
  split; [|exact Hc].
  assert (Perm : Permutation (first :: rest) (rangeN 0 (length vs))).
  { pose proof (bin_sort_permutation bins (normalized vs) (first :: rest)) as K. rewrite normalized_lenN, normalized_len in K. apply K; [lia|exact Hb]. }
  destruct (V_count _ _ _ _ _ DI) as (cs & Nc & Ic & ->). destruct Hk as (l & <- & Ll & Fl & Rl).
  destruct (places_nodup _ _ Fl) as (Nl & Jl).
  set (S := fun u v => same_place (pos u) (pos v)).
  assert (Sy : forall u v, S u v -> S v u) by (intros u v; apply same_place_sym).
  assert (Tr : forall u v w, S u v -> S v w -> S u w) by (intros u v w; apply same_place_trans).
  assert (A : (length cs <= length l)%nat).
  { apply (reps_le S); auto.
    - intros u v Hu Hv Sp. apply Ic in Hu, Hv. destruct Hu as ((i & Ci) & Fu), Hv as ((j & Cj) & Fv).
      apply (I_inj _ _ _ _ (V_inv _ _ _ _ _ DI) i j u v); auto.
    - intros u Hu. apply Ic in Hu. destruct Hu as (Cu & Fu). destruct (Rl u (Hc u Cu Fu)) as (w & Hw & Sw).
      exists w. split; auto. }
  assert (B : (length l <= length cs)%nat).
  { apply (reps_le S); auto.
    intros u Hu. destruct (V_rep _ _ _ _ _ DI u) as (w & Cw & Fw & Sw).
    { apply Hd. apply (Permutation_in _ (Permutation_sym Perm)). apply In_rangeN. pose proof (Ll u Hu). unfold lenN in *. lia. }
    exists w. split; [apply Ic; auto|]. apply Sy. exact Sw. }
  unfold lenN. lia.
Qed.

Lemma out_nodup : NoDup (directed_edges out).
Proof. exact (vm_edges _ _ _ (proj1 (grid_valid vs pos bound G Hid fuel bins out Hf Ho))). Qed.

Lemma grid_euler_le : lenN out + lenN (border_edges out) + 2 <= 2 * k.
Proof.
  destruct run_count as (ts & MI & X & Eo & Lt & _). pose proof out_nodup as Nd. rewrite Eo in Nd |- *.
  pose proof (count_le (normalized vs) px py X ts MI Nd). lia.
Qed.

Lemma grid_euler : (forall v, v < lenN vs -> covered pos out (pos v)) -> convex_area pos out ->
  lenN out + lenN (border_edges out) + 2 = 2 * k.
Proof.
  intros Cv Cx. destruct run_count as (ts & MI & X & Eo & Lt & Hc). pose proof out_nodup as Nd. rewrite Eo in Nd, Cv, Cx |- *.
  pose proof (count_eq (normalized vs) px py X ts MI) as C.
  assert (K : lenN (filter_triangles ts) + lenN (border_edges (filter_triangles ts)) + 4 = lenN ts); [|lia].
  apply C; auto. intros u v Hu Hv Fu Fv. apply Cx; auto.
  split; discriminate.
Qed.

(** The number of border edges is the number of places of hull vertices. *)
Variable b : N.
Hypothesis Hb : hull_places pos (lenN vs) b.
Hypothesis Cv : forall v, v < lenN vs -> covered pos out (pos v).
Hypothesis Cx : convex_area pos out.

Lemma on_hull_same u v : same_place (pos u) (pos v) -> on_hull pos (lenN vs) v -> on_hull pos (lenN vs) u.
Proof.
  intros (Q1 & Q2) (dx & dy & Hd & K). exists dx, dy. split; auto. intros w Hw. rewrite Q1, Q2. auto.
Qed.

Lemma grid_border : lenN (border_edges out) = b.
Proof.
  destruct run_count as (ts & MI & X & Eo & Lt & Hc).
  pose proof (proj1 (grid_valid vs pos bound G Hid fuel bins out Hf Ho)) as V.
  assert (ids : forall t v, In t out -> tri_corner t v -> v < lenN vs).
  { intros ((a, b'), c) v Ht Hv. rewrite Eo in Ht. destruct (out_inv _ _ _ _ Ht) as (i & x & y & z & W & Fa & Fb & Fc).
    destruct (view_he _ _ _ _ _ _ _ _ W) as (W1 & W2 & W3). cbn in Hv.
    destruct Hv as [->|[->| ->]]; apply Hc; auto; exists i; do 2 eexists; [exact W1|exact W2|exact W3]. }
  assert (Sup : forall u v x, In (u, v) (border_edges out) -> x < lenN vs -> (orient (pos u) (pos v) (pos x) <= 0)%Q).
  { intros u v x B Hx.
    assert (E1 : In (u, v) (directed_edges out)) by (apply filter_In in B; tauto).
    destruct (edge_tri out u v E1) as (c & T). destruct (is_tri_corners pos _ out V ids u v c T) as (Lu & Lv & _).
    rewrite Eo in B, Cv, Cx. apply (border_support (normalized vs) px py ts MI u v (pos x) B Cx); auto. }
  destruct Hb as (l & <- & Ll & Fl & Rl). destruct (places_nodup _ _ Fl) as (Nl & Jl).
  set (S := fun u v => same_place (pos u) (pos v)).
  assert (Sy : forall u v, S u v -> S v u) by (intros u v; apply same_place_sym).
  assert (Tr : forall u v w, S u v -> S v w -> S u w) by (intros u v w; apply same_place_trans).
  assert (Nb : NoDup (border_edges out)) by (apply NoDup_filter; exact out_nodup).
  pose proof (border_starts pos _ out V ids Sup Nb) as Ns.
  assert (Starts : forall u, In u (map fst (border_edges out)) -> exists v t, In (u, v) (border_edges out) /\ In t out /\ tri_corner t u).
  { intros u Hu. apply in_map_iff in Hu. destruct Hu as ((u', v) & Q & Hu). cbn in Q. subst u'.
    assert (E1 : In (u, v) (directed_edges out)) by (apply filter_In in Hu; tauto).
    apply in_flat_map in E1. destruct E1 as (((a, b'), c) & Ht & He). exists v, (a, b', c). split; auto. split; auto.
    cbn in He |- *. destruct He as [Q|[Q|[Q|[]]]]; injection Q as <- <-; auto. }
  assert (A : (length (map fst (border_edges out)) <= length l)%nat).
  { apply (reps_le S); auto.
    - intros u v Hu Hv Sp. destruct (Starts u Hu) as (_ & t & _ & Ht & Cu). destruct (Starts v Hv) as (_ & t' & _ & Ht' & Cv').
      apply (vm_merged _ _ _ V t t' u v); auto.
    - intros u Hu. destruct (Starts u Hu) as (v & t & B & Ht & Cu).
      destruct (Rl u (ids t u Ht Cu)) as (w & Hw & Sw); [exact (border_on_hull pos _ out V ids Sup u v B)|].
      exists w. split; auto. }
  assert (B : (length l <= length (map fst (border_edges out)))%nat).
  { apply (reps_le S); auto.
    intros u Hu. destruct (Ll u Hu) as (Lu & Hu').
    destruct (corner_of pos _ out V Cv u Lu) as (t & w & Ht & Cw & Sw).
    destruct (hull_border pos _ out V ids Cv Cx w t Ht Cw (on_hull_same w u Sw Hu')) as (v & E1 & E2).
    exists w. split; [|now apply Sy]. apply in_map_iff. exists (w, v). split; auto. apply border_iff. auto. }
  rewrite map_length in A, B. unfold lenN. lia.
Qed.

Lemma grid_triangles : lenN out + b + 2 = 2 * k.
Proof. rewrite <- grid_border. exact (grid_euler Cv Cx). Qed.
End Grid.

(** ** Vertices in a box *)

Lemma in_box_along a c p q s : in_box a c p -> in_box a c q -> (0 <= s <= 1)%Q -> in_box a c (along p q s).
Proof.
  intros ((A1 & A2) & A3 & A4) ((B1 & B2) & B3 & B4) (S1 & S2). unfold in_box, along. cbn [fst snd].
  assert (K : forall l h u v, (l <= u <= h)%Q -> (l <= v <= h)%Q -> (l <= u + s * (v - u) <= h)%Q).
  { intros l h u v (U1 & U2) (V1 & V2).
    assert (Q1 : (0 <= (1 - s) * (u - l) + s * (v - l))%Q).
    { apply Qle_trans with (0 + 0)%Q; [discriminate|]. apply Qplus_le_compat; apply Qmult_le_0_compat; lra. }
    assert (Q2 : (0 <= (1 - s) * (h - u) + s * (h - v))%Q).
    { apply Qle_trans with (0 + 0)%Q; [discriminate|]. apply Qplus_le_compat; apply Qmult_le_0_compat; lra. }
    split; lra. }
  split; apply K; auto.
Qed.

Lemma grid_box_euler {E : Env} (vs : list vertex) px py bound fuel n a b c d k :
  exact_input vs (pair_at px py) bound -> 2 * lenN vs + 2 <= idmax ->
  (4 * length vs + 12 <= fuel)%nat -> (1 <= bound)%Z -> lenN vs = n + 4 ->
  Permutation [a; b; c; d] [n; n + 1; n + 2; n + 3] ->
  box_corners (pair_at px py a) (pair_at px py b) (pair_at px py c) (pair_at px py d) ->
  (forall v, v < n -> in_box (pair_at px py a) (pair_at px py c) (pair_at px py v)) ->
  different_places (pair_at px py) (lenN vs) k ->
  exists out, triangulation_from_2d_vertices fuel 1 vs = Ret out /\
    lenN out + lenN (border_edges out) + 2 = 2 * k.
Proof.
  intros G Hid Hf Hb Hn Pm Bx Hin Hk.
  destruct (grid_box_last vs px py bound G Hid fuel n a b c d Hf Hb Hn Pm Bx Hin) as (out & Ho & Cv & _).
  exists out. split; auto. apply (grid_euler vs px py bound G Hid fuel 1 k out); auto; [lia| |].
  - intros v Hv. apply Cv. destruct (N.ltb_spec v n) as [|Hge]; auto.
    assert (K : In v [a; b; c; d]).
    { apply (Permutation_in _ (Permutation_sym Pm)). simpl. lia. }
    destruct Bx as (B1 & B2 & B3 & B4 & B5 & B6). unfold in_box.
    destruct K as [<-|[<-|[<-|[<-|[]]]]]; repeat split; lra.
  - intros p q s Hp Hq Hs. apply Cv. apply in_box_along; auto; now apply Cv.
Qed.

Lemma grid_box_triangles {E : Env} (vs : list vertex) px py bound fuel n a b c d k h :
  exact_input vs (pair_at px py) bound -> 2 * lenN vs + 2 <= idmax ->
  (4 * length vs + 12 <= fuel)%nat -> (1 <= bound)%Z -> lenN vs = n + 4 ->
  Permutation [a; b; c; d] [n; n + 1; n + 2; n + 3] ->
  box_corners (pair_at px py a) (pair_at px py b) (pair_at px py c) (pair_at px py d) ->
  (forall v, v < n -> in_box (pair_at px py a) (pair_at px py c) (pair_at px py v)) ->
  different_places (pair_at px py) (lenN vs) k -> hull_places (pair_at px py) (lenN vs) h ->
  exists out, triangulation_from_2d_vertices fuel 1 vs = Ret out /\
    lenN (border_edges out) = h /\ lenN out + h + 2 = 2 * k.
Proof.
  intros G Hid Hf Hb Hn Pm Bx Hin Hk Hh.
  destruct (grid_box_last vs px py bound G Hid fuel n a b c d Hf Hb Hn Pm Bx Hin) as (out & Ho & Cv & _).
  assert (Cv' : forall v, v < lenN vs -> covered (pair_at px py) out (pair_at px py v)).
  { intros v Hv. apply Cv. destruct (N.ltb_spec v n) as [|Hge]; auto.
    assert (K : In v [a; b; c; d]).
    { apply (Permutation_in _ (Permutation_sym Pm)). simpl. lia. }
    destruct Bx as (B1 & B2 & B3 & B4 & B5 & B6). unfold in_box.
    destruct K as [<-|[<-|[<-|[<-|[]]]]]; repeat split; lra. }
  assert (Cx : convex_area (pair_at px py) out).
  { intros p q s Hp Hq Hs. apply Cv. apply in_box_along; auto; now apply Cv. }
  assert (H3 : 3 <= lenN vs) by lia.
  exists out. split; auto. split.
  - exact (grid_border vs px py bound G Hid fuel 1 k out Hf H3 Ho Hk h Hh Cv' Cx).
  - exact (grid_triangles vs px py bound G Hid fuel 1 k out Hf H3 Ho Hk h Hh Cv' Cx).
Qed.

(** Two runs, of any two inputs with the same numbers of places. *)
Lemma grid_same_number {E E' : Env} vs px py bound fuel bins out vs' px' py' bound' fuel' bins' out' k h :
  exact_input (E := E) vs (pair_at px py) bound -> 2 * lenN vs + 2 <= idmax (Env := E) ->
  (4 * length vs + 12 <= fuel)%nat ->
  3 <= lenN vs -> triangulation_from_2d_vertices (E := E) fuel bins vs = Ret out ->
  different_places (pair_at px py) (lenN vs) k -> hull_places (pair_at px py) (lenN vs) h ->
  (forall v, v < lenN vs -> covered (pair_at px py) out (pair_at px py v)) -> convex_area (pair_at px py) out ->
  exact_input (E := E') vs' (pair_at px' py') bound' -> 2 * lenN vs' + 2 <= idmax (Env := E') ->
  (4 * length vs' + 12 <= fuel')%nat ->
  3 <= lenN vs' -> triangulation_from_2d_vertices (E := E') fuel' bins' vs' = Ret out' ->
  different_places (pair_at px' py') (lenN vs') k -> hull_places (pair_at px' py') (lenN vs') h ->
  (forall v, v < lenN vs' -> covered (pair_at px' py') out' (pair_at px' py' v)) -> convex_area (pair_at px' py') out' ->
  lenN out = lenN out'.
Proof.
  intros G Hi Hf H3 Ho Hk Hh Cv Cx G' Hi' Hf' H3' Ho' Hk' Hh' Cv' Cx'.
  pose proof (grid_triangles vs px py bound G Hi fuel bins k out Hf H3 Ho Hk h Hh Cv Cx).
  pose proof (grid_triangles vs' px' py' bound' G' Hi' fuel' bins' k out' Hf' H3' Ho' Hk' h Hh' Cv' Cx'). lia.
Qed.
