(** * CApply: the whole constraint loop, and the output of the constrained triangulation. *)

From Coq Require Import NArith List Bool Lia QArith Lqa Permutation.
From Verif Require Import Base BaseFacts Arith Types Utils Infinite Triangulation Constrained Geom Mesh
  MeshOps Exact ExactC MeshVerts AnyDT SpecCdt AnyCDT Walk Insert DTExact Spec DTOut CSwap CCross CReg CPres.
Import ListNotations.
Local Open Scope N_scope.

Section WithEnv.
Context {E : Env}.
Variable vs : list vertex.
Variables px py : N -> Q.
Hypothesis X : Exact vs px py.
Hypothesis XC : ExactC vs px py.

Notation pos := (hpos px py).
Notation D a b c := (det (pos a) (pos b) (pos c)).
Notation Mesh := (Mesh pos).
Notation Ids := (Ids vs).
Notation vok := (vok vs).
Notation MInv := (MInv vs px py).
Notation VT := (VT vs).
Notation crosses := (crosses px py).
Notation place := (place px py).
Notation CInv := (CInv vs px py).

(** ** The index from vertices to triangles *)

Lemma index_loop ts : MInv ts -> forall rest pre v2t, ts = pre ++ rest -> lenN v2t = lenN vs ->
  (forall w j, j < lenN pre -> corner ts j w -> is_finite w = true ->
     exists t, nthN v2t w = Some t /\ corner ts t w) ->
  exists v2t', index_triangles v2t (lenN pre) rest = Ret v2t' /\ VT ts v2t'.
Proof.
  intros [M I J O]. induction rest as [|t rest IH]; intros pre v2t Ets Lv H; cbn [index_triangles].
  - exists v2t. split; auto. split; auto. intros w (j & Hc) Fw. apply (H w j); auto.
    rewrite app_nil_r in Ets. subst pre. destruct (corner_inv _ _ _ Hc) as (t & k & Ht & _). now apply nthN_lt in Ht.
  - assert (Ht : nthN ts (lenN pre) = Some t).
    { subst ts. rewrite nthN_app2 by lia. now rewrite N.sub_diag. }
    assert (Li : as_id (lenN pre) = lenN pre).
    { apply as_id_small. apply nthN_lt in Ht. pose proof (M_len _ _ M). lia. }
    pose proof (view_exists _ _ _ Ht) as V.
    destruct (Ids_view _ _ _ _ _ _ _ _ _ I V) as (V1 & V2 & V3).
    unfold index_triangle. rewrite Li.
    destruct (set_v2t_spec vs v2t (t_v1 t) (lenN pre) V1 Lv) as (w1 & -> & L1 & S1). cbn [bind].
    destruct (set_v2t_spec vs w1 (t_v2 t) (lenN pre) V2 L1) as (w2 & -> & L2 & S2). cbn [bind].
    destruct (set_v2t_spec vs w2 (t_v3 t) (lenN pre) V3 L2) as (w3 & -> & L3 & S3). cbn [bind].
    replace (lenN pre + 1) with (lenN (pre ++ [t])) by (rewrite lenN_app, lenN_cons, lenN_nil; lia).
    assert (K : forall k, corner ts (lenN pre) (tv t k)) by (intros k; now apply corner_tv).
    apply IH; auto; [now rewrite <- app_assoc|].
    intros w j Hj Hc Fw.
    assert (Old : (w = t_v1 t \/ w = t_v2 t \/ w = t_v3 t) \/ exists t0, nthN v2t w = Some t0 /\ corner ts t0 w).
    { rewrite lenN_app, lenN_cons, lenN_nil in Hj. destruct (N.eq_dec j (lenN pre)) as [->|Hne].
      - left. destruct (corner_inv _ _ _ Hc) as (t' & k & Ht' & <-). rewrite Ht in Ht'. injection Ht' as <-.
        destruct k; simpl; auto.
      - right. apply (H w j); auto. lia. }
    assert (Some_w : exists t0, nthN v2t w = Some t0).
    { apply nthN_Some. rewrite Lv. apply (hascorner_vok vs ts w I); auto. now exists j. }
    destruct Some_w as (t0 & H0).
    rewrite (S3 w Fw), (S2 w Fw), (S1 w Fw), H0. cbn [option_map].
    destruct (N.eqb_spec w (t_v1 t)) as [->|N1].
    { destruct (t_v1 t =? t_v2 t), (t_v1 t =? t_v3 t); cbn [option_map]; eexists; (split; [reflexivity|exact (K I1)]). }
    destruct (N.eqb_spec w (t_v2 t)) as [->|N2].
    { destruct (t_v2 t =? t_v3 t); cbn [option_map]; eexists; (split; [reflexivity|exact (K I2)]). }
    destruct (N.eqb_spec w (t_v3 t)) as [->|N3].
    { eexists; (split; [reflexivity|exact (K I3)]). }
    destruct Old as [Old|(t1 & E1 & C1)]; [tauto|]. exists t1. split; [congruence|auto].
Qed.

Lemma index_ok ts : MInv ts -> exists v2t, index_triangles (repeat 0 (length vs)) 0 ts = Ret v2t /\ VT ts v2t.
Proof.
  intros I. apply (index_loop ts I ts []); auto.
  - now rewrite lenN_repeat.
  - intros w j Hj. rewrite lenN_nil in Hj. lia.
Qed.

(** ** Applying a list of constraints *)
Section Mapped.
Variable m : list N.

Definition mapped (ts : list tri) : Prop := forall v w, nthN m v = Some w -> hascorner ts w /\ is_finite w = true.

Lemma map_edge_inv raw a b : map_edge m raw = Some (Edge a b) <->
  nthN m (efrom raw) = Some a /\ nthN m (eto raw) = Some b.
Proof.
  unfold map_edge. destruct (nthN m (efrom raw)) as [x|], (nthN m (eto raw)) as [y|];
    split; intros H; try discriminate; try (destruct H; discriminate).
  - injection H as -> ->. auto.
  - destruct H as (A & B). injection A as ->. injection B as ->. reflexivity.
Qed.

Lemma fold_sound fuel (P : N -> N -> Prop) : forall l s s',
  CInv P s -> mapped (c_ts s) ->
  (forall raw a b x y, In raw l -> map_edge m raw = Some (Edge a b) -> P x y -> ~ crosses a b x y) ->
  foldM (apply_constraint fuel vs m) l s = Ret s' ->
  CInv P s' /\ (forall w, hascorner (c_ts s) w <-> hascorner (c_ts s') w) /\
  lenN (c_ts s') = lenN (c_ts s) /\
  (forall e, In e (c_set s') -> In e (c_set s) \/ exists raw, In raw l /\ map_edge m raw = Some e).
Proof.
  induction l as [|raw l IH]; intros s s' C Mp HP H; cbn [foldM] in H.
  - apply Ret_inj in H. subst s'. split; auto. split; [tauto|]. split; auto.
  - destruct (apply_constraint fuel vs m s raw) as [s1| | |] eqn:H1; cbn [bind] in H; try discriminate.
    destruct (apply_registers _ _ _ _ _ _ H1) as ((e & He & _) & _). destruct e as (a, b).
    pose proof (proj1 (map_edge_inv raw a b) He) as (Ha & Hb).
    destruct (Mp _ _ Ha) as (Ca & Fa). destruct (Mp _ _ Hb) as (Cb & Fb).
    destruct (apply_constraint_sound vs px py X XC P fuel m s raw s1 a b C) as (C1 & _ & S1 & L1 & K1); auto.
    { unfold getN. now rewrite Ha. } { unfold getN. now rewrite Hb. }
    { intros x y Hp. apply (HP raw a b x y); auto. now left. }
    destruct (IH s1 s' C1) as (C' & K' & L' & S'); auto.
    { intros v w Hv. destruct (Mp v w Hv) as (A & B). split; auto. now apply K1. }
    { intros r u v x y Hr. apply HP. now right. }
    split; auto. split; [intros w; rewrite K1; apply K'|]. split; [congruence|].
    intros e Hin. destruct (S' e Hin) as [Q|(r & Hr & Q)].
    + destruct (S1 e Q) as [Q'| ->]; auto. right. exists raw. split; auto. now left.
    + right. exists r. split; auto. now right.
Qed.

(** A constraint which no later constraint crosses is an edge at the end. *)
Lemma fold_present fuel l1 raw l2 s s' a b :
  CInv (fun _ _ => False) s -> mapped (c_ts s) -> c_set s = [] ->
  map_edge m raw = Some (Edge a b) -> a <> b ->
  (forall r, In r l1 -> map_edge m r <> Some (Edge a b)) ->
  (forall r u v, In r l2 -> map_edge m r = Some (Edge u v) -> ~ crosses u v a b) ->
  foldM (apply_constraint fuel vs m) (l1 ++ raw :: l2) s = Ret s' ->
  medge (c_ts s') a b.
Proof.
  intros C Mp Hs He Hne H1 H2 H. rewrite foldM_app in H. cbn [foldM] in H.
  destruct (foldM (apply_constraint fuel vs m) l1 s) as [s1| | |] eqn:F1; cbn [bind] in H; try discriminate.
  destruct (apply_constraint fuel vs m s1 raw) as [s2| | |] eqn:F2; cbn [bind] in H; try discriminate.
  destruct (fold_sound fuel _ _ _ _ C Mp (fun _ _ _ _ _ _ _ A => match A with end) F1) as (C1 & K1 & _ & S1).
  assert (Mp1 : mapped (c_ts s1)).
  { intros v w Hv. destruct (Mp v w Hv) as (A & B). split; auto. now apply K1. }
  pose proof (proj1 (map_edge_inv raw a b) He) as (Ha & Hb).
  destruct (Mp1 _ _ Ha) as (Ca & Fa). destruct (Mp1 _ _ Hb) as (Cb & Fb).
  destruct (apply_constraint_sound vs px py X XC (fun _ _ => False) fuel m s1 raw s2 a b C1) as (C2 & Pr & _ & _ & K2); auto.
  { unfold getN. now rewrite Ha. } { unfold getN. now rewrite Hb. }
  destruct Pr as [Pr|[Pr|Pr]]; [contradiction| |].
  { exfalso. destruct (S1 _ Pr) as [Q|(r & Hr & Q)]; [now rewrite Hs in Q|]. exact (H1 r Hr Q). }
  assert (C3 : CInv (fun x y => x = a /\ y = b) s2).
  { destruct C2 as [I2 V2 _]. constructor; auto. intros x y (-> & ->). exact Pr. }
  destruct (fold_sound fuel (fun x y => x = a /\ y = b) l2 s2 s' C3) as ([_ _ Kp] & _); auto.
  - intros v w Hv. destruct (Mp1 v w Hv) as (A & B). split; auto. now apply K2.
  - intros r u v x y Hr Hm (-> & ->). exact (H2 r u v Hr Hm).
Qed.

End Mapped.

(** ** What an edge of the mesh excludes *)
Section Edge.
Variables a b : N.
Hypothesis Fa : is_finite a = true.
Hypothesis Fb : is_finite b = true.
Notation onseg := (onseg px py a b).

Lemma edge_tri ts j c x y z s t : Mesh ts -> view ts j a b c x y z -> (0 < s)%Q -> (0 < t)%Q ->
  (det (pos a) (pos b) (onseg s t) == 0 /\ det (pos b) (pos c) (onseg s t) < 0 /\
   det (pos c) (pos a) (onseg s t) < 0)%Q.
Proof.
  intros M V Hs Ht. pose proof (M_cw _ _ M _ _ _ _ _ _ _ V) as C. rewrite !(det_onseg px py).
  destruct (det_zero (pos a) (pos b)) as (_ & Z1 & _). destruct (det_zero (pos b) (pos a)) as (_ & _ & Z2).
  destruct (det_rot3 (pos a) (pos b) (pos c)) as (R1 & R2).
  assert (P1 : (0 < s * - D a b c)%Q) by (apply Qmul_pos; lra).
  assert (P2 : (0 < t * - D a b c)%Q) by (apply Qmul_pos; lra).
  repeat split.
  - rewrite Z1, Z2. ring.
  - rewrite R1. assert (Zb : (det (pos b) (pos c) (pos b) == 0)%Q) by (unfold det; ring). rewrite Zb. lra.
  - rewrite R2. assert (Za : (det (pos c) (pos a) (pos a) == 0)%Q) by (unfold det; ring). rewrite Za. lra.
Qed.

(** Both triangles along the edge. *)
Lemma medge_both ts : Mesh ts -> medge ts a b ->
  (exists i n, he ts i a b n) /\ (exists i n, he ts i b a n).
Proof.
  intros M H.
  assert (K : forall i u v n, he ts i u v n -> is_finite u = true -> he ts n v u i).
  { intros i u v n He Fu. destruct (N.eq_dec n NONE) as [->|Hn]; [|now apply (glue_some pos ts M)].
    destruct (glue_none pos ts M _ _ _ He) as (Q & _). rewrite inf_not_fin, Fu in Q. discriminate. }
  destruct H as [(i & n & He)|(i & n & He)]; split; eauto.
Qed.

(** A closed triangle which contains a point of the open edge has both ends as corners. *)
Lemma edge_holder ts j s t : Mesh ts -> medge ts a b -> (0 < s)%Q -> (0 < t)%Q ->
  inC pos ts j (onseg s t) -> corner ts j a /\ corner ts j b.
Proof.
  intros M Hm Hs Ht HC. destruct (medge_both ts M Hm) as ((i & n & He) & _).
  destruct He as (c & y & z & V). destruct (edge_tri _ _ _ _ _ _ _ _ M V Hs Ht) as (Z & Z1 & Z2).
  assert (Hw : (0 < hw (onseg s t))%Q).
  { unfold CCross.onseg; cbn [hw padd pscale]. rewrite (hw_fin px py a Fa), (hw_fin px py b Fb). lra. }
  destruct (edge_point_closed px py ts i a b c n y z _ j M V Hw Z Z1 Z2 HC) as [-> | ->].
  - destruct (view_he _ _ _ _ _ _ _ _ V) as (H1 & H2 & _). split; eexists; eexists; eauto.
  - destruct (view_he _ _ _ _ _ _ _ _ V) as (H1 & _).
    assert (Hn : n <> NONE).
    { intros ->. destruct (glue_none pos ts M _ _ _ H1) as (Q & _). rewrite inf_not_fin, Fa in Q. discriminate. }
    apply (glue_some pos ts M _ _ _ _ H1) in Hn. destruct Hn as (c' & y' & z' & V').
    destruct (view_he _ _ _ _ _ _ _ _ V') as (G1 & G2 & _). split; eexists; eexists; eauto.
Qed.

(** No other edge crosses it. *)
Lemma edge_uncrossed ts x y : Mesh ts -> Ids ts -> medge ts a b -> medge ts x y -> ~ crosses a b x y.
Proof.
  intros M I Hab Hxy Hc.
  destruct (medge_both ts M Hab) as ((j & n & Hj) & _).
  destruct (Ids_he _ _ _ _ _ _ I Hj) as (Va & Vb).
  destruct (get_vertex vs a Va Fa) as (va & _ & Na). destruct (get_vertex vs b Vb Fb) as (vb & _ & Nb).
  assert (K : forall u v, medge ts u v -> xing px py a b u v -> False).
  { intros u v Hm Hx. pose proof Hx as (S1 & S2 & S3 & S4).
    assert (Hw : (0 < hw (cpt px py a b u v))%Q) by exact (hw_cpt vs px py X a b va vb Na Nb u v Hx).
    assert (HC : inC pos ts j (cpt px py a b u v) /\ (det (pos a) (pos b) (cpt px py a b u v) == 0)%Q).
    { destruct Hj as (c & y' & z' & V). unfold cpt.
      destruct (edge_tri _ _ _ _ _ _ (D u v b) (- D u v a)%Q M V) as (Z & Z1 & Z2); [lra|lra|].
      split; auto. apply (inC_view _ _ _ _ _ _ _ _ _ _ V). repeat split; lra. }
    destruct HC as (HC & Z).
    assert (Hs : sameE a b u v).
    { destruct Hm as [(i & k & (w & y' & z' & V))|(i & k & (w & y' & z' & V))].
      - destruct (cpt_right px py a b u v w Hx (M_cw _ _ M _ _ _ _ _ _ _ V)) as (Q1 & Q2).
        apply (edge_point_edge px py ts i u v w k y' z' _ j a b n M V Hw); auto.
        rewrite (cpt_on px py a b). apply Qle_refl.
      - destruct (cpt_left px py a b u v w Hx (M_cw _ _ M _ _ _ _ _ _ _ V)) as (Q1 & Q2).
        apply sameE_flip2. apply (edge_point_edge px py ts i v u w k y' z' _ j a b n M V Hw); auto.
        pose proof (cpt_on px py a b u v). destruct (det_anti (pos u) (pos v) (cpt px py a b u v)) as (Q & _). lra. }
    destruct Hs as [(<- & <-)|(<- & <-)].
    - destruct (det_zero (pos a) (pos b)) as (_ & Q & _). lra.
    - destruct (det_zero (pos a) (pos b)) as (_ & Q & Q'). lra. }
  destruct (cross_cases vs px py X a b va vb Na Nb x y Hc) as [Hx|Hx].
  - exact (K x y Hxy Hx).
  - apply (K y x); auto. now apply medge_sym.
Qed.

End Edge.

(** ** The returned triangles *)

Lemma emitted_filter ts ids t : In t (emitted ts ids) -> In t (filter_triangles ts).
Proof.
  destruct t as ((a, b), c). intros H. destruct (emitted_In _ _ _ _ _ H) as (i & t & _ & Ht & Ft & Q).
  unfold filter_triangles. rewrite <- Q. apply in_map, filter_In. split; auto. eapply nthN_In; eauto.
Qed.

Lemma fop_emitted (R : N * N * N -> N * N * N -> Prop) ts : forall ids, NoDup ids ->
  (forall i j s t, i <> j -> nthN ts i = Some s -> nthN ts j = Some t ->
     tri_is_finite s = true -> tri_is_finite t = true -> R (tverts s) (tverts t)) ->
  ForallOrdPairs R (emitted ts ids).
Proof.
  intros ids Nd H. induction Nd as [|i ids Hi Nd IH]; [constructor|].
  unfold emitted in *. cbn [flat_map]. destruct (nthN ts i) as [s|] eqn:Hs; [|exact IH].
  destruct (tri_is_finite s) eqn:Fs; [|exact IH]. cbn [app]. constructor; auto.
  apply Forall_forall. intros x Hx. apply in_flat_map in Hx. destruct Hx as (j & Hj & Hx).
  destruct (nthN ts j) as [t|] eqn:Ht; [|destruct Hx]. destruct (tri_is_finite t) eqn:Ft; [|destruct Hx].
  destruct Hx as [<- |[]]. apply (H i j); auto. congruence.
Qed.

Lemma valid_emitted done ts ids : NoDup ids ->
  MInv ts ->
  (forall w, hascorner ts w -> is_finite w = true -> In w done) ->
  (forall v, In v done -> exists w, hascorner ts w /\ is_finite w = true /\ samepos px py w v) ->
  (forall v, v < lenN vs -> In v done) ->
  valid_mesh place (lenN vs) (emitted ts ids).
Proof.
  intros Nd Inv Hd Hrep Hall. destruct (valid_of_inv vs px py X done ts Inv Hd Hrep Hall) as [A _ _ B C].
  destruct Inv as [M I J O]. constructor.
  - intros t Ht. now apply A, (emitted_filter _ ids).
  - intros i j s t p Hne Hs Ht Ps Pt.
    refine (fop_nth (fun s t => tri_inside place s p -> tri_inside place t p -> False) (emitted ts ids)
              (fun x y H A B => H B A) _ i j s t Hne Hs Ht Ps Pt).
    apply fop_emitted; auto. intros k l u v Hkl Hu Hv Fu Fv Iu Iv.
    apply tri_fin_parts in Fu, Fv. destruct Fu as (? & ? & ?). destruct Fv as (? & ? & ?). simpl in Iu, Iv.
    destruct Iu as (? & ? & ?). destruct Iv as (? & ? & ?).
    apply (M_disj _ _ M k l (P3 (fst p) (snd p) 1) Hkl).
    + apply (inT_view _ _ _ _ _ _ _ _ _ _ (view_exists _ _ _ Hu)). repeat split; rewrite det_orient_p; auto.
    + apply (inT_view _ _ _ _ _ _ _ _ _ _ (view_exists _ _ _ Hv)). repeat split; rewrite det_orient_p; auto.
  - unfold directed_edges. apply fop_nodup_flat.
    + intros t Hin. apply emitted_filter in Hin. destruct t as ((a, b), c).
      destruct (out_inv _ _ _ _ Hin) as (i & x & y & z & V & _).
      destruct (D_distinct pos _ _ _ (M_cw _ _ M _ _ _ _ _ _ _ V)) as (Q1 & Q2 & Q3). simpl.
      repeat constructor; simpl; intuition congruence.
    + apply fop_emitted; auto. intros i j u v Hne Hu Hv _ _ (p, q) Hp Hq.
      assert (K : forall k t, nthN ts k = Some t -> In (p, q) (tri_edges (tverts t)) -> exists n, he ts k p q n).
      { intros k t Ht Hin. destruct (view_he _ _ _ _ _ _ _ _ (view_exists _ _ _ Ht)) as (H1 & H2 & H3).
        unfold tverts in Hin. simpl in Hin. destruct Hin as [Q|[Q|[Q|[]]]]; injection Q as <- <-; eauto. }
      destruct (K _ _ Hu Hp) as (n & Hn). destruct (K _ _ Hv Hq) as (n' & Hn').
      apply Hne. exact (edge_share _ _ M _ _ _ _ _ _ Hn Hn').
  - intros t v Ht. apply B. now apply (emitted_filter _ ids).
  - intros s t u v Hs Ht. apply C; now apply (emitted_filter _ ids).
Qed.

End WithEnv.

(** ** The entry point *)
Section Api.
Context {E : Env}.
Variables (fuel : nat) (bins : N) (vs : list vertex).
Variables px py : N -> Q.
Hypothesis X : Exact (normalized vs) px py.
Hypothesis XC : ExactC (normalized vs) px py.
Hypothesis Hid : 2 * lenN vs + 2 <= idmax.
Hypothesis Hf : (4 * length vs + 12 <= fuel)%nat.

Notation at_ := (place px py).

(** The parts of a run which returns a list. *)
Record CdtRun (cs : list edge) (out : list (N * N * N)) (m : list N) (ts : list tri) (cset : list edge) : Prop := {
  R_mesh : MInv (normalized vs) px py ts;
  R_map : forall v, v < lenN vs -> exists w, nthN m v = Some w /\ hascorner ts w /\ is_finite w = true /\
            samepos px py w v;
  R_len : lenN m = lenN vs;
  R_corner : forall w, hascorner ts w -> is_finite w = true -> w < lenN vs;
  R_cs : forall c, In c cs -> efrom c < lenN vs /\ eto c < lenN vs;
  R_present : forall l1 raw l2 a b, cs = l1 ++ raw :: l2 -> map_edge m raw = Some (Edge a b) -> a <> b ->
    (forall r, In r l1 -> map_edge m r <> Some (Edge a b)) ->
    (forall r u v, In r l2 -> map_edge m r = Some (Edge u v) -> ~ crosses px py u v a b) ->
    medge ts a b;
  R_cset : forall e, In e cset <-> efrom e <> eto e /\ exists raw, In raw cs /\ map_edge m raw = Some e;
  R_out : exists ids, NoDup ids /\ (forall i, In i ids <-> kept ts cset i) /\
    (forall i, In i ids -> i < lenN ts) /\ out = emitted ts ids;
  R_src : exists s, wrap_and_triangulate fuel bins (normalized vs) (Some (rangeN 0 (length vs))) = Ret s /\
    s_map s = Some m /\ apply_constraints fuel (normalized vs) (s_ts s) cs m = Ret (ts, cset)
}.

Lemma cdt_run cs out : 3 <= lenN vs ->
  constrained_triangulation_from_2d_vertices fuel bins vs cs = Ret out ->
  exists m ts cset, CdtRun cs out m ts cset.
Proof.
  intros H3 H. apply cdt_inv in H. destruct H as [(L & _)|H]; [lia|].
  destruct H as (_ & nvs & sc & xm & ym & s & m & ts & cset & NV & LN & W & SM & AC & Fl).
  assert (EN : nvs = normalized vs) by (unfold normalized; now rewrite NV). rewrite EN in *. clear EN NV.
  exists m, ts, cset.
  assert (LN' : lenN (normalized vs) = lenN vs) by (unfold lenN; now rewrite LN).
  assert (Hb : exists order, bin_sort bins (normalized vs) = Ret order).
  { unfold wrap_and_triangulate in W. destruct (bin_sort bins (normalized vs)); try discriminate. eauto. }
  destruct Hb as (order & Hb).
  pose proof (wrap_post (normalized vs) px py X fuel bins _ order Hb (or_intror eq_refl)) as Wp.
  rewrite W in Wp. cbn [post] in Wp.
  destruct Wp as (done & Hd & Ld & DI); [lia|lia|rewrite LN; exact Hf|].
  destruct DI as [A B C D1 R Mp]. destruct (Mp m SM) as (Lm & Hm & _).
  assert (Fin : forall v, v < lenN vs -> is_finite v = true).
  { intros v Hv. unfold is_finite. apply N.ltb_lt. pose proof (X_len _ _ _ X). lia. }
  assert (MpM : mapped m (s_ts s)).
  { intros v w Hv. pose proof (nthN_lt _ _ _ Hv) as Lv. rewrite Lm, LN' in Lv.
    destruct (Hm v) as (w' & Q & Cw & Fw & _); [apply Hd; lia|lia|]. rewrite Hv in Q. injection Q as <-. auto. }
  pose proof AC as AC0. unfold apply_constraints in AC.
  destruct (index_ok (normalized vs) px py (s_ts s) A) as (v2t & Ix & V). rewrite Ix in AC. cbn [bind] in AC.
  destruct (foldM (apply_constraint fuel (normalized vs) m) cs (CSt (s_ts s) v2t [])) as [s'| | |] eqn:Fo;
    cbn [bind] in AC; try discriminate.
  apply Ret_inj in AC. injection AC as <- <-.
  assert (C0 : CInv (normalized vs) px py (fun _ _ => False) (CSt (s_ts s) v2t [])) by (constructor; auto; contradiction).
  destruct (fold_sound (normalized vs) px py X XC m fuel _ _ _ _ C0 MpM (fun _ _ _ _ _ _ _ A => match A with end) Fo)
    as (C1 & K1 & L1 & S1). cbn [c_ts c_set] in *.
  destruct (fold_registers _ _ _ _ _ _ Fo) as (_ & Rg).
  constructor.
  - exact (C_inv _ _ _ _ _ C1).
  - intros v Hv. destruct (Hm v) as (w & Q & Cw & Fw & Sp); [apply Hd; lia|lia|]. exists w. split; auto.
    split; [now apply K1|auto].
  - now rewrite Lm.
  - intros w Hw Fw. rewrite <- LN'. apply Hd, D1; auto. now apply K1.
  - intros c Hc. destruct (Rg c Hc) as (e & He & _). destruct e as (a, b). apply map_edge_inv in He.
    destruct He as (Ha & Hb'). apply nthN_lt in Ha, Hb'. lia.
  - intros l1 raw l2 a b Ec He Hne H1 H2. subst cs.
    exact (fold_present (normalized vs) px py X XC m fuel l1 raw l2 _ _ a b C0 MpM eq_refl He Hne H1 H2 Fo).
  - intros e. split.
    + intros He. split; [|destruct (S1 e He) as [[]|Q]; exact Q].
      clear - Fo He.
      assert (Q : forall e, In e (c_set s') -> efrom e <> eto e); [|now apply Q].
      eapply (foldM_invariant _ (fun s => forall e, In e (c_set s) -> efrom e <> eto e) (fun _ => True));
        [|auto| |exact Fo]; [|intros e' []].
      intros s0 raw s1 I0 _ H e' He'. unfold apply_constraint in H. inv_Ret H. inv_Ret H.
      destruct ((a =? a0) || edge_mem (c_set s0) (Edge a a0)) eqn:Q; [inversion H; subst; auto|].
      apply orb_false_iff in Q. destruct Q as (Q & _). apply N.eqb_neq in Q.
      assert (Cs : c_set s1 = Edge a a0 :: c_set s0).
      { inv_Ret H. inv_Ret H. destruct a2 as [|d l]; [inversion H; reflexivity|].
        inv_Ret H. destruct a2 as ((t1, v1), news). inv_Ret H. destruct a2 as (t2, v2'). inversion H; reflexivity. }
      rewrite Cs in He'. destruct He' as [<- |He']; [exact Q|now apply I0].
    + intros (Hne & raw & Hr & He). destruct (Rg raw Hr) as (e' & He' & Q). rewrite He in He'. injection He' as <-.
      destruct Q; [contradiction|auto].
  - exact (cdt_filter_exact _ _ _ _ Fl).
  - exists s. rewrite LN in W. auto.
Qed.

Lemma cdt_valid cs out :
  constrained_triangulation_from_2d_vertices fuel bins vs cs = Ret out ->
  valid_mesh at_ (lenN vs) out.
Proof.
  intros H. destruct (N.ltb_spec (lenN vs) 3) as [L|L].
  - unfold constrained_triangulation_from_2d_vertices in H. rewrite (proj2 (N.ltb_lt _ _) L) in H.
    apply Ret_inj in H. subst out. constructor; simpl; try contradiction; try constructor.
    intros [|i] j s t p _ Q; discriminate Q.
  - destruct (cdt_run cs out L H) as (m & ts & cset & [R1 R2 R3 R4 _ _ _ (ids & Nd & _ & _ & ->) _]).
    assert (LN' : lenN (normalized vs) = lenN vs).
    { unfold normalized. pose proof (normalize_length vs) as Ln.
      destruct (normalize_vertices_coordinates vs) as (((nvs, c1), c2), c3). specialize (Ln _ _ _ _ eq_refl).
      unfold lenN. cbn [fst]. now rewrite Ln. }
    rewrite <- LN'. apply (valid_emitted (normalized vs) px py X (rangeN 0 (length vs)) ts ids); auto.
    + intros w Hw Fw. apply In_rangeN. specialize (R4 w Hw Fw). unfold lenN in R4. lia.
    + intros v Hv. apply In_rangeN in Hv. destruct (R2 v) as (w & _ & Q); [unfold lenN; lia|]. eauto.
    + intros v Hv. apply In_rangeN. unfold lenN in *. lia.
Qed.

End Api.
