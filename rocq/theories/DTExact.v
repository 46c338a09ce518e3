(** * DTExact: the whole incremental loop with exact predicates. *)

From Coq Require Import NArith List Bool Lia QArith Lqa Permutation.
From Verif Require Import Base BaseFacts Arith Types Utils Infinite Triangulation Geom Mesh
  MeshOps Exact AnyDT MeshVerts Walk Insert.
Import ListNotations.
Local Open Scope N_scope.

Section WithEnv.
Context {E : Env}.
Variable vs : list vertex.
Variables px py : N -> Q.
Hypothesis X : Exact vs px py.

Notation pos := (hpos px py).
Notation D a b c := (det (pos a) (pos b) (pos c)).
Notation Mesh := (Mesh pos).
Notation Ids := (Ids vs).
Notation vok := (vok vs).

(** ** The initial mesh *)

Lemma initial_cases first i t : nthN (create_initial_triangles first) i = Some t ->
  (i = 0 /\ t = Tri first INF0 INF1 3 NONE 1) \/ (i = 1 /\ t = Tri first INF1 INF2 0 NONE 2) \/
  (i = 2 /\ t = Tri first INF2 INF3 1 NONE 3) \/ (i = 3 /\ t = Tri first INF3 INF0 2 NONE 0).
Proof.
  intros H. pose proof (nthN_lt _ _ _ H) as L. change (lenN _) with 4 in L.
  assert (C : i = 0 \/ i = 1 \/ i = 2 \/ i = 3) by lia.
  destruct C as [-> |[-> |[-> | ->]]]; simpl in H; injection H as <-; tauto.
Qed.

Lemma inf_facts : is_finite INF0 = false /\ is_finite INF1 = false /\ is_finite INF2 = false /\ is_finite INF3 = false /\
  INF0 < INF1 /\ INF1 < INF2 /\ INF2 < INF3.
Proof.
  pose proof (X_idmax _ _ _ X). unfold is_finite.
  repeat split; try (apply N.ltb_ge); unfold INF0, INF1, INF2, INF3; lia.
Qed.

Lemma pos_inf : pos INF0 = P3 (-1) 0 0 /\ pos INF1 = P3 0 1 0 /\ pos INF2 = P3 1 0 0 /\ pos INF3 = P3 0 (-1) 0.
Proof.
  destruct inf_facts as (A & B & C & D & L1 & L2 & L3). unfold hpos. rewrite A, B, C, D.
  rewrite N.eqb_refl.
  assert (Q1 : (INF1 =? INF0) = false) by (apply N.eqb_neq; lia).
  assert (Q2 : (INF2 =? INF0) = false) by (apply N.eqb_neq; lia).
  assert (Q3 : (INF2 =? INF1) = false) by (apply N.eqb_neq; lia).
  assert (Q4 : (INF3 =? INF0) = false) by (apply N.eqb_neq; lia).
  assert (Q5 : (INF3 =? INF1) = false) by (apply N.eqb_neq; lia).
  assert (Q6 : (INF3 =? INF2) = false) by (apply N.eqb_neq; lia).
  rewrite Q1, Q2, Q3, Q4, Q5, Q6, !N.eqb_refl. auto.
Qed.

Lemma initial_view first i a b c x y z : view (create_initial_triangles first) i a b c x y z ->
  exists u v n m, view (create_initial_triangles first) i first u v n NONE m /\
   ((i = 0 /\ u = INF0 /\ v = INF1 /\ n = 3 /\ m = 1) \/ (i = 1 /\ u = INF1 /\ v = INF2 /\ n = 0 /\ m = 2) \/
    (i = 2 /\ u = INF2 /\ v = INF3 /\ n = 1 /\ m = 3) \/ (i = 3 /\ u = INF3 /\ v = INF0 /\ n = 2 /\ m = 0)).
Proof.
  intros V. destruct (view_nth _ _ _ _ _ _ _ _ V) as (t & Ht).
  pose proof (view_exists _ _ _ Ht) as V0.
  destruct (initial_cases _ _ _ Ht) as [(-> & ->)|[(-> & ->)|[(-> & ->)|(-> & ->)]]];
    simpl in V0; do 4 eexists; (split; [exact V0|]); tauto.
Qed.

Lemma initial_views first :
  view (create_initial_triangles first) 0 first INF0 INF1 3 NONE 1 /\
  view (create_initial_triangles first) 1 first INF1 INF2 0 NONE 2 /\
  view (create_initial_triangles first) 2 first INF2 INF3 1 NONE 3 /\
  view (create_initial_triangles first) 3 first INF3 INF0 2 NONE 0.
Proof.
  repeat split.
  - exact (view_exists (create_initial_triangles first) 0 _ eq_refl).
  - exact (view_exists (create_initial_triangles first) 1 _ eq_refl).
  - exact (view_exists (create_initial_triangles first) 2 _ eq_refl).
  - exact (view_exists (create_initial_triangles first) 3 _ eq_refl).
Qed.

Lemma initial_mesh first : is_finite first = true -> 4 <= idmax -> Mesh (create_initial_triangles first).
Proof.
  intros Ff H4. destruct pos_inf as (P0 & P1 & P2' & P3').
  destruct inf_facts as (J0 & J1 & J2 & J3 & L1 & L2 & L3).
  pose proof (hpos_fin px py first Ff) as Pf.
  pose proof (initial_views first) as (V0 & V1 & V2 & V3).
  constructor.
  - exact H4.
  - intros i a b c x y z V.
    destruct (initial_view _ _ _ _ _ _ _ _ V) as (u & v & n & m & Vf & K).
    assert (C : (D first u v < 0)%Q).
    { unfold det. destruct K as [(_ & -> & -> & _)|[(_ & -> & -> & _)|[(_ & -> & -> & _)|(_ & -> & -> & _)]]];
        rewrite Pf, ?P0, ?P1, ?P2', ?P3'; simpl; lra. }
    pose proof (det_rot3 (pos first) (pos u) (pos v)).
    destruct (view_fun _ _ _ _ _ _ _ _ _ _ _ _ _ _ Vf V) as [(-> & -> & -> & _)|[(-> & -> & -> & _)|(-> & -> & -> & _)]]; lra.
  - intros i j p Hne (a & b & c & x & y & z & Va & Ha) (a' & b' & c' & x' & y' & z' & Vb & Hb).
    destruct (initial_view _ _ _ _ _ _ _ _ Va) as (u & v & n & m & Vf & K).
    destruct (initial_view _ _ _ _ _ _ _ _ Vb) as (u' & v' & n' & m' & Vf' & K').
    assert (A : in_open (pos first) (pos u) (pos v) p).
    { apply (inT_view _ _ _ _ _ _ _ _ _ _ Vf). apply (inT_view _ _ _ _ _ _ _ _ _ _ Va). auto. }
    assert (B : in_open (pos first) (pos u') (pos v') p).
    { apply (inT_view _ _ _ _ _ _ _ _ _ _ Vf'). apply (inT_view _ _ _ _ _ _ _ _ _ _ Vb). auto. }
    destruct A as (A1 & A2 & A3). destruct B as (B1 & B2 & B3).
    unfold det in *. rewrite Pf in *.
    destruct K as [(-> & -> & -> & _)|[(-> & -> & -> & _)|[(-> & -> & -> & _)|(-> & -> & -> & _)]]];
    destruct K' as [(-> & -> & -> & _)|[(-> & -> & -> & _)|[(-> & -> & -> & _)|(-> & -> & -> & _)]]];
      try congruence; rewrite ?P0, ?P1, ?P2', ?P3' in *; simpl in *; lra.
  - intros i u v n (c & y & z & V).
    destruct (initial_view _ _ _ _ _ _ _ _ V) as (u' & v' & n' & m & Vf & K).
    assert (In0 : is_infinite INF0 = true) by now rewrite inf_not_fin, J0.
    assert (In1 : is_infinite INF1 = true) by now rewrite inf_not_fin, J1.
    assert (In2 : is_infinite INF2 = true) by now rewrite inf_not_fin, J2.
    assert (In3 : is_infinite INF3 = true) by now rewrite inf_not_fin, J3.
    destruct (view_he _ _ _ _ _ _ _ _ V0) as (H01 & _ & H03). destruct (view_he _ _ _ _ _ _ _ _ V1) as (H11 & _ & H13).
    destruct (view_he _ _ _ _ _ _ _ _ V2) as (H21 & _ & H23). destruct (view_he _ _ _ _ _ _ _ _ V3) as (H31 & _ & H33).
    destruct K as [(-> & -> & -> & -> & ->)|[(-> & -> & -> & -> & ->)|[(-> & -> & -> & -> & ->)|(-> & -> & -> & -> & ->)]]];
    (destruct (view_fun _ _ _ _ _ _ _ _ _ _ _ _ _ _ Vf V) as [(-> & -> & _ & -> & _)|[(-> & -> & _ & -> & _)|(-> & -> & _ & -> & _)]];
      [right|left; auto|right]); assumption.
  - intros p Hp.
    set (dx := (hx p - px first * hw p)%Q). set (dy := (hy p - py first * hw p)%Q).
    destruct (Qlt_le_dec dx 0) as [Sx|Sx], (Qlt_le_dec dy 0) as [Sy|Sy]; unfold dx, dy in *.
    + exists 3. apply (inC_view _ _ _ _ _ _ _ _ _ _ V3). unfold in_closed, det. rewrite Pf, P0, P3'; simpl. repeat split; lra.
    + exists 0. apply (inC_view _ _ _ _ _ _ _ _ _ _ V0). unfold in_closed, det. rewrite Pf, P0, P1; simpl. repeat split; lra.
    + exists 2. apply (inC_view _ _ _ _ _ _ _ _ _ _ V2). unfold in_closed, det. rewrite Pf, P2', P3'; simpl. repeat split; lra.
    + exists 1. apply (inC_view _ _ _ _ _ _ _ _ _ _ V1). unfold in_closed, det. rewrite Pf, P1, P2'; simpl. repeat split; lra.
Qed.

(** ** Invariants of the main loop *)

Definition hascorner (ts : list tri) (w : N) : Prop := exists i, corner ts i w.

Definition outer (ts : list tri) : Prop :=
  (exists i, he ts i INF0 INF1 NONE) /\ (exists i, he ts i INF1 INF2 NONE) /\
  (exists i, he ts i INF2 INF3 NONE) /\ (exists i, he ts i INF3 INF0 NONE).

Record MInv (ts : list tri) : Prop := {
  I_mesh : Mesh ts;
  I_ids : Ids ts;
  I_inj : PosInj px py ts;
  I_outer : outer ts
}.

(** What a split of one or two triangles at the new vertex P produces. *)
Record Split (ts ts' : list tri) (P : N) (news : list (N * tri)) (st : stack) : Prop := {
  S_mesh : Mesh ts';
  S_cases : forall j t', nthN ts' j = Some t' ->
      In (j, t') news \/ exists t, nthN ts j = Some t /\ forall k, tv t' k = tv t k;
  S_new : forall j t', In (j, t') news ->
      nthN ts' j = Some t' /\ t_v1 t' = P /\ hascorner ts (t_v2 t') /\ hascorner ts (t_v3 t');
  S_stack : forall x y, In (x, y) st <-> exists t, In (x, t) news /\ t_n23 t = y /\ y <> NONE;
  S_nodup : NoDup (map fst st);
  S_one : news <> [];
  S_keep : forall w, hascorner ts w -> hascorner ts' w;
  S_border : forall u v, (exists i, he ts i u v NONE) -> exists i, he ts' i u v NONE
}.

Lemma corner_tv ts i t k : nthN ts i = Some t -> corner ts i (tv t k).
Proof. intros H. exists (tv t (next_cw k)), (tn t k). now apply he_at. Qed.

Lemma corner_inv ts i w : corner ts i w -> exists t k, nthN ts i = Some t /\ tv t k = w.
Proof. intros (u & n & H). apply he_inv in H. destruct H as (t & k & Ht & Eu & _). eauto. Qed.

Lemma hascorner_vok ts w : Ids ts -> hascorner ts w -> vok w.
Proof.
  intros I (i & H). apply corner_inv in H. destruct H as (t & k & Ht & <-). eapply Ids_tv; eauto.
Qed.

Lemma split_ids ts ts' P news st : Ids ts -> vok P -> Split ts ts' P news st -> Ids ts'.
Proof.
  intros I VP S t' Ht'. apply In_nthN in Ht'. destruct Ht' as (j & Ht').
  destruct (S_cases _ _ _ _ _ S _ _ Ht') as [Hn|(t & Ht & Hv)].
  - destruct (S_new _ _ _ _ _ S _ _ Hn) as (_ & H1 & H2 & H3).
    apply (hascorner_vok _ _ I) in H2, H3. unfold tri_all. rewrite H1. auto.
  - pose proof (Hv I1) as v1. pose proof (Hv I2) as v2. pose proof (Hv I3) as v3. simpl in *.
    unfold tri_all. rewrite v1, v2, v3. apply I. eapply nthN_In; eauto.
Qed.

Lemma split_corners ts ts' P news st w : Split ts ts' P news st ->
  (hascorner ts' w <-> w = P \/ hascorner ts w).
Proof.
  intros S. split.
  - intros (j & H). apply corner_inv in H. destruct H as (t' & k & Ht' & <-).
    destruct (S_cases _ _ _ _ _ S _ _ Ht') as [Hn|(t & Ht & Hv)].
    + destruct (S_new _ _ _ _ _ S _ _ Hn) as (_ & H1 & H2 & H3).
      destruct k; simpl; auto.
    + right. exists j. rewrite Hv. now apply corner_tv.
  - intros [->|H]; [|now apply (S_keep _ _ _ _ _ S)].
    destruct news as [|(j, t') news]; [now destruct (S_one _ _ _ _ _ S)|].
    destruct (S_new _ _ _ _ _ S j t' (or_introl eq_refl)) as (Ht & <- & _).
    exists j. exact (corner_tv _ _ _ I1 Ht).
Qed.

Lemma split_rinv ts ts' P news st :
  Ids ts -> vok P -> ~ hascorner ts P -> Split ts ts' P news st -> Rinv vs px py ts' P st.
Proof.
  intros I VP NP S. pose proof (S_mesh _ _ _ _ _ S) as M'.
  assert (First : forall i t k, nthN ts' i = Some t -> tv t k = P -> k = I1 /\ In (i, t) news).
  { intros i t k Ht Hk. destruct (S_cases _ _ _ _ _ S _ _ Ht) as [Hn|(t0 & Ht0 & Hv)].
    - split; auto. destruct (S_new _ _ _ _ _ S _ _ Hn) as (_ & H1 & _).
      pose proof (M_cw _ _ M' _ _ _ _ _ _ _ (view_exists _ _ _ Ht)) as C.
      destruct (D_distinct pos _ _ _ C) as (Q1 & Q2 & Q3).
      destruct k; simpl in Hk; auto; congruence.
    - exfalso. apply NP. exists i. rewrite <- Hk, Hv. now apply corner_tv. }
  constructor; auto.
  - eapply split_ids; eauto.
  - intros i t k Ht Hk. now destruct (First i t k Ht Hk).
  - intros x y Hin. apply (S_stack _ _ _ _ _ S) in Hin. destruct Hin as (t & Hn & <- & Hy).
    destruct (S_new _ _ _ _ _ S _ _ Hn) as (Ht & <- & _).
    exists (t_v2 t), (t_v3 t), (t_n31 t), (t_n12 t). split; auto. rewrite Ht. now destruct t.
  - exact (S_nodup _ _ _ _ _ S).
  - intros x y a b c n1 n2 n3 n4 Hx V. left. apply (S_stack _ _ _ _ _ S).
    destruct (First x _ I1 Hx eq_refl) as (_ & Hn). eexists. split; [exact Hn|]. split; [reflexivity|].
    apply view_lt in V. pose proof (M_len _ _ M'). unfold NONE. lia.
Qed.

Lemma nodup_push st x n : (forall y, ~ In (x, y) st) -> NoDup (map fst st) -> NoDup (map fst (push_if st x n)).
Proof. apply push_if_fst. Qed.

(** Splitting the triangle that contains P strictly. *)
Lemma split3_ok ts i P :
  Mesh ts -> lenN ts + 2 <= idmax -> inT pos ts i (pos P) ->
  exists ts' st news, split_triangle_into_three ts i P [] = Ret (ts', st) /\
    Split ts ts' P news st /\ lenN ts' = lenN ts + 2 /\ (length st <= 4)%nat.
Proof.
  intros M Hmax Hin.
  assert (Hi : i < lenN ts) by (destruct Hin as (? & ? & ? & ? & ? & ? & V & _); now apply view_lt in V).
  destruct (nthN_Some ts i Hi) as (t & Ht).
  pose proof (view_exists _ _ _ Ht) as V.
  apply (inT_view _ _ _ _ _ _ _ _ _ _ V) in Hin.
  destruct (split3_spec px py ts i P [] t M Ht Hmax) as (ts' & Hs & Hl & A & B & C & O).
  pose proof (mesh_split3 pos ts ts' i P t M Ht Hin Hl Hmax A B C O) as M'.
  set (L := lenN ts) in *.
  assert (N1 : i <> L) by lia. assert (N2 : i <> L + 1) by lia. assert (N3 : L <> L + 1) by lia.
  exists ts'. eexists. exists [(i, Tri P (t_v3 t) (t_v1 t) L (t_n31 t) (L + 1));
      (L, Tri P (t_v2 t) (t_v3 t) (L + 1) (t_n23 t) i);
      (L + 1, Tri P (t_v1 t) (t_v2 t) i (t_n12 t) L)].
  split; [exact Hs|].
  assert (Out : forall j t0, j <> i -> nthN ts j = Some t0 -> exists t', nthN ts' j = Some t' /\
             (forall k, tv t' k = tv t0 k) /\ (forall k, tn t0 k = NONE -> tn t' k = NONE)).
  { intros j t0 Hj Ht0. eexists. split; [rewrite O by (auto; now apply nthN_lt in Ht0); rewrite Ht0; reflexivity|].
    split; [intros k; now rewrite !relink_tv|].
    intros k Hk. rewrite relink2_tn.
    - rewrite Hk. assert (Q : (NONE =? i) = false) by (apply N.eqb_neq; unfold NONE; lia).
      now rewrite Q, !andb_false_r.
    - apply (slot_unique pos ts j t0 i M Ht0). unfold NONE. lia.
    - apply (slot_unique pos ts j t0 i M Ht0). unfold NONE. lia.
    - intros _ _. lia. }
  split; [|split; [exact Hl|]].
  - constructor; auto.
    + intros j t' Ht'.
      destruct (N.eq_dec j i) as [->|Q1]; [left; left; congruence|].
      destruct (N.eq_dec j L) as [->|Q2]; [left; right; left; congruence|].
      destruct (N.eq_dec j (L + 1)) as [->|Q3]; [left; right; right; left; congruence|].
      right. assert (Hj : j < L) by (apply nthN_lt in Ht'; rewrite Hl in Ht'; lia).
      destruct (nthN_Some ts j Hj) as (t0 & Ht0).
      destruct (Out j t0 Q1 Ht0) as (t2 & Ht2 & Hv & _).
      assert (t2 = t') by congruence. subst t2. eauto.
    + pose proof (corner_tv ts i t I1 Ht) as K1. pose proof (corner_tv ts i t I2 Ht) as K2.
      pose proof (corner_tv ts i t I3 Ht) as K3. simpl in K1, K2, K3. unfold hascorner.
      intros j t' [Q|[Q|[Q|[]]]]; injection Q as <- <-; simpl; eauto 8.
    + intros x y. rewrite !push_if_In. simpl. split.
      * intros [(-> & -> & H)|[(-> & -> & H)|[(-> & -> & H)|[]]]]; eexists; (split; [eauto|]); auto.
      * intros (t' & [Q|[Q|[Q|[]]]] & H); injection Q as <- <-; simpl in H; destruct H as (<- & H); intuition auto.
    + repeat apply nodup_push; try (now constructor); intros y; rewrite ?push_if_In; simpl; intuition lia.
    + discriminate.
    + intros w (j & H). destruct (N.eq_dec j i) as [->|Q1].
      * destruct (corner_cases px py _ _ _ _ _ _ _ _ _ V H) as [-> |[-> | ->]].
        -- exists i. exact (corner_tv ts' _ _ I3 A).
        -- exists L. exact (corner_tv ts' _ _ I2 B).
        -- exists i. exact (corner_tv ts' _ _ I2 A).
      * apply corner_inv in H. destruct H as (t0 & k & Ht0 & <-).
        destruct (Out j t0 Q1 Ht0) as (t2 & Ht2 & Hv & _). exists j. rewrite <- Hv. now apply corner_tv.
    + intros u v (j & H). destruct (N.eq_dec j i) as [->|Q1].
      * destruct (he_cases _ _ _ _ _ _ _ _ _ _ _ V H) as [(-> & -> & Q)|[(-> & -> & Q)|(-> & -> & Q)]]; rewrite Q.
        -- exists (L + 1). exact (he_at ts' _ _ I2 C).
        -- exists L. exact (he_at ts' _ _ I2 B).
        -- exists i. exact (he_at ts' _ _ I2 A).
      * apply he_inv in H. destruct H as (t0 & k & Ht0 & Eu & Ev & En).
        destruct (Out j t0 Q1 Ht0) as (t2 & Ht2 & Hv & Hn). exists j.
        rewrite <- (Hn k En), <- Eu, <- Ev, <- !Hv. now apply he_at.
  - do 3 (etransitivity; [apply push_if_length|apply le_n_S]). simpl. lia.
Qed.

(** Splitting the two triangles of the edge that contains P strictly. *)
Lemma split4_ok ts i k t P :
  Mesh ts -> lenN ts + 2 <= idmax -> nthN ts i = Some t -> is_finite P = true ->
  (D (tv t k) (tv t (next_cw k)) P == 0)%Q ->
  (D (tv t (next_cw k)) (tv t (next_ccw k)) P < 0)%Q ->
  (D (tv t (next_ccw k)) (tv t k) P < 0)%Q ->
  exists ts' st news, split_quad_into_four ts i k (tedge t k) P [] = Ret (ts', st) /\
    Split ts ts' P news st /\ lenN ts' = lenN ts + 2 /\ (length st <= 4)%nat.
Proof.
  intros M Hmax Ht FP Z N1 N2.
  pose proof (view_at ts i t k Ht) as V1.
  assert (Hw : (0 < hw (pos P))%Q) by (rewrite hw_fin by auto; lra).
  pose proof (edge_point_neighbor px py _ _ _ _ _ _ _ _ _ M V1 Hw Z) as Hn.
  destruct (view_he _ _ _ _ _ _ _ _ V1) as (E1 & _ & _).
  destruct (glue_some _ _ M _ _ _ _ E1 Hn) as (d & n3 & n4 & V2).
  assert (Hr : rot t k = Tri (tv t k) (tv t (next_cw k)) (tv t (next_ccw k)) (tn t k) (tn t (next_cw k)) (tn t (next_ccw k))) by reflexivity.
  rewrite tedge_eq.
  set (u := tv t k) in *. set (v := tv t (next_cw k)) in *. set (c := tv t (next_ccw k)) in *.
  set (t2 := tn t k) in *. set (n1 := tn t (next_cw k)) in *. set (n2 := tn t (next_ccw k)) in *.
  destruct (split4_spec px py ts i k P [] t t2 u v c d n1 n2 n3 n4 M Ht Hmax Hr V2)
    as (ts' & Hs & Hl & A & B & C & G & O).
  pose proof (mesh_split4 pos ts ts' i t2 P u v c d n1 n2 n3 n4 M V1 V2 Z N1 N2 Hl Hmax A B C G O) as M'.
  set (L := lenN ts) in *.
  assert (Hi : i < L) by (now apply nthN_lt in Ht).
  assert (Ht2 : t2 < L) by (now apply view_lt in V2).
  assert (Di : i <> t2).
  { intros Q. rewrite <- Q in E1. apply (no_self _ _ M _ _ _ E1). unfold NONE; lia. }
  exists ts'. eexists. exists [(i, Tri P c u L n2 t2); (t2, Tri P u d i n3 (L + 1));
      (L, Tri P v c (L + 1) n1 i); (L + 1, Tri P d v t2 n4 L)].
  split; [exact Hs|].
  assert (Out : forall j t0, j <> i -> j <> t2 -> nthN ts j = Some t0 -> exists t', nthN ts' j = Some t' /\
             (forall k, tv t' k = tv t0 k) /\ (forall k, tn t0 k = NONE -> tn t' k = NONE)).
  { intros j t0 Hj Hj2 Ht0. eexists. split; [rewrite O by (auto; now apply nthN_lt in Ht0); rewrite Ht0; reflexivity|].
    split; [intros k0; now rewrite !relink_tv|].
    intros k0 Hk. rewrite relink2_tn.
    - rewrite Hk. assert (Q : (NONE =? i) = false) by (apply N.eqb_neq; unfold NONE; flia).
      assert (Q' : (NONE =? t2) = false) by (apply N.eqb_neq; unfold NONE; flia).
      now rewrite Q, Q', !andb_false_r.
    - apply (slot_unique pos ts j t0 i M Ht0). unfold NONE. flia.
    - apply (slot_unique pos ts j t0 t2 M Ht0). unfold NONE. flia.
    - intros _ _. flia. }
  destruct (view_he _ _ _ _ _ _ _ _ V1) as (_ & E2 & E3).
  destruct (view_he _ _ _ _ _ _ _ _ V2) as (E4 & E5 & E6).
  split; [|split; [exact Hl|]].
  - constructor; auto.
    + intros j t' Ht'.
      destruct (N.eq_dec j i) as [->|Q1]; [left; left; congruence|].
      destruct (N.eq_dec j t2) as [->|Q1']; [left; right; left; congruence|].
      destruct (N.eq_dec j L) as [->|Q2]; [left; right; right; left; congruence|].
      destruct (N.eq_dec j (L + 1)) as [->|Q3]; [left; right; right; right; left; congruence|].
      right. assert (Hj : j < L) by (apply nthN_lt in Ht'; rewrite Hl in Ht'; clear - Ht' Q2 Q3; lia).
      destruct (nthN_Some ts j Hj) as (t0 & Ht0).
      destruct (Out j t0 Q1 Q1' Ht0) as (t3 & Ht3 & Hv & _).
      assert (t3 = t') by congruence. subst t3. eauto.
    + assert (K1 : hascorner ts u) by (exists i, v, t2; auto).
      assert (K2 : hascorner ts v) by (exists i, c, n1; auto).
      assert (K3 : hascorner ts c) by (exists i, u, n2; auto).
      assert (K4 : hascorner ts d) by (exists t2, v, n4; auto).
      intros j t' [Q|[Q|[Q|[Q|[]]]]]; injection Q as <- <-; simpl; auto.
    + intros x y. rewrite !push_if_In. simpl. split.
      * intros [(-> & -> & H)|[(-> & -> & H)|[(-> & -> & H)|[(-> & -> & H)|[]]]]]; eexists; (split; [eauto|]); auto.
      * intros (t' & [Q|[Q|[Q|[Q|[]]]]] & H); injection Q as <- <-; simpl in H; destruct H as (<- & H); intuition auto.
    + assert (L <> L + 1) by (clear; lia). assert (i <> L) by (clear - Hi; lia).
      assert (i <> L + 1) by (clear - Hi; lia). assert (t2 <> L) by (clear - Ht2; lia).
      assert (t2 <> L + 1) by (clear - Ht2; lia).
      repeat apply nodup_push; try (now constructor); intros y; rewrite ?push_if_In; simpl; intuition congruence.
    + discriminate.
    + intros w (j & H). destruct (N.eq_dec j i) as [->|Q1]; [|destruct (N.eq_dec j t2) as [->|Q2]].
      * destruct (corner_cases px py _ _ _ _ _ _ _ _ _ V1 H) as [-> |[-> | ->]].
        -- exists i. exact (corner_tv ts' _ _ I3 A).
        -- exists L. exact (corner_tv ts' _ _ I2 C).
        -- exists i. exact (corner_tv ts' _ _ I2 A).
      * destruct (corner_cases px py _ _ _ _ _ _ _ _ _ V2 H) as [-> |[-> | ->]].
        -- exists L. exact (corner_tv ts' _ _ I2 C).
        -- exists i. exact (corner_tv ts' _ _ I3 A).
        -- exists t2. exact (corner_tv ts' _ _ I3 B).
      * apply corner_inv in H. destruct H as (t0 & k0 & Ht0 & <-).
        destruct (Out j t0 Q1 Q2 Ht0) as (t3 & Ht3 & Hv & _). exists j. rewrite <- Hv. now apply corner_tv.
    + intros u0 v0 (j & H). destruct (N.eq_dec j i) as [->|Q1]; [|destruct (N.eq_dec j t2) as [->|Q2]].
      * destruct (he_cases _ _ _ _ _ _ _ _ _ _ _ V1 H) as [(-> & -> & Q)|[(-> & -> & Q)|(-> & -> & Q)]].
        -- congruence.
        -- rewrite Q. exists L. exact (he_at ts' _ _ I2 C).
        -- rewrite Q. exists i. exact (he_at ts' _ _ I2 A).
      * destruct (he_cases _ _ _ _ _ _ _ _ _ _ _ V2 H) as [(-> & -> & Q)|[(-> & -> & Q)|(-> & -> & Q)]].
        -- exfalso. clear - Q Hi Hmax. unfold NONE in Q. lia.
        -- rewrite Q. exists t2. exact (he_at ts' _ _ I2 B).
        -- rewrite Q. exists (L + 1). exact (he_at ts' _ _ I2 G).
      * apply he_inv in H. destruct H as (t0 & k0 & Ht0 & Eu & Ev & En).
        destruct (Out j t0 Q1 Q2 Ht0) as (t3 & Ht3 & Hv & Hn0). exists j.
        rewrite <- (Hn0 k0 En), <- Eu, <- Ev, <- !Hv. now apply he_at.
  - do 4 (etransitivity; [apply push_if_length|apply le_n_S]). simpl. lia.
Qed.

(** ** Insertion *)

Lemma det_same a b u v :
  is_finite a = true -> is_finite b = true -> samepos px py a b -> (D u v a == D u v b)%Q.
Proof.
  intros A B (H1 & H2). rewrite (hpos_fin px py a A), (hpos_fin px py b B). unfold det; simpl.
  rewrite H1, H2. reflexivity.
Qed.

(** After an insertion no edge opposite to the new vertex is illegal. *)
Definition legal_around (ts : list tri) (P : N) : Prop :=
  forall i a b c x y z x' y' z', view ts i P a b x y z -> view ts y b a c x' y' z' ->
    should_swap_diagonals (Quad a b c P) vs = Ret false.

Lemma restore_new ts ts' P news st fuel :
  MInv ts -> is_finite P = true -> vok P -> ~ hascorner ts P ->
  (forall w, hascorner ts w -> is_finite w = true -> ~ samepos px py w P) ->
  Split ts ts' P news st -> (length st <= 4)%nat -> (2 * length ts' + 4 <= fuel)%nat ->
  exists ts2, restore_delaunay fuel ts' vs P st = Ret ts2 /\ MInv ts2 /\ lenN ts2 = lenN ts' /\
    (forall w, hascorner ts2 w <-> w = P \/ hascorner ts w) /\ legal_around ts2 P.
Proof.
  intros [M I J O] FP VP NP Diff S Hst Hf.
  pose proof (split_rinv ts ts' P news st I VP NP S) as R.
  destruct (restore_spec vs px py X P FP VP fuel ts' st R) as (ts2 & Hr & R2 & L2 & K1 & K2).
  { pose proof (cnt_le (noP P) ts'). lia. }
  assert (HC : forall w, hascorner ts2 w <-> w = P \/ hascorner ts w).
  { intros w. rewrite <- (split_corners _ _ _ _ _ w S). symmetry. apply K1. }
  exists ts2. split; auto. split; [|split; [auto|split; [auto|]]].
  - constructor.
    + exact (R_mesh _ _ _ _ _ _ R2).
    + exact (R_ids _ _ _ _ _ _ R2).
    + intros i j u v Cu Cv Fu Fv Sp.
      assert (Hu : hascorner ts2 u) by (exists i; auto). assert (Hv : hascorner ts2 v) by (exists j; auto).
      apply HC in Hu. apply HC in Hv.
      destruct Hu as [->|Hu], Hv as [->|Hv]; auto.
      * exfalso. apply (Diff v Hv Fv). destruct Sp. split; symmetry; auto.
      * exfalso. exact (Diff u Hu Fu Sp).
      * destruct Hu as (i' & Hu). destruct Hv as (j' & Hv). exact (J _ _ _ _ Hu Hv Fu Fv Sp).
    + destruct O as (O1 & O2 & O3 & O4).
      repeat split; apply K2, (S_border _ _ _ _ _ S); auto.
  - intros i a b c x y z x' y' z' V V'.
    pose proof (R_mesh _ _ _ _ _ _ R2) as M2.
    destruct V as (t & k & Ht & Hr'). unfold rot in Hr'. injection Hr' as r1 r2 r3 r4 r5 r6.
    assert (k = I1) by (eapply (R_first _ _ _ _ _ _ R2); eauto). subst k. simpl in *.
    assert (Ht' : nthN ts2 i = Some (Tri P a b x y z)) by (rewrite Ht; destruct t; simpl in *; congruence).
    pose proof (view_exists _ _ _ Ht') as V; simpl in V.
    destruct (view_he _ _ _ _ _ _ _ _ V) as (_ & G & _).
    assert (Hy : y <> NONE) by (apply view_lt in V'; pose proof (M_len _ _ M2); unfold NONE; lia).
    pose proof (glue_some _ _ M2 _ _ _ _ G Hy) as G'.
    pose proof (he_fun _ _ M2 _ _ _ _ _ G' (proj1 (view_he _ _ _ _ _ _ _ _ V'))) as Q.
    rewrite <- Q in V'.
    destruct (R_legal _ _ _ _ _ _ R2 _ _ _ _ _ _ _ _ _ Ht' V') as [[]|Q']. exact Q'.
Qed.

Record DInv (done : list N) (s : state) : Prop := {
  V_inv : MInv (s_ts s);
  V_start : s_start s < lenN (s_ts s);
  V_len : lenN (s_ts s) <= 2 * lenN done + 2;
  V_done : forall w, hascorner (s_ts s) w -> is_finite w = true -> In w done;
  V_rep : forall v, In v done -> exists w, hascorner (s_ts s) w /\ is_finite w = true /\ samepos px py w v;
  V_map : forall m, s_map s = Some m -> lenN m = lenN vs /\
     (forall v, In v done -> v < lenN vs -> exists w, nthN m v = Some w /\
        hascorner (s_ts s) w /\ is_finite w = true /\ samepos px py w v) /\
     (forall v, ~ In v done -> v < lenN vs -> nthN m v = Some v);
  V_count : exists cs, NoDup cs /\ (forall w, In w cs <-> hascorner (s_ts s) w /\ is_finite w = true) /\
     lenN (s_ts s) = 2 * lenN cs + 2
}.

Lemma samepos_refl v : samepos px py v v.
Proof. split; reflexivity. Qed.

Lemma record_merge_ok done s P w :
  DInv done s -> P < lenN vs -> hascorner (s_ts s) w -> is_finite w = true ->
  samepos px py w P ->
  exists m, record_merge (s_map s) P w = Ret m /\ DInv (P :: done) (St (s_ts s) (s_start s) m).
Proof.
  intros [A B C F R Mp Cn] HP Hw Fw Sp.
  assert (Hm : exists m, record_merge (s_map s) P w = Ret m /\
            forall m', m = Some m' -> exists m0, s_map s = Some m0 /\ m' = updN m0 P w /\ lenN m0 = lenN vs).
  { destruct (s_map s) as [m0|] eqn:Em; simpl.
    - destruct (Mp m0 eq_refl) as (L0 & _). unfold setN.
      destruct (nthN_Some m0 P) as (x & Hx); [lia|]. rewrite Hx. cbn [bind].
      eexists; split; [reflexivity|]. intros m' Q. injection Q as <-. eauto.
    - exists None. split; auto. discriminate. }
  destruct Hm as (m & Hm & Hm'). exists m. split; auto. constructor; cbn [s_ts s_start s_map]; auto.
  - rewrite lenN_cons. lia.
  - intros w' Hw' Fw'. right. auto.
  - intros v [<-|Hv]; eauto.
  - intros m' Q. destruct (Hm' m' Q) as (m0 & Em & -> & L0).
    destruct (Mp m0 Em) as (_ & M1 & M2). rewrite lenN_updN. split; auto. split.
    + intros v [<-|Hv] Hlt.
      * exists w. split; auto. apply nthN_updN_same. lia.
      * destruct (N.eq_dec v P) as [->|Hne].
        -- exists w. split; auto. apply nthN_updN_same. lia.
        -- rewrite nthN_updN_other by auto. auto.
    + intros v Hv Hlt. simpl in Hv. rewrite nthN_updN_other by tauto. apply M2; tauto.
Qed.

(** The effect of an insertion. *)
Definition insert_result (done : list N) (s : state) (P : N) (s' : state) : Prop :=
  DInv (P :: done) s' /\
  ((s_ts s' = s_ts s /\ exists w, hascorner (s_ts s) w /\ is_finite w = true /\ samepos px py w P) \/
   (hascorner (s_ts s') P /\ lenN (s_ts s') = lenN (s_ts s) + 2 /\ legal_around (s_ts s') P)).

Lemma finish_ok done s ts' P news st fuel :
  DInv done s -> P < lenN vs -> ~ In P done ->
  (forall w, hascorner (s_ts s) w -> is_finite w = true -> ~ samepos px py w P) ->
  Split (s_ts s) ts' P news st -> lenN ts' = lenN (s_ts s) + 2 -> lenN ts' <= idmax ->
  (length st <= 4)%nat -> (2 * length ts' + 4 <= fuel)%nat ->
  exists s', finish_insert fuel vs (s_map s) P (ts', st) = Ret s' /\ insert_result done s P s'.
Proof.
  intros DI HP Hnew Diff S Hl Hmax Hst Hf. pose proof DI as [A B C F R Mp Cn].
  assert (FP : is_finite P = true).
  { unfold is_finite. apply N.ltb_lt. pose proof (X_len _ _ _ X). lia. }
  assert (VP : vok P) by (intros _; auto).
  assert (NP : ~ hascorner (s_ts s) P) by (intros H; auto).
  destruct (restore_new _ _ _ _ _ fuel A FP VP NP Diff S Hst Hf) as (ts2 & Hr & I2 & L2 & HC & Lg).
  unfold finish_insert. rewrite Hr. cbn [bind].
  assert (Hlast : last_id ts2 = Ret (lenN ts2 - 1)).
  { unfold last_id. destruct ts2 as [|x ts2]; [unfold lenN in *; simpl in *; lia|].
    f_equal. rewrite as_id_small; lia. }
  rewrite Hlast. cbn [bind]. eexists. split; [reflexivity|]. split; cbn [s_ts s_start s_map].
  2:{ right. split; [apply HC; auto|]. split; [lia|exact Lg]. }
  constructor; cbn [s_ts s_start s_map]; auto.
  - lia.
  - rewrite lenN_cons. lia.
  - intros w Hw Fw. apply HC in Hw. simpl. destruct Hw as [->|Hw]; auto.
  - intros v [<-|Hv].
    + exists P. split; [apply HC; auto|split; auto using samepos_refl].
    + destruct (R v Hv) as (w & Hw & Fw & Sp). exists w. split; [apply HC; auto|auto].
  - intros m Hm. destruct (Mp m Hm) as (L0 & M1 & M2). split; auto. split.
    + intros v Hv Hlt. destruct (in_dec N.eq_dec v done) as [Hd|Hd].
      * destruct (M1 v Hd Hlt) as (w & Hw & H1 & H2 & H3). exists w. split; auto. split; [apply HC; auto|auto].
      * destruct Hv as [<-|Hv]; [|tauto]. exists P. split; [now apply M2|].
        split; [apply HC; auto|split; auto using samepos_refl].
    + intros v Hv Hlt. simpl in Hv. apply M2; tauto.
  - destruct Cn as (cs & Nc & Ic & Lc). exists (P :: cs). split; [|split].
    + constructor; auto. intros K. apply Ic in K. tauto.
    + intros w. simpl. rewrite Ic, HC. intuition (subst; auto).
    + rewrite lenN_cons. lia.
Qed.

Lemma close_to_ok w P p : vok w -> nthN vs P = Some p ->
  exists b, close_to vs w p = Ret b /\ (b = true <-> is_finite w = true /\ samepos px py w P).
Proof.
  intros Vw Hp. unfold close_to. destruct (is_finite w) eqn:Fw.
  - destruct (get_vertex vs w Vw Fw) as (q & Hq & Nq). rewrite Hq. cbn [bind].
    eexists. split; [reflexivity|]. rewrite (X_close _ _ _ X _ _ _ _ Nq Hp). tauto.
  - exists false. split; auto. split; [discriminate|]. intros (? & _); discriminate.
Qed.

Lemma insert_post fuel done s P :
  DInv done s -> P < lenN vs -> ~ In P done -> lenN (s_ts s) + 2 <= idmax ->
  (2 * length (s_ts s) + 8 <= fuel)%nat ->
  post (insert_vertex fuel vs s P) (insert_result done s P)
    (fun e => e = ErrPlacementNotFound P /\
       forall p, nthN vs P = Some p -> find_vertex_placement p (s_start s) (s_ts s) vs = Ret NotFound).
Proof.
  intros DI HP Hnew Hmax Hf. pose proof DI as [A B C F R Mp]. pose proof A as [M I J O].
  assert (FP : is_finite P = true).
  { unfold is_finite. apply N.ltb_lt. pose proof (X_len _ _ _ X). lia. }
  destruct (nthN_Some vs P HP) as (p & Hp).
  unfold insert_vertex. unfold getN at 1. rewrite Hp. cbn [bind].
  pose proof (find_post vs px py X (s_ts s) P p (s_start s) M I Hp B) as FPost.
  destruct (find_vertex_placement p (s_start s) (s_ts s) vs) as [pl|e| |] eqn:Hfind; simpl in FPost; try contradiction.
  assert (Diff : forall i a b c x y z, view (s_ts s) i a b c x y z ->
      (D a b P <= 0)%Q -> (D b c P < 0)%Q -> (D c a P < 0)%Q ->
      forall w, hascorner (s_ts s) w -> is_finite w = true -> ~ samepos px py w P).
  { intros i a b c x y z V G1 G2 G3 w (j & Hw) Fw Sp.
    pose proof (det_same _ _ a b Fw FP Sp). pose proof (det_same _ _ b c Fw FP Sp).
    pose proof (det_same _ _ c a Fw FP Sp).
    assert (Hhw : (0 < hw (pos w))%Q) by (rewrite hw_fin by auto; lra).
    pose proof (vertex_excl px py _ _ _ _ _ _ _ _ j w M V Hw Hhw) as K.
    destruct K as [K|[K|K]]; [split; [|split]; lra|lra|lra|lra]. }
  cbn [bind]. destruct pl as [i|i k ed|]; simpl in FPost.
  - (* strictly inside *)
    destruct (split3_ok (s_ts s) i P M Hmax FPost) as (ts' & st & news & Hs & S & Hl & Hst).
    rewrite Hs. cbn [bind].
    destruct (finish_ok done s ts' P news st fuel DI HP Hnew) as (s' & Hfin & RI); auto.
    + destruct FPost as (a & b & c & x & y & z & V & G1 & G2 & G3).
      apply (Diff _ _ _ _ _ _ _ V); auto. lra.
    + lia.
    + unfold lenN in Hl. lia.
    + rewrite Hfin. exact RI.
  - (* on an edge *)
    destruct FPost as (t & Ht & -> & Z & G1 & G2).
    rewrite tedge_eq. cbn [efrom eto].
    pose proof (view_at (s_ts s) i t k Ht) as V.
    pose proof (M_cw _ _ M _ _ _ _ _ _ _ V) as CW.
    pose proof (det_rot3 (pos (tv t k)) (pos (tv t (next_cw k))) (pos (tv t (next_ccw k)))) as Rt.
    destruct (close_to_ok (tv t k) P p (Ids_tv _ _ _ _ _ I Ht) Hp) as (b1 & Hb1 & Eb1).
    destruct (close_to_ok (tv t (next_cw k)) P p (Ids_tv _ _ _ _ _ I Ht) Hp) as (b2 & Hb2 & Eb2).
    rewrite Hb1. cbn [bind]. destruct b1.
    { destruct (proj1 Eb1 eq_refl) as (F1 & Sp).
      assert (Hc : hascorner (s_ts s) (tv t k)) by (exists i; now apply corner_tv).
      destruct (record_merge_ok done s P (tv t k) DI HP Hc F1 Sp) as (m & Hm & DI').
      rewrite Hm. simpl. split; auto. left. split; [reflexivity|eauto]. }
    rewrite Hb2. cbn [bind]. destruct b2.
    { destruct (proj1 Eb2 eq_refl) as (F1 & Sp).
      assert (Hc : hascorner (s_ts s) (tv t (next_cw k))) by (exists i; now apply corner_tv).
      destruct (record_merge_ok done s P _ DI HP Hc F1 Sp) as (m & Hm & DI').
      rewrite Hm. simpl. split; auto. left. split; [reflexivity|eauto]. }
    assert (H1 : (D (tv t (next_cw k)) (tv t (next_ccw k)) P < 0)%Q).
    { apply lt_of; auto. intros Q.
      assert (K : false = true); [apply Eb2|discriminate].
      apply (at_corner px py (tv t (next_cw k)) (tv t (next_ccw k)) (tv t k)); auto. lra. }
    assert (H2 : (D (tv t (next_ccw k)) (tv t k) P < 0)%Q).
    { apply lt_of; auto. intros Q.
      assert (K : false = true); [apply Eb1|discriminate].
      apply (at_corner px py (tv t k) (tv t (next_cw k)) (tv t (next_ccw k))); auto. }
    destruct (split4_ok (s_ts s) i k t P M Hmax Ht FP Z H1 H2) as (ts' & st & news & Hs & S & Hl & Hst).
    rewrite tedge_eq in Hs. rewrite Hs. cbn [bind].
    destruct (finish_ok done s ts' P news st fuel DI HP Hnew) as (s' & Hfin & RI); auto.
    + apply (Diff _ _ _ _ _ _ _ V); auto. lra.
    + lia.
    + unfold lenN in Hl. lia.
    + rewrite Hfin. exact RI.
  - simpl. split; [reflexivity|]. intros q Hq. congruence.
Qed.

(** ** The whole loop *)

Lemma fold_post fuel : forall l done s,
  DInv done s -> NoDup (l ++ done) -> (forall v, In v l -> v < lenN vs) ->
  2 * (lenN l + lenN done) + 2 <= idmax ->
  (4 * (length l + length done) + 12 <= fuel)%nat ->
  post (foldM (insert_vertex fuel vs) l s)
    (fun s' => exists done', (forall v, In v done' <-> In v l \/ In v done) /\
                 lenN done' = lenN l + lenN done /\ DInv done' s')
    (fun e => exists v, In v l /\ e = ErrPlacementNotFound v).
Proof.
  induction l as [|v l IH]; intros done s DI Nd Hl Hid Hf.
  - simpl. exists done. split; [simpl; tauto|]. split; [reflexivity|auto].
  - cbn [foldM]. inversion Nd as [|? ? Ni Nd']; subst.
    rewrite lenN_cons in Hid. simpl length in Hf.
    pose proof (V_len _ _ DI) as VL.
    assert (P1 : post (insert_vertex fuel vs s v) (insert_result done s v) (fun e => e = ErrPlacementNotFound v)).
    { eapply post_weaken; [apply (insert_post fuel done s v)|auto|intros e (He & _); exact He]; auto.
      - apply Hl. now left.
      - intros H. apply Ni. apply in_or_app; auto.
      - lia.
      - unfold lenN in VL. lia. }
    destruct (insert_vertex fuel vs s v) as [s1|e| |]; simpl in P1; try contradiction.
    + destruct P1 as (DI1 & _). cbn [bind].
      eapply post_weaken; [apply (IH (v :: done) s1 DI1)| |].
      * apply (Permutation_NoDup (l := v :: l ++ done)); [apply Permutation_middle|auto].
      * intros u Hu. apply Hl. now right.
      * rewrite lenN_cons. lia.
      * simpl length. lia.
      * intros s' (done' & H1 & H2 & H3). exists done'. split; [|split; auto].
        -- intros u. rewrite H1. simpl. tauto.
        -- rewrite H2, !lenN_cons. lia.
      * intros e (u & Hu & ->). exists u. split; [now right|reflexivity].
    + simpl. exists v. split; [now left|auto].
Qed.

Lemma initial_inv first m :
  first < lenN vs -> 4 <= idmax -> (forall m', m = Some m' -> m' = rangeN 0 (length vs)) ->
  DInv [first] (St (create_initial_triangles first) 3 m).
Proof.
  intros Hf H4 Hm.
  assert (Ff : is_finite first = true).
  { unfold is_finite. apply N.ltb_lt. pose proof (X_len _ _ _ X). lia. }
  pose proof (initial_mesh first Ff H4) as M.
  destruct inf_facts as (J0 & J1 & J2 & J3 & _).
  pose proof (initial_views first) as (V0 & V1 & V2 & V3).
  assert (Hc : forall w, hascorner (create_initial_triangles first) w -> is_finite w = true -> w = first).
  { intros w (i & H) Fw. apply corner_inv in H. destruct H as (t & k & Ht & Hk).
    destruct (initial_cases _ _ _ Ht) as [(-> & ->)|[(-> & ->)|[(-> & ->)|(-> & ->)]]];
      destruct k; simpl in Hk; congruence. }
  assert (Hfc : hascorner (create_initial_triangles first) first).
  { exists 0, INF0, 3. exact (proj1 (view_he _ _ _ _ _ _ _ _ V0)). }
  constructor; cbn [s_ts s_start s_map].
  - constructor; auto.
    + intros t Ht. apply In_nthN in Ht. destruct Ht as (i & Ht).
      assert (Vi : forall v, is_finite v = false -> vok v) by (intros v Q H; congruence).
      assert (Vf : vok first) by (intros _; auto).
      destruct (initial_cases _ _ _ Ht) as [(_ & ->)|[(_ & ->)|[(_ & ->)|(_ & ->)]]]; split; simpl; auto.
    + intros i j u v Cu Cv Fu Fv _.
      rewrite (Hc u), (Hc v); auto; [exists j|exists i]; auto.
    + split; [|split; [|split]].
      * exists 0. exact (proj1 (proj2 (view_he _ _ _ _ _ _ _ _ V0))).
      * exists 1. exact (proj1 (proj2 (view_he _ _ _ _ _ _ _ _ V1))).
      * exists 2. exact (proj1 (proj2 (view_he _ _ _ _ _ _ _ _ V2))).
      * exists 3. exact (proj1 (proj2 (view_he _ _ _ _ _ _ _ _ V3))).
  - reflexivity.
  - vm_compute. discriminate.
  - intros w Hw Fw. left. symmetry. now apply Hc.
  - intros v [<-|[]]. exists first. auto using samepos_refl.
  - intros m' Q. specialize (Hm m' Q). subst m'. unfold lenN. rewrite length_rangeN. split; auto.
    assert (K : forall v, v < lenN vs -> nthN (rangeN 0 (length vs)) v = Some v).
    { intros v Hv. rewrite nthN_rangeN; auto. }
    split; [|auto]. intros v [<-|[]] Hv. exists first. auto using samepos_refl.
  - exists [first]. split; [repeat constructor; auto|]. split; [|reflexivity].
    intros w. simpl. split; [intros [<-|[]]; auto | intros (K1 & K2); left; symmetry; auto].
Qed.

(** The mapping handed to the loop: none (Delaunay) or the identity (constrained). *)
Definition initial_mapping (m : option (list N)) : Prop := m = None \/ m = Some (rangeN 0 (length vs)).

Theorem wrap_post fuel bins m order :
  bin_sort bins vs = Ret order -> initial_mapping m ->
  1 <= lenN vs -> 2 * lenN vs + 2 <= idmax -> (4 * length vs + 12 <= fuel)%nat ->
  post (wrap_and_triangulate fuel bins vs m)
    (fun s => exists done, (forall v, In v done <-> v < lenN vs) /\ lenN done = lenN vs /\ DInv done s)
    (fun e => exists v, v < lenN vs /\ e = ErrPlacementNotFound v).
Proof.
  intros Hb Hm H1 Hid Hf. unfold wrap_and_triangulate. rewrite Hb. cbn [bind].
  pose proof (bin_sort_permutation bins vs order) as Pm.
  assert (Hlen : lenN vs <= idmax + 1) by lia. specialize (Pm Hlen Hb).
  assert (Hin : forall v, In v order <-> v < lenN vs).
  { intros v. split; intros H.
    - apply (Permutation_in _ Pm) in H. apply In_rangeN in H. unfold lenN. lia.
    - apply (Permutation_in _ (Permutation_sym Pm)). apply In_rangeN. unfold lenN in H. lia. }
  assert (Nd : NoDup order) by (apply (Permutation_NoDup (Permutation_sym Pm)), NoDup_rangeN).
  assert (Lo : length order = length vs).
  { rewrite (Permutation_length Pm). apply length_rangeN. }
  destruct order as [|first rest]; [exfalso; simpl in Lo; unfold lenN in H1; lia|].
  assert (L4 : last_id (create_initial_triangles first) = Ret 3).
  { unfold last_id, create_initial_triangles. f_equal. apply as_id_small.
    change (N.pred (lenN _)) with 3. lia. }
  rewrite L4. cbn [bind].
  assert (D0 : DInv [first] (St (create_initial_triangles first) 3 m)).
  { apply initial_inv; [apply Hin; now left|lia|]. intros m' Q. destruct Hm as [-> | ->]; congruence. }
  eapply post_weaken; [apply (fold_post fuel rest [first] _ D0)| |].
  - apply (Permutation_NoDup (l := first :: rest)); auto. apply Permutation_cons_append.
  - intros v Hv. apply Hin. now right.
  - rewrite lenN_cons, lenN_nil. simpl in Lo. unfold lenN in *. lia.
  - simpl in *. lia.
  - intros s (done & A & B & C). exists done. split; [|split; auto].
    + intros v. rewrite A, <- Hin. simpl. tauto.
    + rewrite B, lenN_cons, lenN_nil. simpl in Lo. unfold lenN. lia.
  - intros e (v & Hv & ->). exists v. split; auto. apply Hin. now right.
Qed.

End WithEnv.
