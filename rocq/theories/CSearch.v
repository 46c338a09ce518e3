(** * CSearch: the search for crossed edges succeeds when no vertex lies inside the
    constrained edge. *)

From Coq Require Import NArith List Bool Lia QArith Lqa Permutation.
From Verif Require Import Base BaseFacts Arith Types Utils Infinite Triangulation Constrained Geom Mesh
  MeshOps Exact ExactC MeshVerts AnyDT AnyCDT Walk Insert DTExact CSwap CCross CReg CPres CTerm.
Import ListNotations.
Local Open Scope N_scope.

Section WithEnv.
Context {E : Env}.
Variable vs : list vertex.
Variables px py : N -> Q.
Hypothesis X : Exact vs px py.
Hypothesis XC : ExactC vs px py.

Notation pos := (hpos px py).
Notation D a b c := (det (pos a) (pos b) (pos c)).
Notation Mesh := (Mesh pos).
Notation Ids := (Ids vs).
Notation vok := (vok vs).
Notation MInv := (MInv vs px py).
Notation VT := (VT vs).
Notation crosses := (crosses px py).

Variables a b : N.
Variables va vb : vertex.
Hypothesis Na : nthN vs a = Some va.
Hypothesis Nb : nthN vs b = Some vb.
Hypothesis Hab : a <> b.

Notation xing := (xing px py a b).
Notation onseg := (onseg px py a b).
Notation H v := (D a b v).
Notation w v := (hw (pos v)).

Notation edge_test_total := (edge_test_total vs va vb).

Variable ts : list tri.
Hypothesis I : MInv ts.
Hypothesis Cb : hascorner ts b.
Hypothesis NV : no_vertex px py a b ts.

Let M : Mesh ts := I_mesh _ _ _ _ I.

(** A triangle of a whose sector contains b has b as a corner or is left through its
    third edge. *)
Lemma sector i x y n1 n2 n3 : view ts i a x y n1 n2 n3 ->
  (D a x b <= 0)%Q -> (D y a b <= 0)%Q -> corner ts i b \/ xing x y.
Proof.
  intros V P1 P2.
  pose proof (fin_a vs px py X a va Na) as Fa. pose proof (fin_b vs px py X b vb Nb) as Fb.
  destruct (view_he _ _ _ _ _ _ _ _ V) as (H1 & H2 & H3).
  assert (Mx : medge ts a x) by (left; eauto). assert (My : medge ts a y) by (right; eauto).
  assert (Cx : corner ts i x) by (exists y, n2; auto).
  assert (Cy : corner ts i y) by (exists a, n3; auto).
  pose proof (det_anti (pos a) (pos x) (pos b)) as (_ & Ax & _).
  pose proof (det_rot3 (pos a) (pos b) (pos y)) as (Ry1 & Ry2).
  pose proof (det_anti (pos a) (pos y) (pos b)) as (Ay & _ & _).
  destruct (Qeq_dec (D a x b) 0) as [Zx|Zx].
  { left. rewrite <- (behind_corner vs px py X a b va vb Na Nb Hab ts i x y x y n1 n2 n3 false I Cb NV V eq_refl eq_refl P1 P2 Zx Mx). exact Cx. }
  destruct (Qeq_dec (D a y b) 0) as [Zy|Zy].
  { left. rewrite <- (behind_corner vs px py X a b va vb Na Nb Hab ts i x y y x n1 n2 n3 true I Cb NV V eq_refl eq_refl P1 P2 Zy My). exact Cy. }
  assert (Lx : (D a x b < 0)%Q) by lra. assert (Ly : (D y a b < 0)%Q) by lra.
  destruct (Qlt_le_dec 0 (D x y b)) as [Hp|Hp].
  - right. pose proof (M_cw _ _ M _ _ _ _ _ _ _ V) as C.
    pose proof (det_rot3 (pos a) (pos x) (pos y)). unfold CCross.xing. repeat split; lra.
  - left. destruct Cb as (ib & Cb').
    destruct (vertex_in_closed px py ts i a x y n1 n2 n3 ib b M V Cb' Fb) as (v & Hv & Fv & Sp).
    { repeat split; lra. }
    assert (Cv : corner ts i v).
    { destruct Hv as [-> |[-> | ->]]; auto. exists x, n1; auto. }
    assert (v = b) by (eapply (I_inj _ _ _ _ I); eauto). now subst v.
Qed.

(** ** The order of the directions around a, from the direction of b *)
Notation g v := (- H v)%Q.
Notation c u v := (- D a u v)%Q.

Definition R (x y : N) : Prop :=
  (0 < g x /\ 0 < g y /\ 0 < c x y)%Q \/ (0 < g x /\ g y <= 0)%Q \/
  (g x <= 0 /\ g y < 0 /\ (g x == 0 \/ 0 < c x y))%Q.

Lemma plucker x y z : (c x y * g z - c x z * g y + c y z * g x == 0)%Q.
Proof. unfold det. ring. Qed.

Lemma R_irrefl x : ~ R x x.
Proof.
  pose proof (det_zero (pos a) (pos x)) as Z. unfold R. intros [K|[K|(K1 & K2 & [K|K])]]; try lra.
  - destruct (det_zero (pos x) (pos a)) as (_ & _ & Z2). pose proof (det_zero (pos a) (pos x)). pose proof (det_rot3 (pos a) (pos x) (pos x)).
    pose proof (det_zero (pos x) (pos a)). lra.
  - pose proof (det_rot3 (pos a) (pos x) (pos x)). pose proof (det_zero (pos x) (pos a)). lra.
Qed.

Lemma R_trans x y z : R x y -> R y z -> R x z.
Proof.
  pose proof (plucker x y z) as P. unfold R.
  intros [K|[K|(K1 & K2 & K3)]] [L|[L|(L1 & L2 & L3)]]; try (exfalso; lra).
  - left. split; [lra|]. split; [lra|].
    assert (P1 : (0 < c x y * g z)%Q) by (apply Qmul_pos; lra).
    assert (P2 : (0 < c y z * g x)%Q) by (apply Qmul_pos; lra).
    assert (P3 : (0 < c x z * g y)%Q) by lra. destruct (Qprod_pos _ _ P3); lra.
  - right; left. lra.
  - right; left; lra.
  - right; right. split; [lra|]. split; [lra|]. destruct K3 as [K3|K3]; [left; lra|].
    destruct (Qeq_dec (g x) 0) as [Z|Z]; [now left|right].
    assert (L3' : (0 < c y z)%Q) by (destruct L3; lra).
    assert (P1 : (0 < c x y * - g z)%Q) by (apply Qmul_pos; lra).
    assert (P2 : (0 < c y z * - g x)%Q) by (apply Qmul_pos; lra).
    assert (P3 : (c x z * g y < 0)%Q) by lra. destruct (Qprod_neg _ _ P3); lra.
Qed.

(** Turning clockwise over a triangle whose sector does not contain b. *)
Lemma R_step x y : (D a x y < 0)%Q -> ~ (D a x b <= 0 /\ D y a b <= 0)%Q -> R x y.
Proof.
  intros C N.
  pose proof (det_anti (pos a) (pos x) (pos b)) as (_ & Ax & _).
  pose proof (det_rot3 (pos a) (pos b) (pos y)) as (Ry1 & Ry2).
  unfold R. destruct (Qlt_le_dec 0 (g x)) as [Gx|Gx].
  - destruct (Qlt_le_dec 0 (g y)) as [Gy|Gy]; [left|right; left]; lra.
  - destruct (Qlt_le_dec (g y) 0) as [Gy|Gy]; [right; right|exfalso; apply N; split; lra].
    split; [lra|]. split; [lra|]. right. lra.
Qed.

(** ** The rotation finds the first crossed edge *)

Definition found (r : res first_intersection) : Prop :=
  r = Ret EdgeAlreadyInTriangulation \/ exists d, r = Ret (FirstIntersection d).

Lemma view_second i x y n1 n2 n3 x' y' m1 m2 m3 :
  view ts i a x y n1 n2 n3 -> view ts i a x' y' m1 m2 m3 -> x = x'.
Proof.
  intros V V'. pose proof (M_cw _ _ M _ _ _ _ _ _ _ V) as C.
  pose proof (det_zero (pos a) (pos x)). pose proof (det_zero (pos a) (pos y)).
  pose proof (det_zero (pos x) (pos y)). pose proof (det_zero (pos x) (pos a)). pose proof (det_zero (pos y) (pos a)).
  destruct (view_fun _ _ _ _ _ _ _ _ _ _ _ _ _ _ V V') as [K|[K|K]]; destruct K as (Q1 & Q2 & Q3 & _); subst; auto; exfalso; lra.
Qed.

Lemma loop_found : forall n (first : bool) from tid x y n1 n2 n3 (L : list (N * N)),
  view ts tid a x y n1 n2 n3 ->
  (if first then tid = from else In from (map fst L)) ->
  NoDup (map fst L) ->
  (forall i z, In (i, z) L -> R z x /\ exists y n1 n2 n3, view ts i a z y n1 n2 n3 /\ ~ (D a z b <= 0 /\ D y a b <= 0)%Q) ->
  (length ts <= n + length L)%nat ->
  found (loop_around n first ts vs from tid (Edge a b) (va, vb) outermost_cw).
Proof.
  pose proof (fin_a vs px py X a va Na) as Fa.
  induction n as [|n IH]; intros first from tid x y n1 n2 n3 L V Hf Nd HL Hlen; simpl.
  - exfalso.
    assert (Hin : ~ In tid (map fst L)).
    { intros Hin. apply in_map_iff in Hin. destruct Hin as ([i z] & Q & Hin). simpl in Q. subst i.
      destruct (HL _ _ Hin) as (K & y' & m1 & m2 & m3 & V' & _). rewrite <- (view_second _ _ _ _ _ _ _ _ _ _ _ V V') in K.
      exact (R_irrefl _ K). }
    assert (B : (length (tid :: map fst L) <= length (map N.of_nat (seq 0 (length ts))))%nat).
    { apply NoDup_incl_length; [constructor; auto|]. intros i Hi.
      assert (Hlt : i < lenN ts).
      { destruct Hi as [<- |Hi]; [destruct V as (t & k & Ht & _); now apply nthN_lt in Ht|].
        apply in_map_iff in Hi. destruct Hi as ([i' z] & Q & Hi). simpl in Q. subst i'.
        destruct (HL _ _ Hi) as (_ & y' & m1 & m2 & m3 & (t & k & Ht & _) & _). now apply nthN_lt in Ht. }
      apply in_map_iff. exists (N.to_nat i). split; [apply N2Nat.id|]. apply in_seq. unfold lenN in Hlt. lia. }
    simpl in B. rewrite !map_length, seq_length in B. lia.
  - assert (Hin : ~ In tid (map fst L)).
    { intros Hin. apply in_map_iff in Hin. destruct Hin as ([i z] & Q & Hin). simpl in Q. subst i.
      destruct (HL _ _ Hin) as (K & y' & m1 & m2 & m3 & V' & _). rewrite <- (view_second _ _ _ _ _ _ _ _ _ _ _ V V') in K.
      exact (R_irrefl _ K). }
    replace (negb first && (tid =? from)) with false.
    2:{ destruct first; auto. simpl. symmetry. apply N.eqb_neq. intros ->. now apply Hin. }
    assert (Ht : exists t, nthN ts tid = Some t) by (destruct V as (t & k & Ht & _); eauto).
    destruct Ht as (t & Ht). unfold getN. rewrite Ht. cbn [bind].
    destruct (verts_contains t b) eqn:Hb; [left; reflexivity|].
    set (k := vertex_index t a) in *.
    assert (Ca : corner ts tid a) by (destruct (view_he _ _ _ _ _ _ _ _ V) as (H1 & _); exists x, n1; auto).
    pose proof (vertex_index_corner ts _ _ _ Ht Ca) as Hk. fold k in Hk.
    pose proof (view_at ts tid t k Ht) as V'. rewrite Hk in V'.
    assert (He : tedge t (opposite_edge_index k) = Edge (tv t (next_cw k)) (tv t (next_ccw k))) by (destruct k; reflexivity).
    assert (Hn : tn t (opposite_edge_index k) = tn t (next_cw k)) by (destruct k; reflexivity).
    assert (Hn2 : tn t (outermost_cw k) = tn t (next_ccw k)) by (destruct k; reflexivity).
    rewrite He, Hn, Hn2.
    pose proof (view_second _ _ _ _ _ _ _ _ _ _ _ V V') as Qx.
    set (v := tv t (next_ccw k)) in *. rewrite <- Qx in *.
    destruct (view_he _ _ _ _ _ _ _ _ V') as (H1 & H2 & H3).
    destruct (edge_test_total (Edge x v)) as (r & Hr).
    { apply (hascorner_vok vs ts _ (I_ids _ _ _ _ I)). exists tid, v, (tn t (next_cw k)); auto. }
    { apply (hascorner_vok vs ts _ (I_ids _ _ _ _ I)). exists tid, a, (tn t (next_ccw k)); auto. }
    rewrite Hr. cbn [bind].
    destruct (is_crossing r) eqn:Hi.
    + apply (crossing_test vs px py X XC a b va vb Na Nb x v r Hr) in Hi.
      destruct (M_glue _ _ M _ _ _ _ H2) as [(Q & Ix & Iv)|G].
      * exfalso. destruct Hi as (_ & C). rewrite inf_not_fin in Ix, Iv. apply negb_true_iff in Ix, Iv.
        pose proof (two_inf px py x v a b Ix Iv Fa (fin_b vs px py X b vb Nb)) as T.
        assert (0 <= D x v b * D x v b)%Q by (destruct (Qlt_le_dec (D x v b) 0); nra).
        rewrite T in C. lra.
      * replace (nexists (tn t (next_cw k))) with true; [right; eauto|].
        symmetry. unfold nexists. apply negb_true_iff, N.eqb_neq. intros Q. rewrite Q in G.
        apply he_lt in G. pose proof (M_len _ _ M). unfold NONE in G. lia.
    + assert (Ns : ~ (D a x b <= 0 /\ D v a b <= 0)%Q).
      { intros (S1 & S2). destruct (sector _ _ _ _ _ _ V' S1 S2) as [K|K].
        - apply (contains_corner px py ts _ _ _ Ht) in K. congruence.
        - apply (xing_crosses px py a b) in K.
          apply (crossing_test vs px py X XC a b va vb Na Nb x v r Hr) in K. congruence. }
      destruct (M_glue _ _ M _ _ _ _ H3) as [(Q & Ix & Iv)|G].
      * exfalso. rewrite inf_not_fin, Fa in Iv. discriminate.
      * replace (nexists (tn t (next_ccw k))) with true.
        2:{ symmetry. unfold nexists. apply negb_true_iff, N.eqb_neq. intros Q. rewrite Q in G.
            apply he_lt in G. pose proof (M_len _ _ M). unfold NONE in G. lia. }
        destruct G as (z & m2 & m3 & G).
        pose proof (R_step x v (M_cw _ _ M _ _ _ _ _ _ _ V') Ns) as Rx.
        eapply (IH false from _ v z _ _ _ ((tid, x) :: L)); [exact G| | | |].
        -- simpl. destruct first; [left|right]; auto.
        -- simpl. constructor; auto.
        -- intros i z0 [Q|Hi0].
           ++ injection Q as <- <-. split; auto. eexists; eexists; eexists; eexists. split; [exact V'|exact Ns].
           ++ destruct (HL _ _ Hi0) as (K & K2). split; [now apply (R_trans _ x)|exact K2].
        -- simpl. lia.
Qed.

Lemma search_total start : corner ts start a ->
  exists r, search_first_intersected_quad ts vs (Edge a b) (va, vb) start = Ret r /\ r <> FirstNotFound.
Proof.
  intros (x & n1 & y & n2 & n3 & V). unfold search_first_intersected_quad.
  destruct (loop_found (length ts) true start start x y n1 n2 n3 []) as [Q|(d & Q)]; auto.
  - constructor.
  - intros i z [].
  - simpl. lia.
  - rewrite Q. simpl. eexists; split; [reflexivity|discriminate].
  - rewrite Q. simpl. eexists; split; [reflexivity|discriminate].
Qed.

(** ** The walk along the segment always finds the next edge *)
Lemma exit_edge t' u v z n1 n2 n3 : xing u v -> view ts t' v u z n1 n2 n3 -> ~ corner ts t' b ->
  xing u z \/ xing z v.
Proof.
  intros (X1 & X2 & X3 & X4) V Nc.
  pose proof (fin_a vs px py X a va Na) as Fa. pose proof (fin_b vs px py X b vb Nb) as Fb.
  pose proof (hw_fin px py a Fa) as Wa. pose proof (hw_fin px py b Fb) as Wb.
  pose proof (M_cw _ _ M _ _ _ _ _ _ _ V) as C.
  assert (Cz : corner ts t' z) by (destruct (view_he _ _ _ _ _ _ _ _ V) as (_ & _ & H3); exists v, n3; auto).
  assert (Cr : forall p, (D v u z * det (pos a) (pos b) p ==
     det (pos u) (pos z) p * H v + det (pos z) (pos v) p * H u + det (pos v) (pos u) p * H z)%Q).
  { intros p. apply cramer. }
  assert (Cw : forall p, (D v u z * hw p ==
     det (pos u) (pos z) p * w v + det (pos z) (pos v) p * w u + det (pos v) (pos u) p * w z)%Q).
  { intros p. apply cramer_w. }
  pose proof (Cr (pos a)) as Ra. pose proof (Cr (pos b)) as Rb. pose proof (Cw (pos a)) as Ka. pose proof (Cw (pos b)) as Kb.
  rewrite (H_a px py a b) in Ra. rewrite (H_b px py a b) in Rb. rewrite Wa in Ka. rewrite Wb in Kb.
  pose proof (det_anti (pos u) (pos v) (pos a)) as (Ua & _). pose proof (det_anti (pos u) (pos v) (pos b)) as (Ub & _).
  pose proof (hw_nonneg px py u) as Wu. pose proof (hw_nonneg px py v) as Wv. pose proof (hw_nonneg px py z) as Wz.
  (* b is not in the closed triangle *)
  assert (Out : ~ (D u z b <= 0 /\ D z v b <= 0)%Q).
  { intros (B1 & B2). destruct Cb as (ib & Cb').
    destruct (vertex_in_closed px py ts t' v u z n1 n2 n3 ib b M V Cb' Fb) as (q & Hq & Fq & Sp).
    { repeat split; auto; lra. }
    assert (Cq : corner ts t' q).
    { destruct (view_he _ _ _ _ _ _ _ _ V) as (H1 & H2 & H3). destruct Hq as [-> |[-> | ->]]; eexists; eexists; eauto. }
    assert (q = b) by (eapply (I_inj _ _ _ _ I); eauto). subst q. auto. }
  (* a is not in front of both other edges *)
  assert (Back : ~ (0 <= D u z a /\ 0 <= D z v a)%Q).
  { intros (B1 & B2).
    assert (AA1 : (0 <= D u z a * w v)%Q) by (apply Qmult_le_0_compat; lra).
    assert (AA2 : (0 <= D z v a * w u)%Q) by (apply Qmult_le_0_compat; lra).
    assert (AA3 : (0 <= D v u a * w z)%Q) by (apply Qmult_le_0_compat; lra). lra. }
  destruct (Qlt_le_dec 0 (H z)) as [Hz|Hz]; [right|destruct (Qlt_le_dec (H z) 0) as [Hz'|Hz']; [left|exfalso]].
  - (* z on the left: the segment leaves through (z, v) *)
    assert (Pb : (D v u b * H z < 0)%Q) by (assert (AA4 : (0 < - D v u b * H z)%Q) by (apply Qmul_pos; lra); lra).
    assert (Pa : (0 < D v u a * H z)%Q) by (apply Qmul_pos; lra).
    assert (B : (0 < D z v b)%Q).
    { destruct (Qlt_le_dec 0 (D z v b)) as [|B]; auto. exfalso. apply Out. split; [|lra].
      assert (AA5 : (D z v b * H u <= 0)%Q) by (apply Qmul_pn; lra).
      assert (P3 : (0 < D u z b * H v)%Q) by lra. destruct (Qprod_pos _ _ P3); lra. }
    assert (A : (D z v a < 0)%Q).
    { destruct (Qlt_le_dec (D z v a) 0) as [|A]; auto. exfalso. apply Back. split; [|lra].
      assert (AA6 : (0 <= D z v a * H u)%Q) by (apply Qmult_le_0_compat; lra).
      assert (P3 : (D u z a * H v < 0)%Q) by lra. destruct (Qprod_neg _ _ P3); lra. }
    unfold CCross.xing. repeat split; lra.
  - (* z on the right: through (u, z) *)
    assert (Pb : (0 < D v u b * H z)%Q) by (apply mul_neg_neg; lra).
    assert (Pa : (D v u a * H z < 0)%Q) by (assert (AA7 : (0 < D v u a * - H z)%Q) by (apply Qmul_pos; lra); lra).
    assert (B : (0 < D u z b)%Q).
    { destruct (Qlt_le_dec 0 (D u z b)) as [|B]; auto. exfalso. apply Out. split; [lra|].
      assert (AA8 : (0 <= D u z b * H v)%Q) by (apply mul_nonpos_nonpos; lra).
      assert (P3 : (D z v b * H u < 0)%Q) by lra. destruct (Qprod_neg _ _ P3); lra. }
    assert (A : (D u z a < 0)%Q).
    { destruct (Qlt_le_dec (D u z a) 0) as [|A]; auto. exfalso. apply Back. split; [lra|].
      assert (AA9 : (D u z a * H v <= 0)%Q) by (apply Qmul_np; lra).
      assert (P3 : (0 < D z v a * H u)%Q) by lra. destruct (Qprod_pos _ _ P3); lra. }
    unfold CCross.xing. repeat split; lra.
  - (* z on the segment *)
    assert (Hz0 : (H z == 0)%Q) by lra. rewrite Hz0 in Ra, Rb.
    assert (Bb : (0 < D u z b /\ 0 < D z v b)%Q).
    { destruct (Qlt_le_dec 0 (D u z b)) as [P|P].
      - split; auto. assert (AA10 : (0 < D u z b * - H v)%Q) by (apply Qmul_pos; lra).
        assert (P3 : (0 < D z v b * H u)%Q) by lra. destruct (Qprod_pos _ _ P3); lra.
      - exfalso. apply Out. split; auto. assert (AA11 : (0 <= D u z b * H v)%Q) by (apply mul_nonpos_nonpos; lra).
        destruct (Qlt_le_dec 0 (D z v b)) as [P4|]; auto. assert (AA12 : (0 < D z v b * H u)%Q) by (apply Qmul_pos; lra). lra. }
    assert (Ba : (D u z a < 0 /\ D z v a < 0)%Q).
    { destruct (Qlt_le_dec (D u z a) 0) as [P|P].
      - split; auto. assert (AA13 : (0 < D u z a * H v)%Q) by (apply mul_neg_neg; lra).
        assert (P3 : (D z v a * H u < 0)%Q) by lra. destruct (Qprod_neg _ _ P3); lra.
      - exfalso. apply Back. split; auto. assert (AA14 : (D u z a * H v <= 0)%Q) by (apply Qmul_np; lra).
        destruct (Qlt_le_dec (D z v a) 0) as [P4|]; auto. assert (AA15 : (0 < - D z v a * H u)%Q) by (apply Qmul_pos; lra). lra. }
    destruct Bb as (B1 & B2), Ba as (A1 & A2).
    assert (Fz : is_finite z = true).
    { destruct (is_finite z) eqn:Fz; auto. exfalso. rewrite (hw_inf px py z Fz) in Kb.
      assert (AA16 : (0 <= D u z b * w v)%Q) by (apply Qmult_le_0_compat; lra).
      assert (AA17 : (0 <= D z v b * w u)%Q) by (apply Qmult_le_0_compat; lra). lra. }
    set (s := (D u z b / (D u z b - D u z a))%Q). set (t := (- D u z a / (D u z b - D u z a))%Q).
    assert (Hden : (0 < D u z b - D u z a)%Q) by lra.
    apply (NV z s t); auto.
    + exists t'; auto.
    + unfold s. apply Qlt_shift_div_l; lra.
    + unfold t. apply Qlt_shift_div_l; lra.
    + assert (Ew : (D u z b - D u z a == H u)%Q).
      { pose proof (four_w (pos a) (pos b) (pos u) (pos z)) as R4. rewrite Wa, Wb, (hw_fin px py z Fz), Hz0 in R4. lra. }
      assert (Eq : forall f : pt3 -> Q, (D u z b * f (pos a) - D u z a * f (pos b) == - H z * f (pos u) + H u * f (pos z))%Q ->
        (f (pos z) == s * f (pos a) + t * f (pos b))%Q).
      { intros f K. rewrite Hz0 in K. unfold s, t. rewrite !Ew.
        setoid_replace (D u z b / H u * f (pos a) + - D u z a / H u * f (pos b))%Q
          with ((D u z b * f (pos a) - D u z a * f (pos b)) / H u)%Q by (field; lra).
        rewrite K. field. lra. }
      repeat split; cbn [CCross.onseg padd pscale hx hy hw].
      * apply (Eq hx). unfold det. ring.
      * apply (Eq hy). unfold det. ring.
      * apply (Eq hw). unfold det. ring.
Qed.

Lemma next_total t tid fe : nthN ts tid = Some t -> forall is,
  (exists k, In k is /\ crosses a b (tv t k) (tv t (next_cw k)) /\
     ~ sameE (tv t k) (tv t (next_cw k)) (efrom fe) (eto fe)) ->
  exists d, next_intersection is vs (va, vb) t tid fe = Ret (Some d).
Proof.
  intros Ht. pose proof (fin_a vs px py X a va Na) as Fa. pose proof (fin_b vs px py X b vb Nb) as Fb.
  induction is as [|k is IH]; intros (k0 & Hin & Hc & Hs); [destruct Hin|]. simpl.
  assert (He : tedge t k = Edge (tv t k) (tv t (next_cw k))) by (destruct k; reflexivity).
  assert (Next : k0 <> k -> exists d, next_intersection is vs (va, vb) t tid fe = Ret (Some d)).
  { intros Hne. apply IH. exists k0. destruct Hin; [congruence|auto]. }
  destruct (undirected_equals (tedge t k) fe) eqn:Hu.
  { apply Next. intros ->. apply Hs. rewrite He in Hu. apply undirected_sameE in Hu. exact Hu. }
  pose proof (he_at ts tid t k Ht) as Hh.
  destruct (edge_test_total (tedge t k)) as (r & Hr).
  { rewrite He. apply (hascorner_vok vs ts _ (I_ids _ _ _ _ I)). exists tid; eexists; eexists; exact Hh. }
  { rewrite He. apply (hascorner_vok vs ts _ (I_ids _ _ _ _ I)). exists tid. exact (he_corner2 ts _ _ _ _ Hh). }
  rewrite Hr. cbn [bind]. rewrite He in Hr.
  destruct (is_crossing r && nexists (tn t k)) eqn:Hx; [eauto|].
  apply Next. intros ->. apply andb_false_iff in Hx.
  assert (Hcr : is_crossing r = true) by now apply (crossing_test vs px py X XC a b va vb Na Nb _ _ r Hr).
  destruct Hx as [Hx|Hx]; [congruence|].
  destruct (M_glue _ _ M _ _ _ _ Hh) as [(Q & Ix & Iv)|G].
  - destruct Hc as (_ & C). rewrite inf_not_fin in Ix, Iv. apply negb_true_iff in Ix, Iv.
    pose proof (two_inf px py _ _ a b Ix Iv Fa Fb) as T. rewrite T in C.
    match type of C with (?x * _ < 0)%Q => destruct (Qlt_le_dec x 0); nra end.
  - unfold nexists in Hx. apply negb_false_iff, N.eqb_eq in Hx. rewrite Hx in G.
    apply he_lt in G. pose proof (M_len _ _ M). unfold NONE in G. lia.
Qed.

Lemma register_loop_total : forall n cur acc, EDok ts cur -> xing (efrom (d_edge cur)) (eto (d_edge cur)) ->
  exists l, register_loop n ts vs (Edge a b) (va, vb) cur acc = Ret l.
Proof.
  induction n as [|n IH]; intros cur acc (Hh & Hn) Xc; simpl; [eauto|].
  pose proof (glue_some _ _ M _ _ _ _ Hh Hn) as (z & n3 & n4 & V).
  destruct (view_nth _ _ _ _ _ _ _ _ V) as (t & Ht).
  unfold getN. rewrite Ht. cbn [bind].
  destruct (verts_contains t b) eqn:Hb; [eauto|].
  set (u := efrom (d_edge cur)) in *. set (v := eto (d_edge cur)) in *.
  pose proof (M_cw _ _ M _ _ _ _ _ _ _ V) as C.
  assert (Hout : exists k, In k [I1; I2; I3] /\ crosses a b (tv t k) (tv t (next_cw k)) /\
     ~ sameE (tv t k) (tv t (next_cw k)) u v /\
     (xing (tv t k) (tv t (next_cw k)))).
  { assert (Nc : ~ corner ts (d_to cur) b).
    { intros K. apply (contains_corner px py ts _ _ _ Ht) in K. congruence. }
    pose proof (det_zero (pos v) (pos u)) as Z1. pose proof (det_zero (pos u) (pos v)) as Z2.
    pose proof (det_rot3 (pos v) (pos u) (pos z)) as Z3.
    assert (Hk : forall p q m, he ts (d_to cur) p q m -> xing p q -> ~ sameE p q u v ->
      exists k, In k [I1; I2; I3] /\ crosses a b (tv t k) (tv t (next_cw k)) /\
       ~ sameE (tv t k) (tv t (next_cw k)) u v /\ (xing (tv t k) (tv t (next_cw k)))).
    { intros p q m Hpq Xp Ns. apply he_inv in Hpq. destruct Hpq as (t0 & k & Ht0 & <- & <- & _).
      assert (t0 = t) by congruence. subst t0. exists k. split; [destruct k; simpl; auto|].
      split; [now apply (xing_crosses px py a b)|]. auto. }
    destruct (view_he _ _ _ _ _ _ _ _ V) as (H1 & H2 & H3).
    destruct (exit_edge _ _ _ _ _ _ _ Xc V Nc) as [K|K].
    - apply (Hk _ _ _ H2 K). intros [(_ & ->)|(-> & Q)]; [lra|]. rewrite Q in *. lra.
    - apply (Hk _ _ _ H3 K). intros [(-> & _)|(-> & Q)]; [lra|]. rewrite Q in *. lra. }
  destruct Hout as (k & Hk1 & Hk2 & Hk3 & Hk4).
  destruct (next_total t (d_to cur) (d_edge cur) Ht [I1; I2; I3]) as (d & Hd); [eauto|].
  unfold get_next_triangle_edge_intersection. rewrite Hd. cbn [bind].
  destruct (next_intersection_spec vs px py X XC a b va vb Na Nb ts _ _ _ Ht _ _ Hd) as (F1 & F2 & F3 & F4 & F5).
  apply IH.
  - split; auto. now rewrite F1.
  - destruct (he_cases _ _ _ _ _ _ _ _ _ _ _ V F2) as [(Q1 & Q2 & _)|[(Q1 & Q2 & _)|(Q1 & Q2 & _)]].
    + exfalso. apply F5. right. fold u v. auto.
    + apply (cross_signs vs px py X a b va vb Na Nb); auto. rewrite Q1. apply Xc.
    + apply (cross_signs vs px py X a b va vb Na Nb); auto.
      destruct F4 as (F4 & _). rewrite Q1, Q2 in F4. rewrite Q1. destruct Xc as (_ & Xv & _). destruct (Qprod_neg _ _ F4); lra.
Qed.

(** The whole search returns a list. *)
Theorem register_found v2t start : nthN v2t a = Some start -> corner ts start a ->
  exists l, register_intersected_edges ts vs (Edge a b) (va, vb) v2t = Ret l.
Proof.
  intros Hv Ca. unfold register_intersected_edges, getN. cbn [efrom]. rewrite Hv. cbn [bind].
  destruct (search_total start Ca) as (r & Hr & Hne). rewrite Hr. cbn [bind].
  destruct r as [|d|]; [eauto| |congruence].
  pose proof (search_sound vs px py X XC a b va vb Na Nb Hab ts M start _ Ca Hr) as (Ok & Xd & _).
  now apply register_loop_total.
Qed.

End WithEnv.
