(** * CDelTwo: constraints that cross at most two edges, one after the other. *)

From Coq Require Import NArith List Bool Lia QArith Lqa Permutation.
From Verif Require Import Base BaseFacts Arith Types Utils Infinite Triangulation Constrained Geom Mesh
  MeshOps Exact ExactC MeshVerts AnyDT SpecCdt AnyCDT Walk Insert DTExact Spec DTOut CSwap CCross CReg CPres
  CTerm CApply CTotal Lifted CLocal CDel.
Import ListNotations.
Local Open Scope N_scope.

(** ** A segment through a corner of a triangle *)

(** [A], [B], [C] are the coordinates of a point in a triangle a, y, b and L the side of a
    point on the line c d. The segment c d crosses the edge a y, has no end in the triangle and
    does not cross a b: it crosses the segment from y to any point z across a b. *)
Lemma cross_pure (Ac Bc Cc Ad Bd Cd Az Bz Cz La Ly Lb Lz K : Q) :
  (K < 0 -> Ac + Bc + Cc == K -> Az < 0 -> Cz < 0 -> 0 < Bz ->
   Ac * La + Bc * Ly + Cc * Lb == 0 -> Ad * La + Bd * Ly + Cd * Lb == 0 ->
   K * Lz == Az * La + Bz * Ly + Cz * Lb ->
   0 < La -> Ly < 0 -> Cd < 0 -> 0 < Cc ->
   ~ (Ad < 0 /\ Bd <= 0 /\ Cd < 0) -> ~ (La * Lb < 0 /\ Bc * Bd < 0) ->
   Ly * Lz < 0 /\ (Cz * Ac - Az * Cc) * (Cz * Ad - Az * Cd) < 0)%Q.
Proof.
  intros HK Sc HAz HCz HBz Ec Ed Ez HLa HLy HCd HCc Ins Ncr.
  destruct (Qlt_le_dec Lb 0) as [Hb|Hb].
  - exfalso.
    destruct (Qlt_le_dec 0 Bd) as [Bp|Bn].
    + assert (Bc0 : (0 <= Bc)%Q).
      { destruct (Qlt_le_dec Bc 0) as [Q|Q]; auto. exfalso. apply Ncr. split.
        - assert (0 < La * - Lb)%Q by (apply Qmul_pos; lra). lra.
        - assert (0 < - Bc * Bd)%Q by (apply Qmul_pos; lra). lra. }
      assert (0 <= Bc * - Ly)%Q by (apply Qmult_le_0_compat; lra).
      assert (0 < Cc * - Lb)%Q by (apply Qmul_pos; lra).
      assert (Ac < 0)%Q by lra.
      assert (0 < - Ac * La)%Q by (apply Qmul_pos; lra). lra.
    + apply Ins. split; [|split; auto].
      destruct (Qlt_le_dec Ad 0) as [Q|Q]; auto. exfalso.
      assert (0 <= Ad * La)%Q by (apply Qmult_le_0_compat; lra).
      assert (0 <= - Bd * - Ly)%Q by (apply Qmult_le_0_compat; lra).
      assert (0 < - Cd * - Lb)%Q by (apply Qmul_pos; lra). lra.
  - assert (Z : (0 < Lz)%Q).
    { destruct (Qlt_le_dec 0 Lz) as [Q|Q]; auto. exfalso.
      assert (0 <= - K * - Lz)%Q by (apply Qmult_le_0_compat; lra).
      assert (0 < - Az * La)%Q by (apply Qmul_pos; lra).
      assert (0 < Bz * - Ly)%Q by (apply Qmul_pos; lra).
      assert (0 <= - Cz * Lb)%Q by (apply Qmult_le_0_compat; lra). lra. }
    split.
    { assert (0 < - Ly * Lz)%Q by (apply Qmul_pos; lra). lra. }
    assert (Pd : (Cz * Ad - Az * Cd < 0)%Q).
    { destruct (Qlt_le_dec (Cz * Ad - Az * Cd) 0) as [Q|Q]; auto. exfalso.
      assert (P1 : (0 < - Az * - Cd)%Q) by (apply Qmul_pos; lra).
      assert (Adn : (Ad < 0)%Q).
      { destruct (Qlt_le_dec Ad 0) as [Q'|Q']; auto. exfalso.
        assert (0 <= - Cz * Ad)%Q by (apply Qmult_le_0_compat; lra). lra. }
      apply Ins. split; auto. split; auto.
      destruct (Qlt_le_dec 0 Bd) as [Q'|Q']; auto. exfalso.
      assert (0 < - Ad * La)%Q by (apply Qmul_pos; lra).
      assert (0 < Bd * - Ly)%Q by (apply Qmul_pos; lra).
      assert (0 <= - Cd * Lb)%Q by (apply Qmult_le_0_compat; lra). lra. }
    assert (Pc : (0 < Cz * Ac - Az * Cc)%Q).
    { assert (P1 : (0 < - Az * Cc)%Q) by (apply Qmul_pos; lra).
      destruct (Qlt_le_dec 0 Ac) as [Q|Q].
      - exfalso. assert (Bc < 0)%Q by lra.
        assert (0 < Ac * La)%Q by (apply Qmul_pos; lra).
        assert (0 < - Bc * - Ly)%Q by (apply Qmul_pos; lra).
        assert (0 <= Cc * Lb)%Q by (apply Qmult_le_0_compat; lra). lra.
      - assert (0 <= - Cz * - Ac)%Q by (apply Qmult_le_0_compat; lra). lra. }
    assert (0 < (Cz * Ac - Az * Cc) * - (Cz * Ad - Az * Cd))%Q by (apply Qmul_pos; lra). lra.
Qed.

Lemma cross_pure4 (Ac Bc Cc Ad Bd Cd Az Bz Cz La Ly Lb Lz K : Q) :
  (K < 0 -> Ac + Bc + Cc == K -> Ad + Bd + Cd == K -> Az < 0 -> Cz < 0 -> 0 < Bz ->
   Ac * La + Bc * Ly + Cc * Lb == 0 -> Ad * La + Bd * Ly + Cd * Lb == 0 ->
   K * Lz == Az * La + Bz * Ly + Cz * Lb ->
   La * Ly < 0 -> Cc * Cd < 0 ->
   ~ (Ac < 0 /\ Bc <= 0 /\ Cc < 0) -> ~ (Ad < 0 /\ Bd <= 0 /\ Cd < 0) -> ~ (La * Lb < 0 /\ Bc * Bd < 0) ->
   Ly * Lz < 0 /\ (Cz * Ac - Az * Cc) * (Cz * Ad - Az * Cd) < 0)%Q.
Proof.
  intros HK Sc Sd HAz HCz HBz Ec Ed Ez HL HC Inc Ind Ncr.
  assert (Ncr' : (~ (La * Lb < 0 /\ Bd * Bc < 0))%Q) by (intros (Q1 & Q2); apply Ncr; split; lra).
  assert (Nn : (- La * - Lb == La * Lb)%Q) by ring.
  destruct (Qprod_neg _ _ HC) as [(C1 & C2)|(C1 & C2)]; destruct (Qprod_neg _ _ HL) as [(L1 & L2)|(L1 & L2)];
  match goal with
  | H1 : (Cc < 0)%Q, H2 : (0 < La)%Q |- _ =>
      destruct (cross_pure Ad Bd Cd Ac Bc Cc Az Bz Cz La Ly Lb Lz K) as (R1 & R2); auto
  | H1 : (Cc < 0)%Q, H2 : (La < 0)%Q |- _ =>
      destruct (cross_pure Ad Bd Cd Ac Bc Cc Az Bz Cz (- La) (- Ly) (- Lb) (- Lz) K) as (R1 & R2); auto; try lra;
      try (intros (Q1 & Q2); apply Ncr'; split; lra)
  | H1 : (0 < Cc)%Q, H2 : (0 < La)%Q |- _ =>
      destruct (cross_pure Ac Bc Cc Ad Bd Cd Az Bz Cz La Ly Lb Lz K) as (R1 & R2); auto
  | H1 : (0 < Cc)%Q, H2 : (La < 0)%Q |- _ =>
      destruct (cross_pure Ac Bc Cc Ad Bd Cd Az Bz Cz (- La) (- Ly) (- Lb) (- Lz) K) as (R1 & R2); auto; try lra;
      try (intros (Q1 & Q2); apply Ncr; split; lra)
  end; split; lra.
Qed.

Section WithEnv.
Context {E : Env}.
Variable vs : list vertex.
Variables px py : N -> Q.
Hypothesis X : Exact vs px py.
Hypothesis XC : ExactC vs px py.

Notation pos := (hpos px py).
Notation D a b c := (det (pos a) (pos b) (pos c)).
Notation Mesh := (Mesh pos).
Notation vok := (vok vs).
Notation MInv := (MInv vs px py).
Notation VT := (VT vs).
Notation crosses := (crosses px py).
Notation fin v := (is_finite v = true).
Notation ldel := (ldel px py).
Notation Good := (Good px py).
Notation few := (few px py).
Notation xing := (xing px py).

Lemma bary_side a y b c d p :
  (D y b p * D c d a + D b a p * D c d y + D a y p * D c d b == D a y b * D c d p)%Q.
Proof. unfold det. ring. Qed.

Lemma bary_sum a y b p : fin a -> fin y -> fin b -> fin p -> (D y b p + D b a p + D a y p == D a y b)%Q.
Proof.
  intros Fa Fy Fb Fp. rewrite (hpos_fin px py a Fa), (hpos_fin px py y Fy), (hpos_fin px py b Fb), (hpos_fin px py p Fp).
  unfold det; simpl. ring.
Qed.

Lemma bary_line a y b z p : (D a y b * D y z p == D a y z * D y b p - D y b z * D a y p)%Q.
Proof. unfold det. ring. Qed.

(** The coordinates of a point across a b, seen from y. *)
Lemma across a y b z : fin a -> fin y -> fin b -> fin z -> (D a y b < 0)%Q -> crosses a b y z ->
  (D y b z < 0 /\ D a y z < 0 /\ 0 < D b a z)%Q.
Proof.
  intros Fa Fy Fb Fz K (C1 & C2). pose proof (bary_sum a y b z Fa Fy Fb Fz) as S.
  destruct (det_anti (pos a) (pos y) (pos b)) as (_ & K1 & _).
  destruct (det_anti (pos a) (pos b) (pos z)) as (K2 & _ & _).
  destruct (det_rot3 (pos a) (pos y) (pos z)) as (K3 & _).
  destruct (det_anti (pos y) (pos b) (pos z)) as (_ & K4 & _).
  destruct (Qprod_neg _ _ C1) as [(Q1 & Q2)|(Q1 & Q2)]; [lra|].
  assert (Hb : (0 < D b a z)%Q) by lra.
  destruct (Qprod_neg _ _ C2) as [(Q3 & Q4)|(Q3 & Q4)]; split; try split; lra.
Qed.

Lemma side_zero c d : (D c d c == 0 /\ D c d d == 0)%Q.
Proof. destruct (det_zero (pos c) (pos d)) as (_ & A & _). destruct (det_zero (pos d) (pos c)) as (_ & _ & B). auto. Qed.

Definition within3 (a y b p : N) : Prop := (D y b p <= 0 /\ D b a p <= 0 /\ D a y p <= 0)%Q.

(** The segment c d crosses the edge from y to a or to b. *)
Lemma cross_through a y b z c d e : e = a \/ e = b ->
  fin a -> fin y -> fin b -> fin z -> fin c -> fin d ->
  (D a y b < 0)%Q -> crosses a b y z -> crosses c d e y -> ~ crosses c d a b ->
  (forall p, p = c \/ p = d -> within3 a y b p -> p = a \/ p = y \/ p = b) ->
  crosses c d y z.
Proof.
  intros He Fa Fy Fb Fz Fc Fd K Cz Ce Nab Ex.
  destruct (across a y b z Fa Fy Fb Fz K Cz) as (Az & Cz' & Bz).
  destruct (side_zero c d) as (Zc & Zd).
  pose proof (bary_side a y b c d c) as Sc. pose proof (bary_side a y b c d d) as Sd. rewrite Zc in Sc. rewrite Zd in Sd.
  pose proof (bary_side a y b c d z) as Sz.
  pose proof (bary_sum a y b c Fa Fy Fb Fc) as Tc. pose proof (bary_sum a y b d Fa Fy Fb Fd) as Td.
  pose proof (bary_line a y b z c) as Lc. pose proof (bary_line a y b z d) as Ld.
  destruct (side_zero a y) as (Za1 & Za2). destruct (side_zero y b) as (Zb1 & Zb2).
  assert (Out : forall p, p = c \/ p = d -> ~ (D y b p < 0 /\ D b a p <= 0 /\ D a y p < 0)%Q).
  { intros p Hp (Q1 & Q2 & Q3). destruct (Ex p Hp) as [->|[->| ->]]; [unfold within3; lra|lra|lra|lra]. }
  destruct Ce as (Ce1 & Ce2).
  assert (Nab' : ~ (D c d a * D c d b < 0 /\ D b a c * D b a d < 0)%Q).
  { intros (Q1 & Q2). apply Nab. split; auto.
    destruct (det_anti (pos a) (pos b) (pos c)) as (P1 & _). destruct (det_anti (pos a) (pos b) (pos d)) as (P2 & _).
    rewrite P1, P2 in Q2. lra. }
  assert (Fin : (D c d y * D c d z < 0 ->
     (D a y z * D y b c - D y b z * D a y c) * (D a y z * D y b d - D y b z * D a y d) < 0 -> crosses c d y z)%Q).
  { intros Q1 Q2. split; auto. rewrite <- Lc, <- Ld in Q2.
    assert (KK : (0 < D a y b * D a y b)%Q) by nra.
    destruct (Qlt_le_dec (D y z c * D y z d) 0) as [Q|Q]; auto. exfalso.
    assert (0 <= (D a y b * D a y b) * (D y z c * D y z d))%Q by (apply Qmult_le_0_compat; lra). lra. }
  destruct He as [-> | ->].
  - destruct (cross_pure4 (D y b c) (D b a c) (D a y c) (D y b d) (D b a d) (D a y d) (D y b z) (D b a z) (D a y z)
      (D c d a) (D c d y) (D c d b) (D c d z) (D a y b)) as (R1 & R2); auto; try lra.
  - destruct (det_anti (pos b) (pos y) (pos c)) as (P1 & _). destruct (det_anti (pos b) (pos y) (pos d)) as (P2 & _).
    assert (O1 : ~ (D a y c < 0 /\ D b a c <= 0 /\ D y b c < 0)%Q) by (intros (Q1 & Q2 & Q3); apply (Out c); auto).
    assert (O2 : ~ (D a y d < 0 /\ D b a d <= 0 /\ D y b d < 0)%Q) by (intros (Q1 & Q2 & Q3); apply (Out d); auto).
    assert (O3 : ~ (D c d b * D c d a < 0 /\ D b a c * D b a d < 0)%Q) by (intros (Q1 & Q2); apply Nab'; split; lra).
    assert (O4 : (D y b c * D y b d < 0)%Q) by (rewrite P1, P2; lra).
    destruct (cross_pure4 (D a y c) (D b a c) (D y b c) (D a y d) (D b a d) (D y b d) (D a y z) (D b a z) (D y b z)
      (D c d b) (D c d y) (D c d a) (D c d z) (D a y b)) as (R1 & R2); auto; try lra.
    apply Fin; lra.
Qed.

(** ** The corners of the changed triangles *)
Section Corners.
Variables R S : N -> Prop.

Definition stays (ts : list tri) : Prop := forall i p q r, R i -> T ts i p q r -> S p.

Lemma T_corner ts i p q r u v w : T ts i p q r -> T ts i u v w -> p = u \/ p = v \/ p = w.
Proof.
  intros (n1 & n2 & n3 & V) (m1 & m2 & m3 & V').
  destruct (view_fun _ _ _ _ _ _ _ _ _ _ _ _ _ _ V V') as [(-> & _)|[(_ & _ & -> & _)|(_ & -> & _)]]; auto.
Qed.

Lemma keeps_T ts ts' i p q r : keeps R ts ts' -> ~ R i -> T ts' i p q r -> T ts i p q r.
Proof. intros K Hi. apply same_T. exact (K i Hi). Qed.

Lemma stays_swap ts v2t d q ts' v2t' upd : in_ids R d -> swap_quad_diagonal ts v2t d q = Ret (ts', v2t', upd) ->
  Swapped vs px py ts ts' v2t' d q upd -> stays ts -> stays ts'.
Proof.
  intros (R1 & R2) Hs W St i p p' r Hi Ti.
  destruct (W_old _ _ _ _ _ _ _ _ _ W) as (k1 & k2 & k3 & k4 & O1 & O2).
  destruct (W_from _ _ _ _ _ _ _ _ _ W) as (a1 & a2 & a3 & A).
  destruct (W_to _ _ _ _ _ _ _ _ _ W) as (b1 & b2 & b3 & B).
  assert (T1 : T ts (d_from d) (q4 q) (q1 q) (q2 q)) by (eexists; eexists; eexists; exact O1).
  assert (T2 : T ts (d_to d) (q2 q) (q1 q) (q3 q)) by (eexists; eexists; eexists; exact O2).
  assert (S4 : S (q4 q)) by exact (St _ _ _ _ R1 T1).
  assert (S1 : S (q1 q)) by exact (St _ _ _ _ R1 (T_rot _ _ _ _ _ T1)).
  assert (S2 : S (q2 q)) by exact (St _ _ _ _ R2 T2).
  assert (S3 : S (q3 q)) by exact (St _ _ _ _ R2 (T_rot2 _ _ _ _ _ T2)).
  destruct (N.eq_dec i (d_from d)) as [-> |Hf].
  { destruct (T_corner ts' _ _ _ _ (q4 q) (q1 q) (q3 q) Ti) as [->|[->| ->]]; auto. eexists; eexists; eexists; exact A. }
  destruct (N.eq_dec i (d_to d)) as [-> |Ht].
  { destruct (T_corner ts' _ _ _ _ (q4 q) (q3 q) (q2 q) Ti) as [->|[->| ->]]; auto. eexists; eexists; eexists; exact B. }
  destruct (swap_keeps (fun j => j = d_from d \/ j = d_to d) _ _ _ _ _ _ _ (conj (or_introl eq_refl) (or_intror eq_refl)) Hs) as (K & _).
  apply (St i p p' r Hi). refine (same_T _ _ _ _ _ _ _ Ti). apply K. intros [Q|Q]; auto.
Qed.

Lemma remove_stays va vb : forall fuel ts v2t inters news nc ts' v2t' news',
  MInv ts -> VT ts v2t -> Pend ts (inters ++ news) ->
  Forall (in_ids R) inters -> Forall (in_ids R) news -> stays ts ->
  remove_crossed_edges fuel ts vs v2t (va, vb) inters news nc = Ret (ts', v2t', news') -> stays ts'.
Proof.
  induction fuel as [|fuel IH]; intros ts v2t inters news nc ts' v2t' news' I V Pd FI FN St H.
  - destruct inters as [|d inters]; simpl in H; [|discriminate]. inversion H; subst. exact St.
  - destruct inters as [|d inters]; simpl in H; [inversion H; subst; exact St|].
    destruct (lenN inters <? nc); [discriminate|].
    inversion FI as [|? ? Fd FI']; subst.
    assert (Hd : EDok ts d) by (apply (P_ok _ _ Pd); now left).
    destruct (pend_quad vs px py ts d I Hd) as (q & Hq & Q1 & Q2 & V1 & V2 & V3 & V4 & C1 & C2).
    rewrite Hq in H. cbn [bind] in H.
    destruct (quad_diagonals_intersection vs q) as [x| | |] eqn:HI; cbn [bind] in H; try discriminate.
    destruct (is_crossing x) eqn:Hx; cbn [negb] in H.
    + assert (N12 : (D (q4 q) (q1 q) (q3 q) < 0 /\ D (q4 q) (q3 q) (q2 q) < 0)%Q).
      { apply (crosses_convex px py); auto. now apply (quad_crossing vs px py X XC q x). }
      destruct N12 as (N1 & N2). cbn [app] in Pd.
      destruct (pend_swap vs px py ts v2t d (inters ++ news) q I V Pd Hq N1 N2) as (ts1 & v1 & upd & Hs & W & Pd1 & U).
      rewrite Hs in H. cbn [bind d_edge] in H.
      destruct (edge_and_constrained_edge_intersection vs (Edge (q3 q) (q4 q)) (va, vb)) as [y| | |] eqn:HY;
        cbn [bind] in H; try discriminate.
      set (d' := ED (d_from d) (d_to d) (Edge (q3 q) (q4 q))) in *. rewrite map_app in Pd1.
      pose proof (stays_swap _ _ _ _ _ _ _ Fd Hs W St) as St1.
      destruct (swap_keeps R _ _ _ _ _ _ _ Fd Hs) as (_ & Ui).
      assert (Fm : forall l, Forall (in_ids R) l -> Forall (in_ids R) (map upd l)).
      { intros l F. induction F; cbn [map]; constructor; auto. }
      assert (Fd' : in_ids R d') by exact Fd.
      destruct (is_crossing y).
      * eapply IH; [exact (W_inv _ _ _ _ _ _ _ _ _ W)|exact (W_vt _ _ _ _ _ _ _ _ _ W)| | | |exact St1|exact H]; auto.
        -- eapply pend_perm; [|exact Pd1]. rewrite <- app_assoc. simpl. apply Permutation_middle.
        -- apply Forall_app; split; auto.
      * eapply IH; [exact (W_inv _ _ _ _ _ _ _ _ _ W)|exact (W_vt _ _ _ _ _ _ _ _ _ W)| | | |exact St1|exact H]; auto.
        -- eapply pend_perm; [|exact Pd1]. rewrite app_assoc. apply Permutation_cons_append.
        -- apply Forall_app; split; auto.
    + eapply IH; [exact I|exact V| | |exact FN|exact St|exact H].
      * eapply pend_perm; [|exact Pd]. rewrite <- app_assoc. simpl. apply Permutation_middle.
      * apply Forall_app; split; auto.
Qed.

Lemma restore_stays a b : forall fuel ts v2t news hist ts' v2t',
  MInv ts -> VT ts v2t -> Pend ts news -> Forall (in_ids R) news -> stays ts ->
  restore_constrained fuel ts vs v2t (Edge a b) news hist = Ret (ts', v2t') -> stays ts'.
Proof.
  induction fuel as [|fuel IH]; intros ts v2t news hist ts' v2t' I V Pd FN St H.
  - destruct news as [|d news]; simpl in H; [|discriminate]. inversion H; subst. exact St.
  - destruct news as [|d news]; simpl in H; [inversion H; subst; exact St|].
    pose proof (pend_tail _ _ _ Pd) as Pt. inversion FN as [|? ? Fd FN']; subst.
    destruct (undirected_equals (d_edge d) (Edge a b)); [exact (IH _ _ _ _ _ _ I V Pt FN' St H)|].
    assert (Hd : EDok ts d) by (apply (P_ok _ _ Pd); now left).
    destruct (pend_quad vs px py ts d I Hd) as (q & Hq & Q1 & Q2 & V1 & V2 & V3 & V4 & C1 & C2).
    rewrite Hq in H. cbn [bind] in H.
    destruct (constrained_should_swap_diagonals q vs) as [sw| | |] eqn:Hsw; cbn [bind] in H; try discriminate.
    destruct (sw && negb (history_mem hist (d_from d, d_to d))) eqn:Hb; [|exact (IH _ _ _ _ _ _ I V Pt FN' St H)].
    apply andb_true_iff in Hb. destruct Hb as (-> & _).
    assert (N12 : (D (q4 q) (q1 q) (q3 q) < 0 /\ D (q4 q) (q3 q) (q2 q) < 0)%Q).
    { destruct q as [u v c w]; cbn [q1 q2 q3 q4] in *.
      eapply (constrained_swap_convex vs px py X u v c w); eauto. }
    destruct N12 as (N1 & N2).
    destruct (pend_swap vs px py ts v2t d news q I V Pd Hq N1 N2) as (ts1 & v1 & upd & Hs & W & Pd1 & U).
    rewrite Hs in H. cbn [bind] in H.
    destruct (swap_keeps R _ _ _ _ _ _ _ Fd Hs) as (_ & Ui).
    eapply IH; [exact (W_inv _ _ _ _ _ _ _ _ _ W)|exact (W_vt _ _ _ _ _ _ _ _ _ W)| | | |exact H].
    + eapply pend_perm; [|exact Pd1]. apply Permutation_cons_append.
    + apply Forall_app; split; [|repeat constructor; apply Fd].
      clear - FN' Ui. induction FN'; cbn [map]; constructor; auto.
    + exact (stays_swap _ _ _ _ _ _ _ Fd Hs W St).
Qed.
End Corners.

(** ** A constraint changes a few triangles with empty circles *)
Section Step.
Variables ts ts' : list tri.
Hypothesis I : MInv ts.
Hypothesis I' : MInv ts'.
Variables R S : N -> Prop.
Hypothesis Rd : forall i, R i \/ ~ R i.
Hypothesis Kp : keeps R ts ts'.
Hypothesis Sty0 : stays R S ts.
Hypothesis Sty : stays R S ts'.
Hypothesis FS : forall v, S v -> fin v.
Hypothesis Em : forall i p q r v, R i -> T ts i p q r -> S v -> ldel p q r v.

Let M := I_mesh _ _ _ _ I.
Let M' := I_mesh _ _ _ _ I'.

Lemma keep_T i p q r : ~ R i -> T ts i p q r -> T ts' i p q r.
Proof. intros Hi. apply same_T. symmetry. exact (Kp i Hi). Qed.

Lemma back_T i p q r : ~ R i -> T ts' i p q r -> T ts i p q r.
Proof. intros Hi. apply same_T. exact (Kp i Hi). Qed.

(** The third corner of a triangle along an edge of both meshes. *)
Lemma apex i j x y p p' : T ts i x y p -> T ts' j x y p' -> fin p' -> fin p /\ ldel x y p p'.
Proof.
  intros Ti Tj Fp'.
  assert (Eq : p = p' -> fin p /\ ldel x y p p') by (intros ->; split; auto; now intros f _ _ Q; rewrite Q; apply Qle_refl).
  destruct (Rd i) as [Ri|Ri].
  - destruct (Rd j) as [Rj|Rj].
    + split; [exact (FS _ (Sty0 _ _ _ _ Ri (T_rot2 _ _ _ _ _ Ti)))|].
      apply (Em i); auto. exact (Sty _ _ _ _ Rj (T_rot2 _ _ _ _ _ Tj)).
    + apply Eq. now destruct (T_share px py _ _ _ _ _ _ _ M Ti (back_T _ _ _ _ Rj Tj)).
  - apply Eq. now destruct (T_share px py _ _ _ _ _ _ _ M' (keep_T _ _ _ _ Ri Ti) Tj).
Qed.

Lemma border_good x y : medge ts x y -> Good ts x y -> Good ts' x y.
Proof.
  intros Hm G i j p' q' Ti Tj Fx Fy Fp Fq.
  destruct (medge_both px py x y Fx Fy ts M Hm) as ((i0 & n1 & p & k1 & k2 & V1) & (j0 & n2 & q & k3 & k4 & V2)).
  assert (Ti0 : T ts i0 x y p) by (exists n1, k1, k2; exact V1).
  assert (Tj0 : T ts j0 y x q) by (exists n2, k3, k4; exact V2).
  destruct (apex _ _ _ _ _ _ Ti0 Ti Fp) as (Fp0 & Lp). destruct (apex _ _ _ _ _ _ Tj0 Tj Fq) as (Fq0 & Lq).
  pose proof (T_cw px py _ _ _ _ _ M Ti0) as C1. pose proof (T_cw px py _ _ _ _ _ M Tj0) as C2.
  pose proof (T_cw px py _ _ _ _ _ M' Ti) as C3. pose proof (T_cw px py _ _ _ _ _ M' Tj) as C4.
  pose proof (G _ _ _ _ Ti0 Tj0 Fx Fy Fp0 Fq0) as L0.
  pose proof (pencil px py x y p p' q Fx Fy Fp0 Fp Fq0 C1 C3 C2 Lp L0) as L1.
  apply ldel_sym in L1; auto.
  pose proof (pencil px py y x q q' p' Fy Fx Fq0 Fq Fp C2 C4 C3 Lq L1) as L2.
  apply ldel_sym; auto.
Qed.

(** The edges crossed by another segment. *)
Lemma few_step (New : N -> N -> N -> N -> Prop) c d vc vd : nthN vs c = Some vc -> nthN vs d = Some vd -> few ts c d ->
  (forall x y, medge ts' x y -> ~ medge ts x y -> crosses c d x y ->
     exists u v, New x y u v /\ medge ts u v /\ ~ medge ts' u v /\ crosses c d u v) ->
  (forall x y u v x' y' u' v', New x y u v -> New x' y' u' v' -> sameE u v u' v' -> sameE x y x' y') ->
  few ts' c d.
Proof.
  intros Nc Nd Hf Hn Inj l Hl Hx.
  set (rel := fun e f : edge_data =>
    (medge ts (efrom (d_edge e)) (eto (d_edge e)) /\ f = e) \/
    (exists u v, New (efrom (d_edge e)) (eto (d_edge e)) u v /\ sameE u v (efrom (d_edge f)) (eto (d_edge f)) /\ ~ medge ts' u v)).
  assert (K : exists k, Forall2 rel l k /\ ForallOrdPairs (fun e f => ~ sameED e f) k /\
    (forall f, In f k -> medge ts (efrom (d_edge f)) (eto (d_edge f)) /\ xing c d (efrom (d_edge f)) (eto (d_edge f)))).
  { revert Hx. induction Hl as [|e l He Hl IH]; intros Hx.
    - exists []. split; [constructor|]. split; [constructor|]. intros f [].
    - destruct IH as (k & F2 & Fo & Hk); [intros f Hin; apply Hx; now right|].
      destruct (Hx e (or_introl eq_refl)) as (Me & Xe).
      assert (Ex : exists f, rel e f /\ medge ts (efrom (d_edge f)) (eto (d_edge f)) /\ xing c d (efrom (d_edge f)) (eto (d_edge f))).
      { destruct (medge_dec ts (efrom (d_edge e)) (eto (d_edge e))) as [Ho|Ho].
        - exists e. split; [left; auto|auto].
        - destruct (Hn _ _ Me Ho (xing_crosses px py c d _ _ Xe)) as (u & v & Nw & Muv & Nm & Cr).
          destruct (cross_cases vs px py X c d vc vd Nc Nd u v Cr) as [Xu|Xu].
          + exists (ED 0 0 (Edge u v)). cbn [d_edge efrom eto]. split; auto. right. exists u, v. split; auto. split; auto. now left.
          + exists (ED 0 0 (Edge v u)). cbn [d_edge efrom eto]. split; [|split; auto; now apply medge_sym].
            right. exists u, v. split; auto. split; auto. now right. }
      destruct Ex as (f & Rf & Mf & Xf). exists (f :: k). split; [constructor; auto|]. split.
      + constructor; auto. apply Forall_forall. intros g Hg S1.
        assert (G : exists e', In e' l /\ rel e' g).
        { clear - F2 Hg. induction F2 as [|e0 g0 l0 k0 H0 F IH]; [contradiction|]. destruct Hg as [<-|Hg].
          - exists e0. split; auto. now left.
          - destruct (IH Hg) as (e' & A & B). exists e'. split; auto. now right. }
        destruct G as (e' & He' & Rg). rewrite Forall_forall in He. apply (He e' He'). unfold sameED in *.
        assert (Old : forall e0, In e0 (e :: l) -> medge ts' (efrom (d_edge e0)) (eto (d_edge e0))) by (intros e0 H0; now apply Hx).
        destruct Rf as [(_ & ->)|(u & v & Nw & Su & Nm)], Rg as [(_ & ->)|(u' & v' & Nw' & Su' & Nm')]; auto.
        * exfalso. apply Nm'. apply sameE_sym in Su'. pose proof (Old e (or_introl eq_refl)) as Mo.
          destruct (sameE_trans _ _ _ _ _ _ S1 Su') as [(<- & <-)|(<- & <-)]; auto. now apply medge_sym.
        * exfalso. apply Nm. pose proof (Old e' (or_intror He')) as Mo.
          destruct (sameE_trans _ _ _ _ _ _ Su S1) as [(-> & ->)|(-> & ->)]; auto. now apply medge_sym.
        * apply (Inj _ _ u v _ _ u' v' Nw Nw'). eapply sameE_trans; [exact Su|]. eapply sameE_trans; [exact S1|]. now apply sameE_sym.
      + intros g [<-|Hg]; auto. }
  destruct K as (k & F2 & Fo & Hk). pose proof (Hf k Fo Hk) as Lk.
  assert (Ln : length l = length k) by (clear - F2; induction F2; simpl; congruence). lia.
Qed.
End Step.

Lemma ldel_own p q r v : v = p \/ v = q \/ v = r -> ldel p q r v.
Proof. intros [->|[->| ->]] f A B C; rewrite ?A, ?B, ?C; apply Qle_refl. Qed.

Lemma ldel_T ts i p q r u v w x : T ts i p q r -> T ts i u v w -> ldel u v w x -> ldel p q r x.
Proof.
  intros (n1 & n2 & n3 & V) (m1 & m2 & m3 & V') L.
  destruct (view_fun _ _ _ _ _ _ _ _ _ _ _ _ _ _ V V') as [(-> & -> & -> & _)|[(-> & -> & -> & _)|(-> & -> & -> & _)]]; auto.
  - now apply ldel_rot, ldel_rot.
  - now apply ldel_rot.
Qed.

(** ** One crossed edge *)
Section Quadrilateral.
Variables ts ts' : list tri.
Hypothesis I : MInv ts.
Hypothesis I' : MInv ts'.
Variables a b u l t0 t1 : N.
Hypothesis Fa : fin a.
Hypothesis Fb : fin b.
Hypothesis Fu : fin u.
Hypothesis Fl : fin l.
Hypothesis T0 : T ts t0 u l a.
Hypothesis T1 : T ts t1 l u b.
Hypothesis G0 : Good ts u l.
Definition R2 (i : N) : Prop := i = t0 \/ i = t1.
Definition S4 (v : N) : Prop := v = a \/ v = b \/ v = u \/ v = l.
Hypothesis Kp : keeps R2 ts ts'.
Hypothesis Sty : stays R2 S4 ts'.

Let M := I_mesh _ _ _ _ I.
Let M' := I_mesh _ _ _ _ I'.

Lemma quad_rd i : R2 i \/ ~ R2 i.
Proof. unfold R2. destruct (N.eq_dec i t0), (N.eq_dec i t1); tauto. Qed.

Lemma quad_stays : stays R2 S4 ts.
Proof.
  intros i p q r [->| ->] Ti; unfold S4.
  - destruct (T_corner _ _ _ _ _ _ _ _ Ti T0) as [->|[->| ->]]; auto.
  - destruct (T_corner _ _ _ _ _ _ _ _ Ti T1) as [->|[->| ->]]; auto.
Qed.

Lemma quad_empty i p q r v : R2 i -> T ts i p q r -> S4 v -> ldel p q r v.
Proof.
  pose proof (G0 _ _ _ _ T0 T1 Fu Fl Fa Fb) as L0.
  pose proof (T_cw px py _ _ _ _ _ M T0) as C0. pose proof (T_cw px py _ _ _ _ _ M T1) as C1.
  pose proof (ldel_sym px py u l a b Fu Fl Fa Fb C0 C1 L0) as L1.
  intros [->| ->] Ti Sv.
  - apply (ldel_T _ _ _ _ _ _ _ _ _ Ti T0). destruct Sv as [->|[->|[->| ->]]]; auto; apply ldel_own; auto.
  - apply (ldel_T _ _ _ _ _ _ _ _ _ Ti T1). destruct Sv as [->|[->|[->| ->]]]; auto; apply ldel_own; auto.
Qed.

Lemma quad_fin v : S4 v -> fin v.
Proof. intros [->|[->|[->| ->]]]; auto. Qed.

Lemma quad_good x y : medge ts x y -> Good ts x y -> Good ts' x y.
Proof. exact (border_good ts ts' I I' R2 S4 quad_rd Kp quad_stays Sty quad_fin quad_empty x y). Qed.

Lemma medge_T ts0 i p q r : T ts0 i p q r -> medge ts0 p q /\ medge ts0 q r /\ medge ts0 r p.
Proof. intros Ti. split; [|split]; [exact (T_medge _ _ _ _ _ Ti)|exact (T_medge _ _ _ _ _ (T_rot _ _ _ _ _ Ti))|exact (T_medge _ _ _ _ _ (T_rot2 _ _ _ _ _ Ti))]. Qed.

Lemma T_ne ts0 i p q r : Mesh ts0 -> T ts0 i p q r -> p <> q.
Proof. intros M0 Ti. now destruct (D_distinct _ _ _ _ (T_cw px py _ _ _ _ _ M0 Ti)). Qed.

Lemma quad_new x y : medge ts' x y -> ~ medge ts x y -> sameE x y a b.
Proof.
  assert (K : forall i p q r, T ts' i p q r -> ~ medge ts p q -> sameE p q a b).
  { intros i p q r Ti Nm. destruct (quad_rd i) as [Ri|Ri].
    2:{ exfalso. apply Nm. exact (T_medge _ _ _ _ _ (same_T _ _ _ _ _ _ (Kp i Ri) Ti)). }
    pose proof (Sty _ _ _ _ Ri Ti) as Sp. pose proof (Sty _ _ _ _ Ri (T_rot _ _ _ _ _ Ti)) as Sq.
    pose proof (T_ne _ _ _ _ _ M' Ti) as Hne.
    destruct (medge_T _ _ _ _ _ T0) as (E1 & E2 & E3). destruct (medge_T _ _ _ _ _ T1) as (E4 & E5 & E6).
    destruct Sp as [->|[->|[->| ->]]], Sq as [->|[->|[->| ->]]];
      try contradiction; try (now left); try (now right); exfalso; apply Nm; auto; now apply medge_sym. }
  intros [(i & n & w & k1 & k2 & V)|(i & n & w & k1 & k2 & V)] Nm.
  - apply (K i x y w); auto. exists n, k1, k2. exact V.
  - apply sameE_flip. apply (K i y x w); auto; [exists n, k1, k2; exact V|]. intros Q. apply Nm. now apply medge_sym.
Qed.

Lemma quad_few c d vc vd : nthN vs c = Some vc -> nthN vs d = Some vd -> ~ crosses c d a b -> few ts c d -> few ts' c d.
Proof.
  intros Nc Nd Nx Hf. apply (few_step ts ts' (fun _ _ _ _ => False) c d vc vd Nc Nd Hf); [|contradiction].
  intros x y Hm Nm Cr. exfalso. apply Nx. exact (crosses_same px py c d x y a b (quad_new x y Hm Nm) Cr).
Qed.
End Quadrilateral.

(** ** Two crossed edges *)
Section Pentagon.
Variables ts ts' : list tri.
Hypothesis I : MInv ts.
Hypothesis I' : MInv ts'.
Variables a b u l u' t0 t1 t2 : N.
Hypothesis Fa : fin a.
Hypothesis Fb : fin b.
Hypothesis Fu : fin u.
Hypothesis Fl : fin l.
Hypothesis Fu' : fin u'.
Hypothesis T0 : T ts t0 u l a.
Hypothesis T1 : T ts t1 u' l u.
Hypothesis T2 : T ts t2 l u' b.
Hypothesis X0 : xing a b u l.
Hypothesis X1 : xing a b u' l.
Hypothesis G0 : Good ts u l.
Hypothesis G1 : Good ts u' l.
Definition R3 (i : N) : Prop := i = t0 \/ i = t1 \/ i = t2.
Definition S5 (v : N) : Prop := v = a \/ v = b \/ v = u \/ v = l \/ v = u'.
Hypothesis Kp : keeps R3 ts ts'.
Hypothesis Sty : stays R3 S5 ts'.
Hypothesis Mab : medge ts' a b.

Let M := I_mesh _ _ _ _ I.
Let M' := I_mesh _ _ _ _ I'.

Lemma pent_rd i : R3 i \/ ~ R3 i.
Proof. unfold R3. destruct (N.eq_dec i t0), (N.eq_dec i t1), (N.eq_dec i t2); tauto. Qed.

Lemma pent_stays : stays R3 S5 ts.
Proof.
  intros i p q r [->|[->| ->]] Ti; unfold S5.
  - destruct (T_corner _ _ _ _ _ _ _ _ Ti T0) as [->|[->| ->]]; auto.
  - destruct (T_corner _ _ _ _ _ _ _ _ Ti T1) as [->|[->| ->]]; auto 6.
  - destruct (T_corner _ _ _ _ _ _ _ _ Ti T2) as [->|[->| ->]]; auto 6.
Qed.

Lemma pent_empty i p q r v : R3 i -> T ts i p q r -> S5 v -> ldel p q r v.
Proof.
  pose proof (T_cw px py _ _ _ _ _ M T0) as C0. pose proof (T_cw px py _ _ _ _ _ M T2) as C2.
  pose proof (T_cw px py _ _ _ _ _ M T1) as C1. pose proof (T_cw px py _ _ _ _ _ M (T_rot _ _ _ _ _ T1)) as C1'.
  destruct X0 as (_ & _ & _ & P0). destruct X1 as (_ & _ & P1 & _).
  assert (C3 : (D l u b < 0)%Q) by (destruct (det_anti (pos u) (pos l) (pos b)) as (Q & _); lra).
  pose proof (G0 _ _ _ _ T0 (T_rot _ _ _ _ _ T1) Fu Fl Fa Fu') as L0.
  pose proof (ldel_sym px py u l a u' Fu Fl Fa Fu' C0 C1' L0) as L1.
  pose proof (G1 _ _ _ _ T1 T2 Fu' Fl Fu Fb) as L2.
  pose proof (ldel_sym px py u' l u b Fu' Fl Fu Fb C1 C2 L2) as L3.
  pose proof (ldel_rot px py _ _ _ _ L2) as L4. pose proof (ldel_rot px py _ _ _ _ (ldel_rot px py _ _ _ _ L1)) as L5.
  pose proof (pencil px py l u u' b a Fl Fu Fu' Fb Fa C1' C3 C0 L4 L1) as L6.
  pose proof (ldel_sym px py l u b a Fl Fu Fb Fa C3 C0 L6) as L7.
  pose proof (pencil px py u' l u a b Fu' Fl Fu Fa Fb C1 P1 C2 L5 L2) as L8.
  pose proof (ldel_sym px py u' l a b Fu' Fl Fa Fb P1 C2 L8) as L9.
  intros [->|[->| ->]] Ti Sv.
  - apply (ldel_T _ _ _ _ _ _ _ _ _ Ti T0). destruct Sv as [->|[->|[->|[->| ->]]]]; auto; apply ldel_own; auto.
  - apply (ldel_T _ _ _ _ _ _ _ _ _ Ti T1). destruct Sv as [->|[->|[->|[->| ->]]]]; auto; apply ldel_own; auto.
  - apply (ldel_T _ _ _ _ _ _ _ _ _ Ti T2). destruct Sv as [->|[->|[->|[->| ->]]]]; auto; apply ldel_own; auto.
Qed.

Lemma pent_fin v : S5 v -> fin v.
Proof. intros [->|[->|[->|[->| ->]]]]; auto. Qed.

Lemma pent_good x y : medge ts x y -> Good ts x y -> Good ts' x y.
Proof. exact (border_good ts ts' I I' R3 S5 pent_rd Kp pent_stays Sty pent_fin pent_empty x y). Qed.

Lemma new_R i p q r : T ts' i p q r -> ~ medge ts p q -> R3 i /\ S5 p /\ S5 q /\ S5 r.
Proof.
  intros Ti Nm. destruct (pent_rd i) as [Ri|Ri].
  - split; auto. split; [|split]; [exact (Sty _ _ _ _ Ri Ti)|exact (Sty _ _ _ _ Ri (T_rot _ _ _ _ _ Ti))|exact (Sty _ _ _ _ Ri (T_rot2 _ _ _ _ _ Ti))].
  - exfalso. apply Nm. exact (T_medge _ _ _ _ _ (same_T _ _ _ _ _ _ (Kp i Ri) Ti)).
Qed.

Lemma pent_new x y : medge ts' x y -> ~ medge ts x y -> sameE x y a b \/ sameE x y a u' \/ sameE x y b u.
Proof.
  assert (K : forall i p q r, T ts' i p q r -> ~ medge ts p q -> sameE p q a b \/ sameE p q a u' \/ sameE p q b u).
  { intros i p q r Ti Nm. destruct (new_R _ _ _ _ Ti Nm) as (_ & Sp & Sq & _).
    pose proof (T_ne _ _ _ _ _ M' Ti) as Hne.
    destruct (medge_T _ _ _ _ _ T0) as (E1 & E2 & E3). destruct (medge_T _ _ _ _ _ T1) as (E4 & E5 & E6).
    destruct (medge_T _ _ _ _ _ T2) as (E7 & E8 & E9).
    destruct Sp as [->|[->|[->|[->| ->]]]], Sq as [->|[->|[->|[->| ->]]]];
      try contradiction; try (left; unfold sameE; tauto); try (right; left; unfold sameE; tauto);
      try (right; right; unfold sameE; tauto); exfalso; apply Nm; auto; now apply medge_sym. }
  intros [(i & n & w & k1 & k2 & V)|(i & n & w & k1 & k2 & V)] Nm.
  - apply (K i x y w); auto. exists n, k1, k2. exact V.
  - assert (Q : sameE y x a b \/ sameE y x a u' \/ sameE y x b u).
    { apply (K i y x w); auto; [exists n, k1, k2; exact V|]. intros Q. apply Nm. now apply medge_sym. }
    destruct Q as [Q|[Q|Q]]; apply sameE_flip in Q; auto.
Qed.

Lemma crossed_gone y : xing a b y l -> ~ medge ts' y l.
Proof.
  intros Xy Hm. apply (edge_uncrossed vs px py X a b Fa Fb ts' y l M' (I_ids _ _ _ _ I') Mab Hm). now apply xing_crosses.
Qed.

Lemma tri_far : medge ts' a u' -> ~ medge ts a u' -> exists k, T ts' k a u' b.
Proof.
  intros Hm Nm. assert (Nm' : ~ medge ts u' a) by (intros Q; apply Nm; now apply medge_sym).
  destruct (medge_both px py a u' Fa Fu' ts' M' Hm) as ((k1 & n1 & p1 & j1 & j2 & V1) & (k2 & n2 & p2 & j3 & j4 & V2)).
  assert (Ta : T ts' k1 a u' p1) by (exists n1, j1, j2; exact V1).
  assert (Tb : T ts' k2 u' a p2) by (exists n2, j3, j4; exact V2).
  destruct (new_R _ _ _ _ Ta Nm) as (_ & _ & _ & S1). destruct (new_R _ _ _ _ Tb Nm') as (_ & _ & _ & S2).
  pose proof (T_cw px py _ _ _ _ _ M' Ta) as Ca. pose proof (T_cw px py _ _ _ _ _ M' Tb) as Cb.
  destruct (side_zero a u') as (Z1 & Z2). destruct (side_zero u' a) as (Z3 & Z4).
  destruct X1 as (P1 & P2 & P3 & P4).
  destruct S1 as [->|[->|[->|[->| ->]]]]; [lra|now exists k1| | |lra].
  - exfalso. destruct S2 as [->|[->|[->|[->| ->]]]]; [lra| | | |lra].
    + destruct (det_rot3 (pos a) (pos b) (pos u')) as (_ & Q). lra.
    + destruct (det_anti (pos a) (pos u') (pos u)) as (Q & _). lra.
    + destruct (det_anti (pos u') (pos l) (pos a)) as (_ & Q & _). lra.
  - exfalso. apply (crossed_gone u' X1). exact (T_medge _ _ _ _ _ (T_rot _ _ _ _ _ Ta)).
Qed.

Lemma tri_near : medge ts' b u -> ~ medge ts b u -> exists k, T ts' k a u b.
Proof.
  intros Hm Nm. assert (Nm' : ~ medge ts u b) by (intros Q; apply Nm; now apply medge_sym).
  destruct (medge_both px py b u Fb Fu ts' M' Hm) as ((k2 & n2 & p2 & j3 & j4 & V2) & (k1 & n1 & p1 & j1 & j2 & V1)).
  assert (Ta : T ts' k1 u b p1) by (exists n1, j1, j2; exact V1).
  assert (Tb : T ts' k2 b u p2) by (exists n2, j3, j4; exact V2).
  destruct (new_R _ _ _ _ Ta Nm') as (_ & _ & _ & S1). destruct (new_R _ _ _ _ Tb Nm) as (_ & _ & _ & S2).
  pose proof (T_cw px py _ _ _ _ _ M' Ta) as Ca. pose proof (T_cw px py _ _ _ _ _ M' Tb) as Cb.
  destruct (side_zero u b) as (Z1 & Z2). destruct (side_zero b u) as (Z3 & Z4).
  destruct X0 as (P1 & P2 & P3 & P4).
  destruct S1 as [->|[->|[->|[->| ->]]]]; [exists k1; now apply T_rot2|lra|lra| |].
  - exfalso. apply (crossed_gone u X0). apply medge_sym. exact (T_medge _ _ _ _ _ (T_rot2 _ _ _ _ _ Ta)).
  - exfalso. destruct S2 as [->|[->|[->|[->| ->]]]]; [|lra|lra| |].
    + destruct (det_rot3 (pos a) (pos b) (pos u)) as (Q & _). lra.
    + destruct (det_rot3 (pos u) (pos l) (pos b)) as (_ & Q). lra.
    + destruct (det_anti (pos u) (pos b) (pos u')) as (Q & _). lra.
Qed.

(** No corner of the mesh in a triangle. *)
Lemma tri_empty k y p : T ts' k a y b -> fin p -> hascorner ts' p -> within3 a y b p -> p = a \/ p = y \/ p = b.
Proof.
  intros (n1 & n2 & n3 & V) Fp (j & Hp) (W1 & W2 & W3).
  assert (Ic : in_closed (pos a) (pos y) (pos b) (pos p)) by (split; [|split]; auto).
  destruct (vertex_in_closed px py ts' k a y b n1 n2 n3 j p M' V Hp Fp Ic) as (v & Hv & Fv & Sv).
  destruct (view_he _ _ _ _ _ _ _ _ V) as (H1 & H2 & H3).
  assert (Cv : corner ts' k v) by (destruct Hv as [->|[->| ->]]; eexists; eexists; eauto).
  pose proof (I_inj _ _ _ _ I' k j v p Cv Hp Fv Fp Sv) as Q. subst v. exact Hv.
Qed.

Lemma pent_few c d vc vd : nthN vs c = Some vc -> nthN vs d = Some vd -> fin c -> fin d ->
  hascorner ts' c -> hascorner ts' d -> ~ crosses c d a b -> few ts c d -> few ts' c d.
Proof.
  intros Nc Nd Fc Fd Hc Hd Nx Hf.
  set (New := fun x y v w => (sameE x y a u' /\ sameE v w u' l) \/ (sameE x y b u /\ sameE v w u l)).
  assert (Huu : u' <> u) by (pose proof (T_ne _ _ _ _ _ M (T_rot2 _ _ _ _ _ T1)); congruence).
  assert (Hul : u' <> l) by exact (T_ne _ _ _ _ _ M T1). assert (Hll : u <> l) by exact (T_ne _ _ _ _ _ M T0).
  apply (few_step ts ts' New c d vc vd Nc Nd Hf).
  - assert (Key : forall e y k, e = a \/ e = b -> fin y -> T ts' k a y b -> xing a b y l -> crosses c d e y -> crosses c d y l).
    { intros e y k He Fy Tk Xy Cr. apply (cross_through a y b l c d e); auto.
      - exact (T_cw px py _ _ _ _ _ M' Tk).
      - now apply xing_crosses.
      - intros p [->| ->] Wp; [exact (tri_empty k y c Tk Fc Hc Wp)|exact (tri_empty k y d Tk Fd Hd Wp)]. }
    assert (Mu : medge ts u l) by exact (T_medge _ _ _ _ _ T0).
    assert (Mu' : medge ts u' l) by exact (T_medge _ _ _ _ _ T1).
    intros x y Hm Nm Cr. destruct (pent_new x y Hm Nm) as [Sx|[Sx|Sx]].
    + exfalso. apply Nx. exact (crosses_same px py c d x y a b Sx Cr).
    + exists u', l. split; [left; split; [exact Sx|apply sameE_refl]|]. split; auto. split; [now apply crossed_gone|].
      assert (Hm' : medge ts' a u' /\ ~ medge ts a u').
      { destruct Sx as [(-> & ->)|(-> & ->)]; [auto|]. split; [now apply medge_sym|intros Q; apply Nm; now apply medge_sym]. }
      destruct (tri_far (proj1 Hm') (proj2 Hm')) as (k & Tk).
      apply (Key a u' k); auto. exact (crosses_same px py c d x y a u' Sx Cr).
    + exists u, l. split; [right; split; [exact Sx|apply sameE_refl]|]. split; auto. split; [now apply crossed_gone|].
      assert (Hm' : medge ts' b u /\ ~ medge ts b u).
      { destruct Sx as [(-> & ->)|(-> & ->)]; [auto|]. split; [now apply medge_sym|intros Q; apply Nm; now apply medge_sym]. }
      destruct (tri_near (proj1 Hm') (proj2 Hm')) as (k & Tk).
      apply (Key b u k); auto. exact (crosses_same px py c d x y b u Sx Cr).
  - intros x y v w x' y' v' w' N1 N2 Sv.
    assert (Bad : ~ sameE u' l u l) by (intros [(Q & _)|(Q & _)]; congruence).
    destruct N1 as [(A1 & B1)|(A1 & B1)], N2 as [(A2 & B2)|(A2 & B2)].
    + eapply sameE_trans; [exact A1|now apply sameE_sym].
    + exfalso. apply Bad. eapply sameE_trans; [apply sameE_sym; exact B1|]. eapply sameE_trans; [exact Sv|exact B2].
    + exfalso. apply Bad. eapply sameE_trans; [apply sameE_sym; exact B2|]. eapply sameE_trans; [apply sameE_sym; exact Sv|exact B1].
    + eapply sameE_trans; [exact A1|now apply sameE_sym].
Qed.
End Pentagon.

(** ** One constraint *)
Lemma ed_ids ts d t t' p q : Mesh ts -> EDok ts d ->
  T ts t (efrom (d_edge d)) (eto (d_edge d)) p -> T ts t' (eto (d_edge d)) (efrom (d_edge d)) q ->
  d_from d = t /\ d_to d = t'.
Proof.
  intros M Hd A B. destruct (EDok_views px py ts d M Hd) as (c & w & n1 & n2 & n3 & n4 & V1 & V2 & _).
  assert (A' : T ts (d_from d) (efrom (d_edge d)) (eto (d_edge d)) w) by (apply T_rot; exists n2, (d_to d), n1; exact V1).
  assert (B' : T ts (d_to d) (eto (d_edge d)) (efrom (d_edge d)) c) by (exists (d_from d), n3, n4; exact V2).
  split; [exact (proj1 (T_share px py _ _ _ _ _ _ _ M A' A))|exact (proj1 (T_share px py _ _ _ _ _ _ _ M B' B))].
Qed.

(** The strip of the registered edges. *)
Lemma register_st a b va vb ts v2t l start : nthN vs a = Some va -> nthN vs b = Some vb -> a <> b -> Mesh ts ->
  nthN v2t a = Some start -> corner ts start a ->
  register_intersected_edges ts vs (Edge a b) (va, vb) v2t = Ret l -> l <> [] ->
  exists t0 u0 l0 R0 ids0, T ts t0 u0 l0 a /\ Suf b ts u0 l0 R0 ids0 /\ map dedge l = (u0, l0) :: R0.
Proof.
  intros Na Nb Hab M Hv Ca K Hne. unfold register_intersected_edges, getN in K. cbn [efrom] in K. rewrite Hv in K. cbn [bind] in K.
  destruct (search_first_intersected_quad ts vs (Edge a b) (va, vb) start) as [r| | |] eqn:Hs; cbn [bind] in K; try discriminate.
  pose proof (search_sound vs px py X XC a b va vb Na Nb Hab ts M _ _ Ca Hs) as Q. destruct r as [|d|]; [|simpl in Q|discriminate].
  - inversion K. congruence.
  - destruct Q as (Ok & Xd & x & z & V).
    assert (Hl : exists t0 u0 l0 R0 ids0, St px py a b ts [] t0 a u0 l0 R0 [] ids0 /\ map dedge l = (u0, l0) :: R0).
    { apply (register_strip vs px py X XC a b va vb Na Nb Hab ts M (length ts) d [] a l); auto.
      - exact (reg_start px py a b ts _ _ _ Ok Xd V).
      - simpl. constructor. apply T_rot. eexists; eexists; eexists; exact V.
      - clear. simpl. lia. }
    destruct Hl as (t0 & u0 & l0 & R0 & ids0 & [A B _ _] & Hl).
    exists t0, u0, l0, R0, ids0. split; auto. exact (pre_T _ _ _ _ _ _ _ _ A).
Qed.

Lemma suf_nil b ts u l ids : Suf b ts u l [] ids -> exists t, T ts t l u b.
Proof. intros H. inversion H; subst. eauto. Qed.

Lemma suf_one b ts u l u1 l1 ids : Suf b ts u l [(u1, l1)] ids ->
  exists t1 t2, T ts t2 l1 u1 b /\ ((l1 = l /\ T ts t1 u1 l u) \/ (u1 = u /\ T ts t1 u l1 l)).
Proof.
  intros H. inversion H; subst.
  - match goal with K : Suf _ _ _ _ [] _ |- _ => destruct (suf_nil _ _ _ _ _ K) as (t2 & T2) end. eauto 8.
  - match goal with K : Suf _ _ _ _ [] _ |- _ => destruct (suf_nil _ _ _ _ _ K) as (t2 & T2) end. eauto 8.
Qed.

Definition good_kept (ts ts' : list tri) : Prop := forall x y, medge ts x y -> Good ts x y -> Good ts' x y.

Definition few_kept (ts ts' : list tri) (a b : N) : Prop := forall c d,
  vok c -> vok d -> fin c -> fin d -> hascorner ts' c -> hascorner ts' d -> ~ crosses c d a b -> few ts c d -> few ts' c d.

(** The triangles with an infinite corner stay as they are. *)
Definition fin3 (a b c : N) : Prop := fin a /\ fin b /\ fin c.
Definition inf_kept (ts ts' : list tri) : Prop := forall i a b c, ~ fin3 a b c -> (T ts i a b c <-> T ts' i a b c).

Lemma inf_kept_refl ts : inf_kept ts ts.
Proof. intros i a b c _. reflexivity. Qed.

Lemma inf_kept_trans ts ts1 ts2 : inf_kept ts ts1 -> inf_kept ts1 ts2 -> inf_kept ts ts2.
Proof. intros A B i a b c H. rewrite (A i a b c H). now apply B. Qed.

Lemma R2_dec t0 t1 i : R2 t0 t1 i \/ ~ R2 t0 t1 i.
Proof. unfold R2. destruct (N.eq_dec i t0), (N.eq_dec i t1); tauto. Qed.

Lemma R3_dec t0 t1 t2 i : R3 t0 t1 t2 i \/ ~ R3 t0 t1 t2 i.
Proof. unfold R3. destruct (N.eq_dec i t0), (N.eq_dec i t1), (N.eq_dec i t2); tauto. Qed.

Lemma stays_inf (R S : N -> Prop) ts ts' : (forall i, R i \/ ~ R i) -> (forall v, S v -> fin v) ->
  keeps R ts ts' -> stays R S ts -> stays R S ts' -> inf_kept ts ts'.
Proof.
  intros Dec FS Kp St St' i a b c Nf. destruct (Dec i) as [Ri|Ri].
  - split; intros Ti; exfalso; apply Nf; (split; [|split]); apply FS;
      [apply (St i a b c)|apply (St i b c a)|apply (St i c a b)|apply (St' i a b c)|apply (St' i b c a)|apply (St' i c a b)];
      auto using T_rot, T_rot2.
  - split; apply same_T; [symmetry|]; exact (Kp i Ri).
Qed.

Lemma apply_two fuel mapping s raw s' a b :
  MInv (c_ts s) -> VT (c_ts s) (c_v2t s) -> getN mapping (efrom raw) = Ret a -> getN mapping (eto raw) = Ret b ->
  hascorner (c_ts s) a -> hascorner (c_ts s) b -> fin a -> fin b -> few (c_ts s) a b -> segcov px py a b (c_ts s) ->
  (forall x y, medge (c_ts s) x y -> crosses a b x y -> Good (c_ts s) x y) ->
  MInv (c_ts s') -> medge (c_ts s') a b ->
  apply_constraint fuel vs mapping s raw = Ret s' ->
  good_kept (c_ts s) (c_ts s') /\ few_kept (c_ts s) (c_ts s') a b /\ inf_kept (c_ts s) (c_ts s').
Proof.
  intros I V Ga Gb Ha Hb Fa Fb Few Sc Gx I' Mab H.
  assert (Same : c_ts s' = c_ts s -> good_kept (c_ts s) (c_ts s') /\ few_kept (c_ts s) (c_ts s') a b /\ inf_kept (c_ts s) (c_ts s')).
  { intros ->. split; [now intros x y|split; [now intros c d|apply inf_kept_refl]]. }
  unfold apply_constraint in H. rewrite Ga, Gb in H. cbn [bind] in H.
  destruct ((a =? b) || edge_mem (c_set s) (Edge a b)) eqn:Hc; [apply Ret_inj in H; subst s'; now apply Same|].
  apply orb_false_iff in Hc. destruct Hc as (Hne & _). apply N.eqb_neq in Hne.
  pose proof (hascorner_vok vs _ _ (I_ids _ _ _ _ I) Ha) as Va. pose proof (hascorner_vok vs _ _ (I_ids _ _ _ _ I) Hb) as Vb.
  destruct (get_vertex vs a Va Fa) as (va & Gva & Na). destruct (get_vertex vs b Vb Fb) as (vb & Gvb & Nb).
  unfold edge_to_vertices in H. cbn [efrom eto] in H. rewrite Gva, Gvb in H. cbn [bind] in H.
  pose proof V as V0. destruct V as (Lv & VTw). destruct (VTw a Ha Fa) as (start & Hst & Cst).
  destruct (register_intersected_edges (c_ts s) vs (Edge a b) (va, vb) (c_v2t s)) as [l| | |] eqn:HR; cbn [bind] in H; try discriminate.
  pose proof (I_mesh _ _ _ _ I) as M.
  pose proof (register_sound vs px py X XC a b va vb Na Nb Hne (c_ts s) M _ _ _ Hst Cst HR) as S.
  destruct S as [(-> & _)|(Hl & R)]; [apply Ret_inj in H; subst s'; now apply Same|].
  clear Same. destruct (register_st a b va vb _ _ _ _ Na Nb Hne M Hst Cst HR Hl) as (t0 & u & w & R0 & ids & T0 & Sf & Hd).
  assert (L2 : (length l <= 2)%nat) by (apply Few; [exact (G_nd _ _ _ _ _ _ R)|intros d Hin; destruct (G_ok _ _ _ _ _ _ R d Hin); split; auto; now apply EDok_medge]).
  destruct l as [|d0 l0]; [congruence|].
  destruct (remove_crossed_edges fuel (c_ts s) vs (c_v2t s) (va, vb) (d0 :: l0) [] 0) as [((ts1, v1), news)| | |] eqn:HM;
    cbn [bind] in H; try discriminate.
  destruct (restore_constrained fuel ts1 vs v1 (Edge a b) news []) as [(ts2, v2)| | |] eqn:HS; cbn [bind] in H; try discriminate.
  apply Ret_inj in H; subst s'. cbn [c_ts c_v2t c_set] in *.
  assert (RI0 : RI vs px py a b (fun _ _ => False) (c_ts s) (c_v2t s) (d0 :: l0) []).
  { constructor; auto; try contradiction.
    - rewrite app_nil_r. constructor; [intros d Hin; now apply (G_ok _ _ _ _ _ _ R)|exact (G_nd _ _ _ _ _ _ R)].
    - intros d Hin. destruct (G_ok _ _ _ _ _ _ R d Hin) as (_ & Xd). now apply xing_crosses.
    - intros x0 y0 Hm0 Hx. exact (registered_complete vs px py X a b va vb Na Nb (c_ts s) M _ _ _ R Hm0 Hx). }
  pose proof (L_pend _ _ _ _ _ _ _ _ _ _ RI0) as Pd0.
  destruct (remove_sound vs px py X XC a b va vb Na Nb (fun _ _ => False) (fun _ _ A => match A with end) _ _ _ _ _ _ _ _ _ RI0 HM) as ([I1 V1 Pd1 _ _ _ _] & _ & _).
  assert (Ch : forall Rs Ss : N -> Prop, Forall (in_ids Rs) (d0 :: l0) -> stays Rs Ss (c_ts s) -> keeps Rs (c_ts s) ts2 /\ stays Rs Ss ts2).
  { intros Rs Ss Fi St0. destruct (remove_keeps Rs vs (va, vb) _ _ _ _ _ _ _ _ _ Fi (Forall_nil _) HM) as (K1 & F1).
    split; [exact (keeps_trans Rs _ _ _ K1 (restore_keeps Rs vs (Edge a b) _ _ _ _ _ _ _ F1 HS))|].
    pose proof (remove_stays Rs Ss va vb _ _ _ _ _ _ _ _ _ I V0 Pd0 Fi (Forall_nil _) St0 HM) as St1.
    exact (restore_stays Rs Ss a b _ _ _ _ _ _ _ I1 V1 Pd1 F1 St1 HS). }
  assert (Xe : forall d, In d (d0 :: l0) -> EDok (c_ts s) d /\ xing a b (efrom (d_edge d)) (eto (d_edge d)) /\
     fin (efrom (d_edge d)) /\ fin (eto (d_edge d)) /\ Good (c_ts s) (efrom (d_edge d)) (eto (d_edge d))).
  { intros d Hin. destruct (G_ok _ _ _ _ _ _ R d Hin) as (Ok & Xd). split; auto. split; auto.
    destruct (xing_finite vs px py X a b va vb Na Nb Hne (c_ts s) _ _ _ _ M Sc (proj1 Ok) Xd). split; auto. split; auto.
    apply Gx; [now apply EDok_medge|now apply xing_crosses]. }
  destruct (Xe d0 (or_introl eq_refl)) as (Ok0 & X0 & Fu & Fw & G0).
  destruct l0 as [|d1 [|d2 l0]]; [| |cbn [length] in L2; lia].
  - (* one edge *)
    cbn [map] in Hd. unfold dedge in Hd. injection Hd as Eu Ew <-.
    destruct (suf_nil _ _ _ _ _ Sf) as (t1 & T1). clear Sf. subst u w.
    destruct (ed_ids (c_ts s) d0 t0 t1 a b M Ok0 T0 T1) as (E0 & E1).
    assert (Q0 : stays (R2 t0 t1) (S4 a b (efrom (d_edge d0)) (eto (d_edge d0))) (c_ts s)) by exact (quad_stays (c_ts s) _ _ _ _ _ _ T0 T1).
    destruct (Ch _ _ (Forall_cons _ (conj (or_introl E0) (or_intror E1)) (Forall_nil _)) Q0) as (Kp & Sty).
    split; [|split; [|apply (stays_inf _ _ _ _ (R2_dec t0 t1)) with (2 := Kp) (3 := Q0) (4 := Sty); unfold S4; intros v [->|[->|[->| ->]]]; auto]].
    + intros x y. exact (quad_good (c_ts s) ts2 I I' a b _ _ t0 t1 Fa Fb Fu Fw T0 T1 G0 Kp Sty x y).
    + intros c d Vc Vd Fc Fd Hc Hd0 Nx. destruct (get_vertex vs c Vc Fc) as (vc & _ & Nc). destruct (get_vertex vs d Vd Fd) as (vd & _ & Nd).
      exact (quad_few (c_ts s) ts2 I' a b _ _ t0 t1 T0 T1 Kp Sty c d vc vd Nc Nd Nx).
  - (* two edges *)
    cbn [map] in Hd. unfold dedge in Hd. injection Hd as Eu Ew Er. subst R0.
    destruct (Xe d1 (or_intror (or_introl eq_refl))) as (Ok1 & X1 & Fu1 & Fw1 & G1).
    destruct (suf_one _ _ _ _ _ _ _ Sf) as (t1 & t2 & T2 & Cs). clear Sf. subst u w.
    destruct Cs as [(El & T1)|(El & T1)].
    + (* the lower end stays *)
      rewrite El in *.
      destruct (ed_ids (c_ts s) d0 t0 t1 _ _ M Ok0 T0 (T_rot _ _ _ _ _ T1)) as (E0 & E1).
      destruct (ed_ids (c_ts s) d1 t1 t2 (efrom (d_edge d0)) b M Ok1) as (E2 & E3); [now rewrite El|now rewrite El|].
      set (u := efrom (d_edge d0)) in *. set (w := eto (d_edge d0)) in *. set (u' := efrom (d_edge d1)) in *.
      assert (Q0 : stays (R3 t0 t1 t2) (S5 a b u w u') (c_ts s)) by exact (pent_stays (c_ts s) _ _ _ _ _ _ _ _ T0 T1 T2).
      assert (Fi : Forall (in_ids (R3 t0 t1 t2)) [d0; d1]) by (repeat constructor; unfold R3; auto).
      destruct (Ch _ _ Fi Q0) as (Kp & Sty).
      split; [|split; [|apply (stays_inf _ _ _ _ (R3_dec t0 t1 t2)) with (2 := Kp) (3 := Q0) (4 := Sty); unfold S5; intros v [->|[->|[->|[->| ->]]]]; auto]].
      * intros x y. exact (pent_good (c_ts s) ts2 I I' a b u w u' t0 t1 t2 Fa Fb Fu Fw Fu1 T0 T1 T2 X0 X1 G0 G1 Kp Sty x y).
      * intros c d Vc Vd Fc Fd Hc Hd0 Nx. destruct (get_vertex vs c Vc Fc) as (vc & _ & Nc). destruct (get_vertex vs d Vd Fd) as (vd & _ & Nd).
        exact (pent_few (c_ts s) ts2 I I' a b u w u' t0 t1 t2 Fa Fb Fu Fw Fu1 T0 T1 T2 X0 X1 Kp Sty Mab c d vc vd Nc Nd Fc Fd Hc Hd0 Nx).
    + (* the upper end stays: the same from b *)
      rewrite El in *.
      destruct (ed_ids (c_ts s) d0 t0 t1 _ _ M Ok0 T0 (T_rot2 _ _ _ _ _ T1)) as (E0 & E1).
      destruct (ed_ids (c_ts s) d1 t1 t2 (eto (d_edge d0)) b M Ok1) as (E2 & E3); [now rewrite El|now rewrite El|].
      set (u := efrom (d_edge d0)) in *. set (w := eto (d_edge d0)) in *. set (w' := eto (d_edge d1)) in *.
      apply xing_back in X0, X1. apply (Good_flip px py _ _ _ M) in G0, G1.
      assert (Q0 : stays (R3 t2 t1 t0) (S5 b a w' u w) (c_ts s)) by exact (pent_stays (c_ts s) _ _ _ _ _ _ _ _ T2 (T_rot2 _ _ _ _ _ T1) T0).
      assert (Fi : Forall (in_ids (R3 t2 t1 t0)) [d0; d1]) by (repeat constructor; unfold R3; auto).
      destruct (Ch _ _ Fi Q0) as (Kp & Sty).
      split; [|split; [|apply (stays_inf _ _ _ _ (R3_dec t2 t1 t0)) with (2 := Kp) (3 := Q0) (4 := Sty); unfold S5; intros v [->|[->|[->|[->| ->]]]]; auto]].
      * intros x y. exact (pent_good (c_ts s) ts2 I I' b a w' u w t2 t1 t0 Fb Fa Fw1 Fu Fw T2 (T_rot2 _ _ _ _ _ T1) T0 X1 X0 G1 G0 Kp Sty x y).
      * intros c d Vc Vd Fc Fd Hc Hd0 Nx. destruct (get_vertex vs c Vc Fc) as (vc & _ & Nc). destruct (get_vertex vs d Vd Fd) as (vd & _ & Nd).
        assert (Nx' : ~ crosses c d b a) by (intros Q; apply Nx; now apply crosses_flip2).
        exact (pent_few (c_ts s) ts2 I I' b a w' u w t2 t1 t0 Fb Fa Fw1 Fu Fw T2 (T_rot2 _ _ _ _ _ T1) T0 X1 X0 Kp Sty (medge_sym _ _ _ Mab) c d vc vd Nc Nd Fc Fd Hc Hd0 Nx').
Qed.

(** ** All the constraints *)
Section Fold.
Variable Con : N -> N -> Prop.
Hypothesis Con_free : forall a b c d, Con a b -> Con c d -> ~ crosses a b c d.
Hypothesis Con_fin : forall a b, Con a b -> fin a /\ fin b.

Record Two (done : list edge) (s : cstate) : Prop := {
  O_inv : MInv (c_ts s);
  O_vt : VT (c_ts s) (c_v2t s);
  O_con : forall a b, In (Edge a b) done -> Con a b;
  O_set : forall e, In e (c_set s) -> In e done;
  O_keep : forall a b, In (Edge a b) done -> a <> b -> medge (c_ts s) a b;
  O_corner : forall a b, Con a b -> hascorner (c_ts s) a /\ hascorner (c_ts s) b;
  O_few : forall a b, Con a b -> a <> b -> few (c_ts s) a b;
  O_cov : forall a b, Con a b -> a <> b -> segcov px py a b (c_ts s);
  O_edge : forall x y, medge (c_ts s) x y -> (exists a b, In (Edge a b) done /\ sameE x y a b) \/ Good (c_ts s) x y
}.

Lemma two_step fuel m done s raw s' a b : Two done s -> Con a b ->
  getN m (efrom raw) = Ret a -> getN m (eto raw) = Ret b ->
  (length (c_ts s) * length (c_ts s) + length (c_ts s) <= fuel)%nat ->
  apply_constraint fuel vs m s raw = Ret s' ->
  Two (Edge a b :: done) s' /\ (forall w, hascorner (c_ts s) w <-> hascorner (c_ts s') w) /\ length (c_ts s') = length (c_ts s) /\
  inf_kept (c_ts s) (c_ts s').
Proof.
  intros J Hc Ga Gb Hf H. pose proof J as [I V Nc Ns Nk Nh Nf Nv Ne].
  destruct (Con_fin a b Hc) as (Fa & Fb). destruct (Nh a b Hc) as (Ha & Hb).
  set (P := fun x y => Con x y /\ medge (c_ts s) x y).
  assert (C : CInv vs px py P s) by (constructor; auto; now intros x y (_ & K)).
  destruct (apply_constraint_sound vs px py X XC P fuel m s raw s' a b C Ga Gb Ha Hb Fa Fb) as ([I' V' Kp] & Pr & Cs & Ln & Co); auto.
  { intros x y (Cxy & _). now apply Con_free. }
  assert (Ln' : length (c_ts s') = length (c_ts s)) by (clear -Ln; unfold lenN in Ln; lia).
  assert (Nk' : forall c d, In (Edge c d) (Edge a b :: done) -> c <> d -> medge (c_ts s') c d).
  { intros c d [K|K] Hne.
    - injection K as <- <-. destruct Pr as [K|[K|K]]; auto; [contradiction|]. apply Kp. split; auto.
    - apply Kp. split; auto. }
  assert (Ns' : forall e, In e (c_set s') -> In e (Edge a b :: done)).
  { intros e He. destruct (Cs e He) as [K| ->]; [right; auto|now left]. }
  assert (Nc' : forall c d, In (Edge c d) (Edge a b :: done) -> Con c d).
  { intros c d [K|K]; [injection K as <- <-; auto|auto]. }
  assert (Nh' : forall c d, Con c d -> hascorner (c_ts s') c /\ hascorner (c_ts s') d).
  { intros c d Hcd. destruct (Nh c d Hcd). split; now apply Co. }
  destruct (N.eq_dec a b) as [K|Hne].
  { rewrite (apply_constraint_same vs m fuel s raw a b Ga Gb K) in H. apply Ret_inj in H. subst s'.
    split; [|split; [auto|split; [auto|apply inf_kept_refl]]].
    constructor; auto. intros x y Hm. destruct (Ne x y Hm) as [(c & d & Q & S)|Q]; auto. left. exists c, d. split; auto. now right. }
  assert (Gx : forall x y, medge (c_ts s) x y -> crosses a b x y -> Good (c_ts s) x y).
  { intros x y Hm Cr. destruct (Ne x y Hm) as [(c & d & Q & S)|Q]; auto. exfalso.
    apply (Con_free a b c d Hc (Nc c d Q)). exact (crosses_same px py a b x y c d S Cr). }
  pose proof (Nk' a b (or_introl eq_refl) Hne) as Mab.
  destruct (apply_two fuel m s raw s' a b I V Ga Gb Ha Hb Fa Fb (Nf a b Hc Hne) (Nv a b Hc Hne) Gx I' Mab H) as (Gk & Fk & Ik).
  split; [|auto].
  constructor; auto.
  - intros c d Hcd Hcne. destruct (Con_fin c d Hcd) as (Fc & Fd). destruct (Nh' c d Hcd) as (Kc & Kd).
    apply Fk; auto; [exact (hascorner_vok vs _ _ (I_ids _ _ _ _ I') Kc)|exact (hascorner_vok vs _ _ (I_ids _ _ _ _ I') Kd)].
  - pose proof (apply_constraint_total vs px py X XC fuel m s raw a b I V Ga Gb Ha Hb Fa Fb Hf) as Ap.
    rewrite H in Ap. inversion Ap as [? Cv| |]; subst.
    intros c d Hcd Hcne s0 t0 Hs Ht. apply (Cv (Nv a b Hc Hne)). exact (Nv c d Hcd Hcne s0 t0 Hs Ht).
  - intros x y Hm.
    destruct (apply_good vs px py X XC fuel m s raw s' a b I V Ga Gb Ha Hb Fa Fb (Nf a b Hc Hne) H x y Hm) as [K|[K|K]]; auto.
    + destruct (Ne x y K) as [(c & d & Q & S)|Q].
      * left. exists c, d. split; auto. now right.
      * right. now apply Gk.
    + left. exists a, b. split; auto. now left.
Qed.

Lemma two_fold fuel m : forall l done s s',
  Two done s -> (length (c_ts s) * length (c_ts s) + length (c_ts s) <= fuel)%nat ->
  (forall raw a b, In raw l -> map_edge m raw = Some (Edge a b) -> Con a b) ->
  foldM (apply_constraint fuel vs m) l s = Ret s' ->
  exists done', Two done' s' /\ (forall e, In e done' -> In e done \/ exists raw, In raw l /\ map_edge m raw = Some e) /\
    (forall e, In e done -> In e done') /\ (forall raw e, In raw l -> map_edge m raw = Some e -> In e done') /\
    (forall w, hascorner (c_ts s) w <-> hascorner (c_ts s') w) /\ inf_kept (c_ts s) (c_ts s').
Proof.
  induction l as [|raw l IH]; intros done s s' J Hf Hl H; cbn [foldM] in H.
  { apply Ret_inj in H. subst s'. exists done. split; [auto|]. split; [auto|]. split; [auto|]. split; [now intros r e []|].
    split; [reflexivity|apply inf_kept_refl]. }
  destruct (apply_constraint fuel vs m s raw) as [s1| | |] eqn:H1; cbn [bind] in H; try discriminate.
  destruct (apply_registers _ _ _ _ _ _ H1) as ((e & He & _) & _). destruct e as (a, b).
  pose proof (proj1 (map_edge_inv m raw a b) He) as (Ha & Hb).
  assert (Ga : getN m (efrom raw) = Ret a) by (unfold getN; now rewrite Ha).
  assert (Gb : getN m (eto raw) = Ret b) by (unfold getN; now rewrite Hb).
  destruct (two_step fuel m done s raw s1 a b J (Hl raw a b (or_introl eq_refl) He) Ga Gb Hf H1) as (J1 & K1 & L1 & I1).
  destruct (IH (Edge a b :: done) s1 s' J1) as (done' & J' & Hd & Hi & Hr' & Hc' & Ik); auto.
  { now rewrite L1. }
  { intros r u v Hr. apply Hl. now right. }
  exists done'. split; [auto|]. split; [|split; [|split; [|split]]].
  - intros e Hd'. destruct (Hd e Hd') as [[<-|K]|(r & Hr & K)]; auto.
    + right. exists raw. split; auto. now left.
    + right. exists r. split; auto. now right.
  - intros e K. apply Hi. now right.
  - intros r e [<-|K] Me; [|now apply (Hr' r)]. rewrite He in Me. injection Me as <-. apply Hi. now left.
  - intros w. rewrite (K1 w). apply Hc'.
  - exact (inf_kept_trans _ _ _ I1 Ik).
Qed.
End Fold.
End WithEnv.
