(** * CCross: crossings of a constrained edge with the edges of a mesh. *)

From Coq Require Import NArith List Bool Lia QArith Lqa.
From Verif Require Import Base BaseFacts Arith Types Utils Infinite Triangulation Constrained Geom Mesh
  MeshOps Exact ExactC MeshVerts AnyDT Walk Insert DTExact CSwap.
Import ListNotations.
Local Open Scope N_scope.

Lemma Ret_inj {A} (x y : A) : Ret x = Ret y -> x = y.
Proof. congruence. Qed.

(** ** Signs of products *)
Section Signs.
Local Open Scope Q_scope.
Lemma Qprod_pos x y : 0 < x * y -> (x < 0 /\ y < 0) \/ (0 < x /\ 0 < y).
Proof.
  intros H. destruct (Qlt_le_dec x 0) as [A|A]; [left; split; auto; destruct (Qlt_le_dec y 0); auto; nra|].
  destruct (Qeq_dec x 0) as [Z|Z]; [rewrite Z in H; lra|]. assert (0 < x) by lra.
  right. split; auto. destruct (Qlt_le_dec 0 y); auto. nra.
Qed.
Lemma Qprod_neg x y : x * y < 0 -> (x < 0 /\ 0 < y) \/ (0 < x /\ y < 0).
Proof.
  intros H. assert (P : 0 < x * (- y)) by lra. destruct (Qprod_pos _ _ P) as [(A & B)|(A & B)]; [left|right]; split; lra.
Qed.
Lemma Qmul_pos x y : 0 < x -> 0 < y -> 0 < x * y.
Proof. intros; nra. Qed.
Lemma Qmul_np x y : 0 <= x -> y <= 0 -> x * y <= 0.
Proof. intros; nra. Qed.
Lemma Qmul_pn x y : x <= 0 -> 0 <= y -> x * y <= 0.
Proof. intros; nra. Qed.
End Signs.

Section WithEnv.
Context {E : Env}.
Variable vs : list vertex.
Variables px py : N -> Q.
Hypothesis X : Exact vs px py.
Hypothesis XC : ExactC vs px py.

Notation pos := (hpos px py).
Notation D a b c := (det (pos a) (pos b) (pos c)).
Notation Mesh := (Mesh pos).
Notation Ids := (Ids vs).
Notation vok := (vok vs).
Notation MInv := (MInv vs px py).
Notation crosses := (crosses px py).

Lemma crosses_flip1 a b c d : crosses a b c d -> crosses b a c d.
Proof.
  unfold ExactC.crosses. intros (A & B).
  pose proof (det_anti (pos a) (pos b) (pos c)) as (P1 & _). pose proof (det_anti (pos a) (pos b) (pos d)) as (P2 & _).
  rewrite P1, P2. split; lra.
Qed.

Lemma crosses_swap a b c d : crosses a b c d -> crosses c d a b.
Proof. unfold ExactC.crosses. tauto. Qed.

Lemma crosses_flip2 a b c d : crosses a b c d -> crosses a b d c.
Proof. intros H. now apply crosses_swap, crosses_flip1, crosses_swap. Qed.

Lemma crosses_same a b x y u v : sameE x y u v -> crosses a b x y -> crosses a b u v.
Proof. intros [(-> & ->)|(-> & ->)]; auto using crosses_flip2. Qed.

(** Positions of four points. *)
Lemma four_w (a b u v : pt3) :
  (det u v b * hw a - det u v a * hw b + det a b v * hw u - det a b u * hw v == 0)%Q.
Proof. unfold det; ring. Qed.

Lemma hw_nonneg v : (0 <= hw (pos v))%Q.
Proof. destruct (hw_cases px py v) as [(_ & ->)|(_ & ->)]; lra. Qed.

(** ** Convex quads *)
Lemma crosses_convex u v c w :
  (D w u v < 0)%Q -> (D v u c < 0)%Q -> crosses u v c w -> (D w u c < 0)%Q /\ (D w c v < 0)%Q.
Proof.
  intros A B (_ & C).
  pose proof (four_w (pos c) (pos w) (pos u) (pos v)) as R.
  assert (R2 : (- D w c v * hw (pos u) - D w u c * hw (pos v) + D w u v * hw (pos c) + D v u c * hw (pos w) == 0)%Q).
  { rewrite <- R. unfold det. ring. }
  assert (C2 : (D c w u * D c w v == - (D w u c * D w c v))%Q) by (unfold det; ring).
  rewrite C2 in C. clear C2 R.
  set (x := (D w u c)%Q) in *. set (y := (D w c v)%Q) in *.
  pose proof (hw_nonneg u). pose proof (hw_nonneg v). pose proof (hw_nonneg c). pose proof (hw_nonneg w).
  assert (Hneg : ((x < 0 /\ y < 0) \/ (0 < x /\ 0 < y))%Q) by (apply Qprod_pos; lra).
  destruct Hneg as [|(Px & Py)]; auto. exfalso.
  assert (Kc : (D w u v * hw (pos c) <= 0)%Q) by (apply Qmul_pn; lra).
  assert (Kw : (D v u c * hw (pos w) <= 0)%Q) by (apply Qmul_pn; lra).
  assert (Ku : (0 <= y * hw (pos u))%Q) by (apply Qmult_le_0_compat; lra).
  assert (Kv : (0 <= x * hw (pos v))%Q) by (apply Qmult_le_0_compat; lra).
  destruct (hw_cases px py u) as [(Fu & Hu)|(Fu & Hu)]; [rewrite Hu in R2; lra|].
  destruct (hw_cases px py v) as [(Fv & Hv)|(Fv & Hv)]; [rewrite Hu, Hv in R2; lra|].
  destruct (hw_cases px py w) as [(Fw & Hw)|(Fw & Hw)]; [rewrite Hu, Hv, Hw in R2; lra|].
  pose proof (three_inf px py _ _ _ Fw Fu Fv). lra.
Qed.

Lemma getN_inf v : is_finite v = false -> getN vs v = Panic.
Proof.
  intros F. unfold getN. destruct (nthN vs v) eqn:H; auto.
  exfalso. apply nthN_lt in H. pose proof (X_len _ _ _ X). unfold is_finite in F. apply N.ltb_ge in F. lia.
Qed.

Lemma getN_ret v p : getN vs v = Ret p -> nthN vs v = Some p.
Proof. unfold getN. destruct (nthN vs v); congruence. Qed.

Lemma lqi_fin v : is_finite v = true -> infinite_vertex_local_quad_index v = None.
Proof. intros F. unfold infinite_vertex_local_quad_index. now rewrite F. Qed.

Lemma lqi_inf v : is_finite v = false -> exists q, infinite_vertex_local_quad_index v = Some q.
Proof.
  intros F. unfold infinite_vertex_local_quad_index. rewrite F.
  destruct (v =? INF0); eauto. destruct (v =? INF1); eauto. destruct (v =? INF2); eauto.
Qed.

(** The quad test only answers "crossing" when the two diagonals cross. *)
Lemma quad_crossing q x :
  quad_diagonals_intersection vs q = Ret x -> is_crossing x = true -> crosses (q1 q) (q2 q) (q3 q) (q4 q).
Proof.
  destruct q as [a b c d]. unfold quad_diagonals_intersection, collect_infinite_quad_vertices. cbn [q1 q2 q3 q4].
  rewrite !inf_not_fin.
  destruct (is_finite a) eqn:Fa, (is_finite b) eqn:Fb, (is_finite c) eqn:Fc, (is_finite d) eqn:Fd;
    cbn [negb app bind]; try discriminate;
    unfold quad_diagonals_intersection_1_infinite, quad_diagonals_intersection_2_infinite;
    cbn [qv q1 q2 q3 q4 opposite_quad adjacent_quad fst snd];
    rewrite ?(lqi_fin a), ?(lqi_fin b), ?(lqi_fin c), ?(lqi_fin d) by assumption; try discriminate;
    rewrite ?(getN_inf a), ?(getN_inf b), ?(getN_inf c), ?(getN_inf d) by assumption;
    repeat match goal with
           | |- context [match infinite_vertex_local_quad_index ?v with _ => _ end] =>
               let q := fresh "q" in let Q := fresh "Hq" in
               destruct (lqi_inf v) as (q & Q); [assumption|]; rewrite Q
           end; cbn [bind]; try discriminate;
    repeat match goal with
           | |- bind (getN vs ?v) _ = _ -> _ =>
               let p := fresh "p" in let G := fresh "G" in
               destruct (getN vs v) as [p| | |] eqn:G; cbn [bind]; try discriminate; apply getN_ret in G
           end; try discriminate;
    intros Hr Hc; apply Ret_inj in Hr; subst x.
  - eapply (XC_fin _ _ _ XC) in Hc; eauto.
  - eapply (XC_semi _ _ _ XC b a d c) in Hc; eauto. now apply crosses_flip1, crosses_flip2.
  - eapply (XC_semi _ _ _ XC d c a b) in Hc; eauto. apply crosses_swap. now apply crosses_flip1.
  - pose proof (proj1 (XC_semi2 _ _ _ XC a b _ d c _ _ _ G G0 Hq Hq0) Hc). now apply crosses_flip2.
  - eapply (XC_semi _ _ _ XC c d b a) in Hc; eauto. apply crosses_swap. now apply crosses_flip2.
  - pose proof (proj1 (XC_semi2 _ _ _ XC b a _ d c _ _ _ G G0 Hq Hq0) Hc). now apply crosses_flip1, crosses_flip2.
Qed.

(** The Delaunay test of the constrained restoration. *)
Lemma constrained_swap_convex u v c w r :
  vok u -> vok v -> vok c -> vok w -> (D w u v < 0)%Q -> (D v u c < 0)%Q ->
  constrained_should_swap_diagonals (Quad u v c w) vs = Ret r -> r = true ->
  (D w u c < 0)%Q /\ (D w c v < 0)%Q.
Proof.
  intros Vu Vv Vc Vw A B H Hr. unfold constrained_should_swap_diagonals in H. cbn [q1 q2 q3 q4] in H.
  rewrite !inf_not_fin in H.
  destruct (is_finite c) eqn:Fc; [|subst; discriminate].
  destruct (is_finite w) eqn:Fw; [|subst; discriminate]. cbn [negb orb] in H.
  destruct (should_swap_post vs px py X u v c w Vu Vv Vc Vw Fw A B) as (r' & Hs & K).
  assert (r' = r).
  { unfold should_swap_diagonals in Hs. cbn [q1 q2 q3 q4] in Hs. rewrite inf_not_fin, Fc in Hs. cbn [negb] in Hs. congruence. }
  subst r' r. now destruct (K eq_refl) as (_ & K1 & K2).
Qed.

(** ** The test against the constrained edge *)
Variables a b : N.
Variables va vb : vertex.
Hypothesis Na : nthN vs a = Some va.
Hypothesis Nb : nthN vs b = Some vb.

Lemma fin_a : is_finite a = true.
Proof. exact (index_finite vs px py X _ _ Na). Qed.
Lemma fin_b : is_finite b = true.
Proof. exact (index_finite vs px py X _ _ Nb). Qed.

Lemma crossing_test x y i :
  edge_and_constrained_edge_intersection vs (Edge x y) (va, vb) = Ret i ->
  is_crossing i = true <-> crosses a b x y.
Proof.
  unfold edge_and_constrained_edge_intersection. cbn [efrom eto].
  destruct (is_finite x) eqn:Fx, (is_finite y) eqn:Fy.
  - rewrite (lqi_fin x Fx), (lqi_fin y Fy). unfold edge_to_vertices. cbn [efrom eto].
    destruct (getN vs x) as [vx'| | |] eqn:Gx; cbn [bind]; try discriminate.
    destruct (getN vs y) as [vy'| | |] eqn:Gy; cbn [bind]; try discriminate.
    apply getN_ret in Gx, Gy. intros Hr; apply Ret_inj in Hr; subst i. eapply (XC_fin _ _ _ XC); eauto.
  - destruct (lqi_inf y Fy) as (q & Hq). rewrite (lqi_fin x Fx), Hq.
    destruct (getN vs x) as [vx'| | |] eqn:Gx; cbn [bind]; try discriminate. apply getN_ret in Gx.
    intros Hr; apply Ret_inj in Hr; subst i. eapply (XC_semi _ _ _ XC); eauto.
  - destruct (lqi_inf x Fx) as (q & Hq). rewrite (lqi_fin y Fy), Hq.
    destruct (getN vs y) as [vy'| | |] eqn:Gy; cbn [bind]; try discriminate. apply getN_ret in Gy.
    intros Hr; apply Ret_inj in Hr; subst i. rewrite (XC_semi _ _ _ XC a b y x q va vb vy'); eauto.
    split; apply crosses_flip2.
  - destruct (lqi_inf x Fx) as (q & Hq), (lqi_inf y Fy) as (q' & Hq'). rewrite Hq, Hq'.
    intros Hr; apply Ret_inj in Hr; subst i. split; [discriminate|]. intros (_ & C).
    pose proof (two_inf px py x y a b Fx Fy fin_a fin_b) as T. exfalso.
    assert (0 <= D x y b * D x y b)%Q by (destruct (Qlt_le_dec (D x y b) 0); nra).
    rewrite T in C. lra.
Qed.

(** An edge (u, v) crossed by ab from its right to its left. *)
Definition xing (u v : N) : Prop :=
  (0 < D a b u /\ D a b v < 0 /\ D u v a < 0 /\ 0 < D u v b)%Q.

Lemma cross_signs u v : crosses a b u v -> (0 < D a b u)%Q -> xing u v.
Proof.
  intros (C1 & C2) Hu.
  assert (Hv : (D a b v < 0)%Q) by (destruct (Qprod_neg _ _ C1); lra).
  pose proof (four_w (pos a) (pos b) (pos u) (pos v)) as R.
  rewrite (hw_fin px py a fin_a), (hw_fin px py b fin_b) in R.
  pose proof (hw_nonneg u). pose proof (hw_nonneg v).
  assert (Ku : (D a b v * hw (pos u) <= 0)%Q) by (apply Qmul_pn; lra).
  assert (Kv : (0 <= D a b u * hw (pos v))%Q) by (apply Qmult_le_0_compat; lra).
  assert (Sg : (D u v a < 0 /\ 0 < D u v b)%Q) by (destruct (Qprod_neg _ _ C2); lra).
  unfold xing. tauto.
Qed.

Lemma cross_cases u v : crosses a b u v -> xing u v \/ xing v u.
Proof.
  intros C. destruct (Qlt_le_dec 0 (D a b u)) as [P|P].
  - left. now apply cross_signs.
  - right. apply cross_signs; [now apply crosses_flip2|].
    destruct C as (C1 & _). destruct (Qprod_neg _ _ C1); lra.
Qed.

Lemma xing_crosses u v : xing u v -> crosses a b u v.
Proof. intros (A & B & C & F). split; nra. Qed.

Lemma xing_anti u v : xing u v -> xing v u -> False.
Proof. unfold xing. intros; lra. Qed.

(** ** Points of the open segment *)
Definition onseg (s t : Q) : pt3 := padd (pscale s (pos a)) (pscale t (pos b)).

Lemma det_onseg u v s t : (det u v (onseg s t) == s * det u v (pos a) + t * det u v (pos b))%Q.
Proof. unfold onseg. now rewrite det_padd, !det_pscale. Qed.

Lemma hw_onseg s t : (hw (onseg s t) == s + t)%Q.
Proof. unfold onseg; cbn [hw padd pscale]. rewrite (hw_fin px py a fin_a), (hw_fin px py b fin_b). ring. Qed.

Lemma ab_onseg s t : (det (pos a) (pos b) (onseg s t) == 0)%Q.
Proof. rewrite det_onseg. destruct (det_zero (pos a) (pos b)) as (_ & -> & _). destruct (det_zero (pos b) (pos a)) as (_ & _ & ->). ring. Qed.

(** The crossing point of an edge. *)
Definition cpt (u v : N) : pt3 := onseg (D u v b) (- D u v a).

Lemma cpt_on u v : (det (pos u) (pos v) (cpt u v) == 0)%Q.
Proof. unfold cpt. rewrite det_onseg. ring. Qed.

Lemma cpt_comb u v s t : (det s t (cpt u v) == - D a b v * det s t (pos u) + D a b u * det s t (pos v))%Q.
Proof. unfold cpt. rewrite det_onseg. unfold det. ring. Qed.

(** The crossing point lies in both triangles along the edge. *)
Lemma cpt_right u v w : xing u v -> (D u v w < 0)%Q ->
  (det (pos v) (pos w) (cpt u v) < 0 /\ det (pos w) (pos u) (cpt u v) < 0)%Q.
Proof.
  intros (C1 & C2 & _) K. rewrite !cpt_comb.
  destruct (det_rot3 (pos u) (pos v) (pos w)) as (R1 & R2).
  destruct (det_zero (pos v) (pos w)) as (_ & Z1 & _). destruct (det_zero (pos u) (pos w)) as (_ & _ & Z2).
  rewrite R1, R2, Z1, Z2.
  assert (0 < D a b v * D u v w)%Q by (apply mul_neg_neg; auto).
  assert (0 < D a b u * - D u v w)%Q by (apply Qmul_pos; lra). split; lra.
Qed.

Lemma cpt_left u v w : xing u v -> (D v u w < 0)%Q ->
  (det (pos u) (pos w) (cpt u v) < 0 /\ det (pos w) (pos v) (cpt u v) < 0)%Q.
Proof.
  intros (C1 & C2 & _) K. rewrite !cpt_comb.
  destruct (det_rot3 (pos v) (pos u) (pos w)) as (R1 & R2).
  destruct (det_zero (pos u) (pos w)) as (_ & Z1 & _). destruct (det_zero (pos v) (pos w)) as (_ & _ & Z2).
  rewrite R1, R2, Z1, Z2.
  assert (0 < D a b v * D v u w)%Q by (apply mul_neg_neg; auto).
  assert (0 < D a b u * - D v u w)%Q by (apply Qmul_pos; lra). split; lra.
Qed.

Lemma hw_cpt u v : xing u v -> (0 < hw (cpt u v))%Q.
Proof. intros (_ & _ & C & F). unfold cpt. rewrite hw_onseg. lra. Qed.

(** A point inside an edge is in no other closed triangle than the two along that edge. *)
Lemma edge_point_closed ts i u v w x y z p j :
  Mesh ts -> view ts i u v w x y z -> (0 < hw p)%Q ->
  (det (pos u) (pos v) p == 0)%Q -> (det (pos v) (pos w) p < 0)%Q -> (det (pos w) (pos u) p < 0)%Q ->
  inC pos ts j p -> j = i \/ j = x.
Proof.
  intros M V Hw Z H1 H2 HC.
  pose proof (edge_point_neighbor _ _ _ _ _ _ _ _ _ _ _ M V Hw Z) as Hx.
  pose proof (M_cw _ _ M _ _ _ _ _ _ _ V) as C.
  destruct (view_he _ _ _ _ _ _ _ _ V) as (Hab & _).
  pose proof (glue_some _ _ M _ _ _ _ Hab Hx) as (w' & x' & y' & V').
  pose proof (M_cw _ _ M _ _ _ _ _ _ _ V') as C'.
  destruct (split2_other _ _ _ _ C Z H1 H2 _ C') as (H3 & H4).
  destruct HC as (e & f & g & m1 & m2 & m3 & Vj & Ij).
  pose proof (M_cw _ _ M _ _ _ _ _ _ _ Vj) as Cj.
  set (s := padd (pos e) (padd (pos f) (pos g))).
  assert (Hclose : forall k, (0 < k)%Q -> in_open (pos e) (pos f) (pos g) (padd p (pscale k s))).
  { intros k Hk. apply closed_push; auto. }
  destruct (small_delta
    [(det (pos v) (pos w) p, det (pos v) (pos w) s); (det (pos w) (pos u) p, det (pos w) (pos u) s);
     (det (pos u) (pos w') p, det (pos u) (pos w') s); (det (pos w') (pos v) p, det (pos w') (pos v) s)]) as (k & Hk & Hsm).
  { intros xy Hin; simpl in Hin. decompose [or] Hin; subst; simpl; auto; contradiction. }
  specialize (Hsm k Hk (Qle_refl k)).
  set (q := padd p (pscale k s)).
  assert (G : forall l r, In (det l r p, det l r s)
    [(det (pos v) (pos w) p, det (pos v) (pos w) s); (det (pos w) (pos u) p, det (pos w) (pos u) s);
     (det (pos u) (pos w') p, det (pos u) (pos w') s); (det (pos w') (pos v) p, det (pos w') (pos v) s)] -> (det l r q < 0)%Q).
  { intros l r Hin. specialize (Hsm _ Hin). simpl in Hsm. unfold q. rewrite det_padd, det_pscale. exact Hsm. }
  assert (G1 : (det (pos v) (pos w) q < 0)%Q) by (apply G; simpl; tauto).
  assert (G2 : (det (pos w) (pos u) q < 0)%Q) by (apply G; simpl; tauto).
  assert (G3 : (det (pos u) (pos w') q < 0)%Q) by (apply G; simpl; tauto).
  assert (G4 : (det (pos w') (pos v) q < 0)%Q) by (apply G; simpl; tauto).
  assert (Tj : inT pos ts j q) by (apply (inT_view _ _ _ _ _ _ _ _ _ _ Vj); apply Hclose; auto).
  pose proof (det_anti (pos u) (pos v) q) as (An & _).
  destruct (Qlt_le_dec 0 (det (pos u) (pos v) q)) as [Sg|Sg].
  - right. apply (open_closed_excl _ _ M j x q Tj). apply (inC_view _ _ _ _ _ _ _ _ _ _ V').
    repeat split; lra.
  - left. apply (open_closed_excl _ _ M j i q Tj). apply (inC_view _ _ _ _ _ _ _ _ _ _ V).
    repeat split; lra.
Qed.

(** An edge through a point inside another edge, or inside a triangle. *)
Lemma edge_point_edge ts i u v w x y z p j e f n :
  Mesh ts -> view ts i u v w x y z -> (0 < hw p)%Q ->
  (det (pos u) (pos v) p <= 0)%Q -> (det (pos v) (pos w) p < 0)%Q -> (det (pos w) (pos u) p < 0)%Q ->
  he ts j e f n -> inC pos ts j p -> (det (pos e) (pos f) p == 0)%Q ->
  (det (pos u) (pos v) p == 0)%Q /\ sameE e f u v.
Proof.
  intros M V Hw H0 H1 H2 He HC Z.
  destruct (Qlt_le_dec (det (pos u) (pos v) p) 0) as [Hlt|Hge].
  - exfalso. assert (Ti : inT pos ts i p) by (apply (inT_view _ _ _ _ _ _ _ _ _ _ V); repeat split; auto).
    pose proof (open_closed_excl _ _ M _ _ _ Ti HC) as <-.
    destruct (he_cases _ _ _ _ _ _ _ _ _ _ _ V He) as [(-> & -> & _)|[(-> & -> & _)|(-> & -> & _)]]; lra.
  - assert (Zu : (det (pos u) (pos v) p == 0)%Q) by lra. split; auto.
    destruct (edge_point_closed ts i u v w x y z p j M V Hw Zu H1 H2 HC) as [-> | ->].
    + destruct (he_cases _ _ _ _ _ _ _ _ _ _ _ V He) as [(-> & -> & _)|[(-> & -> & _)|(-> & -> & _)]]; [now left|lra|lra].
    + pose proof (edge_point_neighbor _ _ _ _ _ _ _ _ _ _ _ M V Hw Zu) as Hx.
      destruct (view_he _ _ _ _ _ _ _ _ V) as (Hab & _).
      pose proof (glue_some _ _ M _ _ _ _ Hab Hx) as (w' & x' & y' & V').
      destruct (split2_other _ _ _ _ (M_cw _ _ M _ _ _ _ _ _ _ V) Zu H1 H2 _ (M_cw _ _ M _ _ _ _ _ _ _ V')) as (H3 & H4).
      destruct (he_cases _ _ _ _ _ _ _ _ _ _ _ V' He) as [(-> & -> & _)|[(-> & -> & _)|(-> & -> & _)]]; [now right|lra|lra].
Qed.

End WithEnv.
