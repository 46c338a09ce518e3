(** * CTerm: the removal of the edges crossed by a constrained edge terminates. *)

From Coq Require Import NArith List Bool Lia QArith Lqa Permutation.
From Verif Require Import Base BaseFacts Arith Types Utils Infinite Triangulation Constrained Geom Mesh
  MeshOps Exact ExactC MeshVerts AnyDT AnyCDT Walk Insert DTExact CSwap CCross CReg CPres.
Import ListNotations.
Local Open Scope N_scope.

Section WithEnv.
Context {E : Env}.
Variable vs : list vertex.
Variables px py : N -> Q.
Hypothesis X : Exact vs px py.
Hypothesis XC : ExactC vs px py.

Notation pos := (hpos px py).
Notation D a b c := (det (pos a) (pos b) (pos c)).
Notation Mesh := (Mesh pos).
Notation Ids := (Ids vs).
Notation vok := (vok vs).
Notation MInv := (MInv vs px py).
Notation VT := (VT vs).
Notation crosses := (crosses px py).
Notation Swapped := (Swapped vs px py).

(** ** The quad test is also complete *)
Lemma quad_not_crossing q x :
  quad_diagonals_intersection vs q = Ret x -> is_crossing x = false -> ~ crosses (q1 q) (q2 q) (q3 q) (q4 q).
Proof.
  destruct q as [a b c d]. unfold quad_diagonals_intersection, collect_infinite_quad_vertices. cbn [q1 q2 q3 q4].
  rewrite !inf_not_fin.
  destruct (is_finite a) eqn:Fa, (is_finite b) eqn:Fb, (is_finite c) eqn:Fc, (is_finite d) eqn:Fd;
    cbn [negb app bind]; try discriminate;
    unfold quad_diagonals_intersection_1_infinite, quad_diagonals_intersection_2_infinite;
    cbn [qv q1 q2 q3 q4 opposite_quad adjacent_quad fst snd];
    rewrite ?(lqi_fin a), ?(lqi_fin b), ?(lqi_fin c), ?(lqi_fin d) by assumption; try discriminate;
    rewrite ?(getN_inf vs px py X a), ?(getN_inf vs px py X b), ?(getN_inf vs px py X c), ?(getN_inf vs px py X d) by assumption;
    repeat match goal with
           | |- context [match infinite_vertex_local_quad_index ?v with _ => _ end] =>
               let q := fresh "q" in let Q := fresh "Hq" in
               destruct (lqi_inf v) as (q & Q); [assumption|]; rewrite Q
           end; cbn [bind]; try discriminate;
    repeat match goal with
           | |- bind (getN vs ?v) _ = _ -> _ =>
               let p := fresh "p" in let G := fresh "G" in
               destruct (getN vs v) as [p| | |] eqn:G; cbn [bind]; try discriminate; apply getN_ret in G
           end; try discriminate;
    intros Hr Hc C; apply Ret_inj in Hr; subst x.
  - eapply (XC_fin _ _ _ XC) in C; eauto. congruence.
  - eapply crosses_flip1, crosses_flip2, (XC_semi _ _ _ XC b a d c) in C; eauto. congruence.
  - eapply crosses_swap, crosses_flip1, (XC_semi _ _ _ XC d c a b) in C; eauto. congruence.
  - apply crosses_flip2 in C. pose proof (proj2 (XC_semi2 _ _ _ XC a b _ d c _ _ _ G G0 Hq Hq0) C). congruence.
  - eapply crosses_swap, crosses_flip2, (XC_semi _ _ _ XC c d b a) in C; eauto. congruence.
  - apply crosses_flip1, crosses_flip2 in C. pose proof (proj2 (XC_semi2 _ _ _ XC b a _ d c _ _ _ G G0 Hq Hq0) C). congruence.
Qed.

(** ** The part of the plane covered by the bounded triangles *)
Definition Cov (ts : list tri) (p : pt3) : Prop :=
  exists i x y z n1 n2 n3, view ts i x y z n1 n2 n3 /\
    is_finite x = true /\ is_finite y = true /\ is_finite z = true /\ in_closed (pos x) (pos y) (pos z) p.

Definition Covs (ts ts' : list tri) : Prop := forall p, Cov ts p -> Cov ts' p.

Lemma Covs_trans ts1 ts2 ts3 : Covs ts1 ts2 -> Covs ts2 ts3 -> Covs ts1 ts3.
Proof. intros A B p K. now apply B, A. Qed.

(** A swap whose new edge is bounded does not uncover anything. *)
Lemma swap_cov ts ts' v2t' d q upd : Mesh ts -> Swapped ts ts' v2t' d q upd ->
  is_finite (q3 q) = true -> is_finite (q4 q) = true -> Covs ts ts'.
Proof.
  intros M W F3 F4 p (i & x & y & z & n1 & n2 & n3 & V & Fx & Fy & Fz & C).
  pose proof (W_inv _ _ _ _ _ _ _ _ _ W) as I'. pose proof (I_mesh _ _ _ _ I') as M'.
  destruct (W_old _ _ _ _ _ _ _ _ _ W) as (k1 & k2 & k3 & k4 & O1 & O2).
  destruct (W_from _ _ _ _ _ _ _ _ _ W) as (a1 & a2 & a3 & A).
  destruct (W_to _ _ _ _ _ _ _ _ _ W) as (b1 & b2 & b3 & B).
  pose proof (M_cw _ _ M _ _ _ _ _ _ _ O1) as C1. pose proof (M_cw _ _ M _ _ _ _ _ _ _ O2) as C2.
  pose proof (M_cw _ _ M' _ _ _ _ _ _ _ A) as C3. pose proof (M_cw _ _ M' _ _ _ _ _ _ _ B) as C4.
  assert (New : is_finite (q1 q) = true -> is_finite (q2 q) = true ->
    in_closed (pos (q4 q)) (pos (q1 q)) (pos (q3 q)) p \/ in_closed (pos (q4 q)) (pos (q3 q)) (pos (q2 q)) p -> Cov ts' p).
  { intros F1 F2 [K|K]; [exists (d_from d), (q4 q), (q1 q), (q3 q), a1, a2, a3|exists (d_to d), (q4 q), (q3 q), (q2 q), b1, b2, b3]; auto. }
  assert (Fin : forall u v w m1 m2 m3, view ts i u v w m1 m2 m3 ->
    is_finite u = true /\ is_finite v = true /\ is_finite w = true /\ in_closed (pos u) (pos v) (pos w) p).
  { intros u v w m1 m2 m3 V'. destruct (view_fun _ _ _ _ _ _ _ _ _ _ _ _ _ _ V V') as [K|[K|K]]; destruct K as (<- & <- & <- & _).
    - auto.
    - split; auto. split; auto. split; auto. now apply in_closed_rot.
    - split; auto. split; auto. split; auto. now apply in_closed_rot, in_closed_rot. }
  destruct (N.eq_dec i (d_from d)) as [-> |Hf].
  { destruct (Fin _ _ _ _ _ _ O1) as (_ & F1 & F2 & K). apply New; auto. now apply flip_cover1. }
  destruct (N.eq_dec i (d_to d)) as [-> |Ht].
  { destruct (Fin _ _ _ _ _ _ O2) as (F2 & F1 & _ & K). apply New; auto. now apply flip_cover2. }
  destruct (W_other _ _ _ _ _ _ _ _ _ W i _ _ _ _ _ _ Hf Ht V) as (m1 & m2 & m3 & V').
  exists i, x, y, z, m1, m2, m3. auto.
Qed.

Section Ab.
Variables a b : N.
Variables va vb : vertex.
Hypothesis Na : nthN vs a = Some va.
Hypothesis Nb : nthN vs b = Some vb.
Hypothesis Hab : a <> b.

Notation xing := (xing px py a b).
Notation cpt := (cpt px py a b).
Notation H v := (D a b v).
Notation w v := (hw (pos v)).

Lemma H_a : (H a == 0)%Q.
Proof. exact (proj1 (proj2 (det_zero (pos a) (pos b)))). Qed.
Lemma H_b : (H b == 0)%Q.
Proof. exact (proj2 (proj2 (det_zero (pos b) (pos a)))). Qed.
Lemma w_a : w a = 1%Q.
Proof. apply hw_fin. exact (fin_a vs px py X a va Na). Qed.
Lemma w_b : w b = 1%Q.
Proof. apply hw_fin. exact (fin_b vs px py X b vb Nb). Qed.

(** ** The height of the vertex before a crossed edge *)

(** [x] is the third corner of the triangle of [u l] on the side of [a]. *)
Definition Carry (x u l : N) : Prop :=
  is_finite x = true /\
  ((0 <= H x /\ H x * w u < H u) \/ (H x <= 0 /\ H l < H x * w l))%Q.

Lemma carry_a u l : xing u l -> Carry a u l.
Proof.
  intros (A & _). split; [exact (fin_a vs px py X a va Na)|]. left. rewrite H_a. split; [lra|]. lra.
Qed.

(** A quad that is not strictly convex has its reflex corner strictly below the next
    vertex. *)
Lemma blocked_step u l x y :
  xing u l -> (D u l x < 0)%Q -> (D l u y < 0)%Q -> ~ crosses u l y x -> Carry x u l ->
  (is_finite u = true /\ w y * H u < H y)%Q \/ (is_finite l = true /\ H y < w y * H l)%Q.
Proof.
  intros (Hu & Hl & _) A B NC (Fx & Ca).
  pose proof (hw_nonneg px py u) as Wu. pose proof (hw_nonneg px py l) as Wl. pose proof (hw_nonneg px py y) as Wy.
  pose proof (hw_fin px py x Fx) as Wx.
  assert (Lx : (is_finite u = true -> H x < H u)%Q).
  { intros F. destruct Ca as [(C1 & C2)|(C1 & C2)]; [rewrite (hw_fin px py u F) in C2; lra|lra]. }
  assert (Ll : (is_finite l = true -> H l < H x)%Q).
  { intros F. destruct Ca as [(C1 & C2)|(C1 & C2)]; [lra|rewrite (hw_fin px py l F) in C2; lra]. }
  assert (Pq : (0 <= D x y u * D x y l)%Q).
  { destruct (Qlt_le_dec (D x y u * D x y l) 0) as [Q|Q]; auto. exfalso. apply NC. split.
    - assert (R : (D u l y == - D l u y)%Q) by (unfold det; ring). rewrite R.
      assert (0 < - D l u y * - D u l x)%Q by (apply Qmul_pos; lra). lra.
    - assert (R : (D y x u * D y x l == D x y u * D x y l)%Q) by (unfold det; ring). now rewrite R. }
  assert (W1 : (D x y l * w u == D l u y * w x + D u l x * w y + D x y u * w l)%Q) by (unfold det; ring).
  assert (H1 : (D x y l * H u == D l u y * H x + D u l x * H y + D x y u * H l)%Q) by (unfold det; ring).
  rewrite Wx in W1.
  set (p := D x y u) in *. set (q := D x y l) in *. set (A' := D l u y) in *. set (B' := D u l x) in *.
  set (hx' := H x) in *. set (hy' := H y) in *. set (hu := H u) in *. set (hl := H l) in *.
  set (wu := w u) in *. set (wl := w l) in *. set (wy := w y) in *.
  assert (Cs : ((p <= 0 /\ q <= 0) \/ (0 <= p /\ 0 <= q))%Q).
  { destruct (Qlt_le_dec p 0) as [P|P]; destruct (Qlt_le_dec q 0) as [Q|Q].
    - left. split; lra.
    - destruct (Qeq_dec q 0) as [Z|Z]; [left; split; lra|]. exfalso.
      assert (0 < - p * q)%Q by (apply Qmul_pos; lra). lra.
    - destruct (Qeq_dec p 0) as [Z|Z]; [left; split; lra|]. exfalso.
      assert (0 < p * - q)%Q by (apply Qmul_pos; lra). lra.
    - right. auto. }
  assert (Bw : (B' * wy <= 0)%Q) by (apply Qmul_pn; lra).
  destruct Cs as [(P & Q)|(P & Q)].
  - left. assert (Pw : (p * wl <= 0)%Q) by (apply Qmul_pn; lra).
    destruct (is_finite u) eqn:Fu.
    + split; auto. specialize (Lx eq_refl). assert (Eu : wu = 1%Q) by (unfold wu; now apply hw_fin). rewrite Eu in W1.
      assert (K : (B' * (hy' - wy * hu) == A' * (hu - hx') + p * (wl * hu - hl))%Q).
      { assert (K0 : (q == A' + B' * wy + p * wl)%Q) by lra. rewrite K0 in H1. lra. }
      assert (K1 : (0 < - A' * (hu - hx'))%Q) by (apply Qmul_pos; lra).
      assert (K2 : (0 <= wl * hu)%Q) by (apply Qmult_le_0_compat; lra).
      assert (K3 : (p * (wl * hu - hl) <= 0)%Q) by (apply Qmul_pn; lra).
      assert (K4 : (B' * (hy' - wy * hu) < 0)%Q) by lra.
      destruct (Qprod_neg _ _ K4); lra.
    + exfalso. assert (Eu : wu = 0%Q) by (unfold wu; now apply hw_inf). rewrite Eu in W1. lra.
  - right. assert (Pw : (0 <= q * wu)%Q) by (apply Qmult_le_0_compat; lra).
    destruct (is_finite l) eqn:Fl.
    + split; auto. specialize (Ll eq_refl). assert (El : wl = 1%Q) by (unfold wl; now apply hw_fin). rewrite El in W1.
      assert (K : (B' * (hy' - wy * hl) == A' * (hl - hx') + q * (hu - wu * hl))%Q).
      { assert (K0 : (p == q * wu - A' - B' * wy)%Q) by lra. rewrite K0 in H1. lra. }
      assert (K1 : (0 < - A' * - (hl - hx'))%Q) by (apply Qmul_pos; lra).
      assert (K2 : (0 <= wu * - hl)%Q) by (apply Qmult_le_0_compat; lra).
      assert (K3 : (0 <= q * (hu - wu * hl))%Q) by (apply Qmult_le_0_compat; lra).
      assert (K4 : (0 < B' * (hy' - wy * hl))%Q) by lra.
      destruct (Qprod_pos _ _ K4); lra.
    + exfalso. assert (El : wl = 0%Q) by (unfold wl; now apply hw_inf). rewrite El in W1. lra.
Qed.

(** A new diagonal between two crossed edges of the strip is crossed. *)
Lemma between_xing x y p q : (0 < H x)%Q -> (H y < 0)%Q ->
  xing x q -> (0 < D x q y)%Q -> xing p y -> (D p y x < 0)%Q -> xing x y.
Proof.
  intros Hx Hy (A1 & A2 & A3 & A4) A5 (B1 & B2 & B3 & B4) B5.
  pose proof (cpt_comb px py a b x y (pos x) (pos q)) as C1.
  pose proof (cpt_comb px py a b x y (pos p) (pos y)) as C2.
  pose proof (four_w (pos a) (pos b) (pos x) (pos y)) as R. rewrite w_a, w_b in R.
  unfold CCross.cpt in *. rewrite !det_onseg in *.
  destruct (det_zero (pos x) (pos q)) as (_ & Z1 & _). rewrite Z1 in C1.
  destruct (det_zero (pos y) (pos p)) as (_ & _ & Z2). rewrite Z2 in C2.
  pose proof (hw_nonneg px py x) as Wx. pose proof (hw_nonneg px py y) as Wy.
  assert (K1 : (0 <= - H y * w x)%Q) by (apply Qmult_le_0_compat; lra).
  assert (K2 : (0 <= H x * w y)%Q) by (apply Qmult_le_0_compat; lra).
  assert (K3 : (0 < H x * D x q y)%Q) by (apply Qmul_pos; lra).
  assert (K4 : (0 < - H y * - D p y x)%Q) by (apply Qmul_pos; lra).
  set (s := D x y b) in *. set (t := D x y a) in *.
  assert (S : (0 < s)%Q).
  { destruct (Qlt_le_dec 0 s) as [|Hs]; auto. exfalso.
    assert (0 <= s * D p y a)%Q by (apply mul_nonpos_nonpos; lra).
    assert (L : (0 < t * D p y b)%Q) by lra. destruct (Qprod_pos _ _ L); lra. }
  assert (T : (t < 0)%Q).
  { destruct (Qlt_le_dec t 0) as [|Ht]; auto. exfalso.
    assert (s * D x q a <= 0)%Q by (apply Qmul_np; lra).
    assert (0 <= t * D x q b)%Q by (apply Qmult_le_0_compat; lra). lra. }
  unfold CCross.xing. fold s t. auto.
Qed.

Lemma between_xing2 x y p q : (0 < H x)%Q -> (H y < 0)%Q ->
  xing x q -> (D x q y < 0)%Q -> xing p y -> (0 < D p y x)%Q -> xing x y.
Proof.
  intros Hx Hy (A1 & A2 & A3 & A4) A5 (B1 & B2 & B3 & B4) B5.
  pose proof (cpt_comb px py a b x y (pos x) (pos q)) as C1.
  pose proof (cpt_comb px py a b x y (pos p) (pos y)) as C2.
  pose proof (four_w (pos a) (pos b) (pos x) (pos y)) as R. rewrite w_a, w_b in R.
  unfold CCross.cpt in *. rewrite !det_onseg in *.
  destruct (det_zero (pos x) (pos q)) as (_ & Z1 & _). rewrite Z1 in C1.
  destruct (det_zero (pos y) (pos p)) as (_ & _ & Z2). rewrite Z2 in C2.
  pose proof (hw_nonneg px py x) as Wx. pose proof (hw_nonneg px py y) as Wy.
  assert (K1 : (0 <= - H y * w x)%Q) by (apply Qmult_le_0_compat; lra).
  assert (K2 : (0 <= H x * w y)%Q) by (apply Qmult_le_0_compat; lra).
  assert (K3 : (0 < H x * - D x q y)%Q) by (apply Qmul_pos; lra).
  assert (K4 : (0 < - H y * D p y x)%Q) by (apply Qmul_pos; lra).
  set (s := D x y b) in *. set (t := D x y a) in *.
  assert (S : (0 < s)%Q).
  { destruct (Qlt_le_dec 0 s) as [|Hs]; auto. exfalso.
    assert (0 <= s * D x q a)%Q by (apply mul_nonpos_nonpos; lra).
    assert (L : (0 < t * D x q b)%Q) by lra. destruct (Qprod_pos _ _ L); lra. }
  assert (T : (t < 0)%Q).
  { destruct (Qlt_le_dec t 0) as [|Ht]; auto. exfalso.
    assert (s * D p y a <= 0)%Q by (apply Qmul_np; lra).
    assert (0 <= t * D p y b)%Q by (apply Qmult_le_0_compat; lra). lra. }
  unfold CCross.xing. fold s t. auto.
Qed.

(** ** The strip of triangles crossed by a b *)

Definition T (ts : list tri) (t p q r : N) : Prop := exists n1 n2 n3, view ts t p q r n1 n2 n3.

Lemma T_rot ts t p q r : T ts t p q r -> T ts t q r p.
Proof. intros (n1 & n2 & n3 & V). exists n2, n3, n1. now apply view_rot. Qed.

Lemma T_rot2 ts t p q r : T ts t p q r -> T ts t r p q.
Proof. intros V. now apply T_rot, T_rot. Qed.

Lemma T_cw ts t p q r : Mesh ts -> T ts t p q r -> (D p q r < 0)%Q.
Proof. intros M (n1 & n2 & n3 & V). exact (M_cw _ _ M _ _ _ _ _ _ _ V). Qed.

Lemma T_share ts i j p q r r' : Mesh ts -> T ts i p q r -> T ts j p q r' -> i = j /\ r = r'.
Proof.
  intros M (n1 & n2 & n3 & V) (m1 & m2 & m3 & V').
  assert (i = j).
  { eapply (edge_share pos ts M i j p q n1 m1); [exists r, n2, n3; exact V|exists r', m2, m3; exact V']. }
  subst j. split; auto.
  pose proof (D_distinct _ _ _ _ (M_cw _ _ M _ _ _ _ _ _ _ V)) as (A1 & A2 & A3).
  destruct (view_fun _ _ _ _ _ _ _ _ _ _ _ _ _ _ V V') as [(_ & _ & -> & _)|[(-> & _)|(-> & -> & _)]]; congruence.
Qed.

(** The edges crossed before the edge [u l]: it is reached through the triangle [t], whose
    third corner is [x]. *)
Inductive Pre (ts : list tri) : list (N * N) -> N -> N -> N -> N -> list N -> Prop :=
| pre_nil t u l : T ts t u l a -> Pre ts [] t a u l []
| pre_up P t x u l ids t' u' : Pre ts P t x u l ids -> T ts t' u' l u ->
    Pre ts (P ++ [(u, l)]) t' u u' l (ids ++ [t])
| pre_low P t x u l ids t' l' : Pre ts P t x u l ids -> T ts t' u l' l ->
    Pre ts (P ++ [(u, l)]) t' l u l' (ids ++ [t]).

(** The edges crossed after the edge [u l]. *)
Inductive Suf (ts : list tri) : N -> N -> list (N * N) -> list N -> Prop :=
| suf_end t' u l : T ts t' l u b -> Suf ts u l [] [t']
| suf_up t' u l u' R ids : T ts t' u' l u -> Suf ts u' l R ids -> Suf ts u l ((u', l) :: R) (t' :: ids)
| suf_low t' u l l' R ids : T ts t' u l' l -> Suf ts u l' R ids -> Suf ts u l ((u, l') :: R) (t' :: ids).

Lemma pre_T ts P t x u l ids : Pre ts P t x u l ids -> T ts t u l x.
Proof. destruct 1; auto. Qed.

Lemma pre_mono ts ts' P t x u l ids : Pre ts P t x u l ids ->
  (forall j p q r, In j (ids ++ [t]) -> T ts j p q r -> T ts' j p q r) -> Pre ts' P t x u l ids.
Proof.
  induction 1 as [t u l V|P t x u l ids t' u' HP IH V|P t x u l ids t' l' HP IH V]; intros K.
  - constructor. apply K; auto. now left.
  - apply pre_up with (x := x); [apply IH; intros j p q r Hj; apply K; apply in_or_app; now left|].
    apply K; auto. apply in_or_app. right. now left.
  - apply pre_low with (x := x); [apply IH; intros j p q r Hj; apply K; apply in_or_app; now left|].
    apply K; auto. apply in_or_app. right. now left.
Qed.

Lemma suf_mono ts ts' u l R ids : Suf ts u l R ids ->
  (forall j p q r, In j ids -> T ts j p q r -> T ts' j p q r) -> Suf ts' u l R ids.
Proof.
  induction 1 as [t' u l V|t' u l u' R ids V S IH|t' u l l' R ids V S IH]; intros K.
  - constructor. apply K; auto. now left.
  - apply suf_up; [apply K; auto; now left|apply IH; intros j p q r Hj; apply K; now right].
  - apply suf_low; [apply K; auto; now left|apply IH; intros j p q r Hj; apply K; now right].
Qed.

Lemma rewind ts P t x u l ids : Pre ts P t x u l ids -> forall R idsS, Suf ts u l R idsS ->
  exists t0 u0 l0 R0 ids0, T ts t0 u0 l0 a /\ (u0, l0) :: R0 = P ++ (u, l) :: R /\
    Suf ts u0 l0 R0 ids0 /\ t0 :: ids0 = ids ++ t :: idsS.
Proof.
  induction 1 as [t u l V|P t x u l ids t' u' HP IH V|P t x u l ids t' l' HP IH V]; intros R idsS S.
  - exists t, u, l, R, idsS. auto.
  - destruct (IH _ _ (suf_up _ _ _ _ _ _ _ V S)) as (t0 & u0 & l0 & R0 & ids0 & A & B & C & F).
    exists t0, u0, l0, R0, ids0. rewrite <- !app_assoc. auto.
  - destruct (IH _ _ (suf_low _ _ _ _ _ _ _ V S)) as (t0 & u0 & l0 & R0 & ids0 & A & B & C & F).
    exists t0, u0, l0, R0, ids0. rewrite <- !app_assoc. auto.
Qed.

Definition xinge (e : N * N) : Prop := xing (fst e) (snd e).

(** The strip, read from its edge [u l]. *)
Record St (ts : list tri) (P : list (N * N)) (t x u l : N) (R : list (N * N)) (ids idsS : list N) : Prop := {
  S_pre : Pre ts P t x u l ids;
  S_suf : Suf ts u l R idsS;
  S_nd : NoDup (ids ++ t :: idsS);
  S_x : Forall xinge (P ++ (u, l) :: R)
}.

Lemma st_rewind ts P t x u l R ids idsS : St ts P t x u l R ids idsS ->
  exists t0 u0 l0 R0 ids0, (u0, l0) :: R0 = P ++ (u, l) :: R /\ St ts [] t0 a u0 l0 R0 [] ids0.
Proof.
  intros [A B C F]. destruct (rewind _ _ _ _ _ _ _ A _ _ B) as (t0 & u0 & l0 & R0 & ids0 & V & Q & S & Q').
  exists t0, u0, l0, R0, ids0. split; auto. constructor; auto.
  - now constructor.
  - cbn [app]. now rewrite Q'.
  - cbn [app]. now rewrite Q.
Qed.

(** The quad of an edge of the mesh is not strictly convex. *)
Definition blocked (ts : list tri) (e : N * N) : Prop :=
  forall t t' x y, T ts t (fst e) (snd e) x -> T ts t' (snd e) (fst e) y -> ~ crosses (fst e) (snd e) y x.

Lemma suf_next ts u l R ids : Suf ts u l R ids -> exists t' y ids', ids = t' :: ids' /\ T ts t' l u y /\
  ((R = [] /\ y = b /\ ids' = []) \/
   (exists R', R = (y, l) :: R' /\ Suf ts y l R' ids') \/
   (exists R', R = (u, y) :: R' /\ Suf ts u y R' ids')).
Proof.
  destruct 1 as [t' u l V|t' u l u' R ids V S|t' u l l' R ids V S].
  - exists t', b, []. auto 10.
  - exists t', u', ids. split; auto. split; [now apply T_rot|]. right. left. eauto.
  - exists t', l', ids. split; auto. split; [now apply T_rot2|]. right. right. eauto.
Qed.

Lemma carry_up u l y : is_finite u = true -> (0 < H u)%Q -> (w y * H u < H y)%Q -> Carry u y l.
Proof. intros F A B. split; auto. left. split; lra. Qed.
Lemma carry_low u l y : is_finite l = true -> (H l < 0)%Q -> (H y < w y * H l)%Q -> Carry l u y.
Proof. intros F A B. split; auto. right. split; lra. Qed.

(** Skipping a blocked edge keeps the carry; the last edge is not blocked. *)
Lemma carry_next ts t t' x y u l : Mesh ts -> T ts t u l x -> T ts t' l u y -> xing u l -> Carry x u l ->
  blocked ts (u, l) -> ~ peq (pos y) (pos b) /\ ((0 < H y)%Q /\ Carry u y l \/ (H y < 0)%Q /\ Carry l u y).
Proof.
  intros M V1 V2 Hx Ca B. pose proof (T_cw _ _ _ _ _ M V1) as C1. pose proof (T_cw _ _ _ _ _ M V2) as C2.
  pose proof (B _ _ _ _ V1 V2) as NC. cbn [fst snd] in NC.
  pose proof (hw_nonneg px py y) as Wy.
  assert (Q : ((0 < H y)%Q /\ Carry u y l) \/ ((H y < 0)%Q /\ Carry l u y)).
  { destruct (blocked_step u l x y Hx C1 C2 NC Ca) as [(F & K)|(F & K)]; destruct Hx as (Hu & Hl & _).
    - left. assert (0 <= w y * H u)%Q by (apply Qmult_le_0_compat; lra). split; [lra|now apply carry_up].
    - right. assert (0 <= w y * - H l)%Q by (apply Qmult_le_0_compat; lra). split; [lra|now apply carry_low]. }
  split; auto. intros (P1 & P2 & P3). assert (H y == 0)%Q; [|destruct Q as [(Q & _)|(Q & _)]; lra].
  rewrite <- H_b. unfold det. rewrite P1, P2, P3. reflexivity.
Qed.

Lemma not_all_blocked ts : Mesh ts -> forall u l R ids, Suf ts u l R ids -> forall t x,
  T ts t u l x -> Carry x u l -> Forall xinge ((u, l) :: R) -> Forall (blocked ts) ((u, l) :: R) -> False.
Proof.
  intros M u l R ids S. induction S as [t' u l V|t' u l u' R ids V S IH|t' u l l' R ids V S IH];
    intros t x V0 Ca FX FB; inversion FX as [|? ? X1 X2]; inversion FB as [|? ? B1 B2]; subst;
    unfold xinge in X1; cbn [fst snd] in X1.
  - destruct (carry_next ts t t' x b u l M V0 V X1 Ca B1) as (K & _). apply K. apply peq_refl.
  - destruct (carry_next ts t t' x u' u l M V0 (T_rot _ _ _ _ _ V) X1 Ca B1) as (_ & [(_ & K)|(K & _)]).
    + eapply IH; eauto.
    + inversion X2 as [|? ? Y _]; subst. destruct Y as (Y & _). cbn [fst] in Y. lra.
  - destruct (carry_next ts t t' x l' u l M V0 (T_rot2 _ _ _ _ _ V) X1 Ca B1) as (_ & [(K & _)|(_ & K)]).
    + inversion X2 as [|? ? Y _]; subst. destruct Y as (_ & Y & _). cbn [snd] in Y. lra.
    + eapply IH; eauto.
Qed.

(** Skipping an edge. *)
Lemma st_skip ts P t x u l u2 l2 R ids idsS : Mesh ts -> St ts P t x u l ((u2, l2) :: R) ids idsS ->
  exists t2 x2 ids' idsS', St ts (P ++ [(u, l)]) t2 x2 u2 l2 R ids' idsS' /\
    (Carry x u l -> blocked ts (u, l) -> Carry x2 u2 l2).
Proof.
  intros M [A B C F].
  pose proof F as F'. apply Forall_app in F'. destruct F' as (_ & F').
  inversion F' as [|? ? Xu F2]; subst. inversion F2 as [|? ? Xu2 _]; subst. unfold xinge in Xu, Xu2; cbn [fst snd] in *.
  pose proof (pre_T _ _ _ _ _ _ _ A) as V0.
  inversion B as [|t' ? ? ? ? ids2 V S|t' ? ? ? ? ids2 V S]; subst.
  - exists t', u, (ids ++ [t]), ids2. split.
    + constructor; auto. * now apply pre_up with (x := x). * now rewrite <- app_assoc. * now rewrite <- app_assoc.
    + intros Ca Bl. destruct (carry_next ts t t' x u2 u l2 M V0 (T_rot _ _ _ _ _ V) Xu Ca Bl) as (_ & [(_ & K)|(K & _)]); auto.
      destruct Xu2; lra.
  - exists t', l, (ids ++ [t]), ids2. split.
    + constructor; auto. * now apply pre_low with (x := x). * now rewrite <- app_assoc. * now rewrite <- app_assoc.
    + intros Ca Bl. destruct (carry_next ts t t' x l2 u2 l M V0 (T_rot2 _ _ _ _ _ V) Xu Ca Bl) as (_ & [(K & _)|(_ & K)]); auto.
      destruct Xu2 as (_ & ? & _); lra.
Qed.

(** ** The effect of a swap on the strip *)
Section Flipped.
Variables ts ts' : list tri.
Variables t t' x y u l : N.
Hypothesis M : Mesh ts.
Hypothesis M' : Mesh ts'.
Hypothesis V1 : T ts t u l x.
Hypothesis V2 : T ts t' l u y.
Hypothesis V1' : T ts' t x u y.
Hypothesis V2' : T ts' t' x y l.
Hypothesis Other : forall j p q r, j <> t -> j <> t' -> T ts j p q r -> T ts' j p q r.

Lemma st_flip P R ids idsS : St ts P t x u l R ids idsS ->
  (crosses a b x y /\ exists u2 l2 R2 e t2 ids' idsS', R = (u2, l2) :: R2 /\ sameE (fst e) (snd e) x y /\
     St ts' (P ++ [e]) t2 x u2 l2 R2 ids' idsS' /\ (Carry x u l -> Carry x u2 l2)) \/
  (~ crosses a b x y /\
    ((exists u2 l2 R2 t2 x2 ids' idsS', R = (u2, l2) :: R2 /\ St ts' P t2 x2 u2 l2 R2 ids' idsS') \/
     (R = [] /\ P = []) \/
     (R = [] /\ exists u0 l0 R0 t0 ids0, P = (u0, l0) :: R0 /\ St ts' [] t0 a u0 l0 R0 [] ids0))).
Proof.
  intros [A B C F].
  pose proof (T_cw _ _ _ _ _ M' V1') as K1. pose proof (T_cw _ _ _ _ _ M' V2') as K2.
  pose proof F as Fu. apply Forall_app in Fu. destruct Fu as (FP & FR). inversion FR as [|? ? Xu FR']; subst.
  unfold xinge in Xu; cbn [fst snd] in Xu.
  assert (Cr : crosses a b x y -> (H x * H y < 0)%Q) by (intros (Q & _); exact Q).
  assert (Tail : forall t1 ids1 u1 l1 R1, idsS = t1 :: ids1 -> t1 = t' -> Suf ts u1 l1 R1 ids1 -> Suf ts' u1 l1 R1 ids1).
  { intros t1 ids1 u1 l1 R1 -> -> S. eapply suf_mono; [exact S|]. intros j p q r Hj. apply Other; intros ->.
    - apply NoDup_remove_2 in C. apply C. apply in_or_app. right. now right.
    - apply NoDup_remove_1 in C. apply NoDup_remove_2 in C. apply C. apply in_or_app. now right. }
  assert (Head : forall P0 t0 x0 u0 l0 ids0, ids = ids0 ++ [t0] -> In t' idsS -> Pre ts P0 t0 x0 u0 l0 ids0 -> Pre ts' P0 t0 x0 u0 l0 ids0).
  { intros P0 t0 x0 u0 l0 ids0 -> Ht' Q. eapply pre_mono; [exact Q|]. intros j p q r Hj. apply Other; intros ->.
    - apply NoDup_remove_2 in C. apply C. apply in_or_app. now left.
    - apply in_split in Ht'. destruct Ht' as (i1 & i2 & ->).
      rewrite app_comm_cons, app_assoc in C. apply NoDup_remove_2 in C. apply C.
      apply in_or_app. left. apply in_or_app. now left. }
  assert (Ndt : forall i1, idsS = t' :: i1 -> NoDup (ids ++ t' :: i1)).
  { intros i1 ->. now apply NoDup_remove_1 in C. }
  assert (Ndt2 : forall i1, idsS = t' :: i1 -> NoDup (ids ++ t :: i1)).
  { intros i1 ->. change (t :: t' :: i1) with ([t] ++ t' :: i1) in C. rewrite app_assoc in C.
    apply NoDup_remove_1 in C. now rewrite <- app_assoc in C. }
  assert (Ndt3 : forall i1, idsS = t' :: i1 -> NoDup ((ids ++ [t']) ++ t :: i1)).
  { intros i1 ->. rewrite <- app_assoc. eapply Permutation_NoDup; [|exact C]. apply Permutation_app_head. simpl. constructor. }
  assert (Ndt4 : forall i1, idsS = t' :: i1 -> NoDup ((ids ++ [t]) ++ t' :: i1)).
  { intros i1 ->. now rewrite <- app_assoc. }
  pose proof H_a as Ea. pose proof H_b as Eb.
  destruct (suf_next _ _ _ _ _ B) as (t1 & y1 & i1 & -> & VB & Cases).
  destruct (T_share ts t1 t' _ _ _ _ M VB V2) as (-> & ->). assert (Tail' := fun p q r => Tail t' i1 p q r eq_refl eq_refl). clear Tail.
  specialize (Ndt _ eq_refl). specialize (Ndt2 _ eq_refl). specialize (Ndt3 _ eq_refl). specialize (Ndt4 _ eq_refl).
  assert (Ht' : In t' (t' :: i1)) by now left.
  pose proof (T_rot _ _ _ _ _ V1') as W1. pose proof (T_rot2 _ _ _ _ _ V1') as W1b.
  pose proof (T_rot _ _ _ _ _ V2') as W2. pose proof (T_rot2 _ _ _ _ _ V2') as W2b.
  inversion A as [t0 u0 l0 VA|P0 t0 x0 u0 l0 ids0 t2 u2 A0 VA|P0 t0 x0 u0 l0 ids0 t2 l2 A0 VA]; subst.
  - right. split; [intros Q; apply Cr in Q; rewrite Ea in Q; lra|].
    destruct Cases as [(-> & -> & ->)|[(R' & -> & S)|(R' & -> & S)]].
    + right. left. auto.
    + left. exists y, l, R', t', a, [], i1. split; auto. constructor; auto. now constructor.
    + left. exists u, y, R', t, a, [], i1. split; auto. constructor; auto. now constructor.
  - assert (A0' := Head _ _ _ _ _ _ eq_refl Ht' A0).
    apply Forall_app in FP. destruct FP as (FP0 & FP1). inversion FP1 as [|? ? Xx _]; subst. unfold xinge in Xx; cbn [fst snd] in Xx.
    assert (Hx : (0 < H x)%Q) by (destruct Xx; lra).
    destruct Cases as [(-> & -> & ->)|[(R' & -> & S)|(R' & -> & S)]].
    + right. split; [intros Q; apply Cr in Q; rewrite Eb in Q; lra|]. right. right. split; auto.
      assert (S0 : St ts' P0 t0 x0 x l [] ids0 [t']).
      { constructor; auto.
        - now constructor.
        - now rewrite <- app_assoc in Ndt.
        - apply Forall_app. split; auto. }
      destruct (st_rewind _ _ _ _ _ _ _ _ _ S0) as (a1 & a2 & a3 & a4 & a5 & Q1 & Q2).
      exists a2, a3, a4, a1, a5. split; auto.
    + inversion FR' as [|? ? Xy _]; subst. unfold xinge in Xy; cbn [fst snd] in Xy.
      right. split.
      * intros Q; apply Cr in Q. destruct Xy as (Xy & _). assert (0 < H x * H y)%Q by (apply Qmul_pos; lra). lra.
      * left. exists y, l, R', t', x, (ids0 ++ [t0]), i1. split; auto. constructor; auto.
        -- apply pre_up with (x := x0); auto.
        -- apply Forall_app. split; auto. apply Forall_app. split; auto.
    + inversion FR' as [|? ? Xy _]; subst. unfold xinge in Xy; cbn [fst snd] in Xy.
      assert (Xn : xing x y).
      { apply (between_xing x y u l); auto.
        - destruct Xy as (_ & Xy & _). auto.
        - pose proof (det_anti (pos x) (pos y) (pos l)). lra.
        - pose proof (det_rot3 (pos x) (pos u) (pos y)). lra. }
      left. split; [now apply xing_crosses|].
      exists u, y, R', (x, y), t, ((ids0 ++ [t0]) ++ [t']), i1. split; auto. split; [apply sameE_refl|]. split.
      * constructor; auto.
        -- apply pre_up with (x := l); auto. apply pre_low with (x := x0); auto.
        -- apply Forall_app. split; [|auto]. apply Forall_app. split; [apply Forall_app; split; auto|]. constructor; auto.
      * intros (Fx & [Ca|(Ca & _)]); [|lra]. split; auto.
  - assert (A0' := Head _ _ _ _ _ _ eq_refl Ht' A0).
    apply Forall_app in FP. destruct FP as (FP0 & FP1). inversion FP1 as [|? ? Xx _]; subst. unfold xinge in Xx; cbn [fst snd] in Xx.
    assert (Hx : (H x < 0)%Q) by (destruct Xx as (_ & Xx & _); lra).
    destruct Cases as [(-> & -> & ->)|[(R' & -> & S)|(R' & -> & S)]].
    + right. split; [intros Q; apply Cr in Q; rewrite Eb in Q; lra|]. right. right. split; auto.
      assert (S0 : St ts' P0 t0 x0 u x [] ids0 [t]).
      { constructor; auto.
        - now constructor.
        - now rewrite <- app_assoc in Ndt2.
        - apply Forall_app. split; auto. }
      destruct (st_rewind _ _ _ _ _ _ _ _ _ S0) as (a1 & a2 & a3 & a4 & a5 & Q1 & Q2).
      exists a2, a3, a4, a1, a5. split; auto.
    + inversion FR' as [|? ? Xy _]; subst. unfold xinge in Xy; cbn [fst snd] in Xy.
      assert (Xn : xing y x).
      { apply (between_xing2 y x u l); auto.
        - destruct Xy; auto.
        - pose proof (det_rot3 (pos x) (pos y) (pos l)). lra.
        - pose proof (det_anti (pos x) (pos u) (pos y)). lra. }
      left. split; [now apply (crosses_flip2 px py), (xing_crosses px py)|].
      exists y, l, R', (y, x), t', ((ids0 ++ [t0]) ++ [t]), i1. split; auto. split; [apply sameE_flip, sameE_refl|]. split.
      * constructor; auto.
        -- apply pre_low with (x := u); auto. apply pre_up with (x := x0); auto.
        -- apply Forall_app. split; [|auto]. apply Forall_app. split; [apply Forall_app; split; auto|]. constructor; auto.
      * intros (Fx & [(Ca & _)|Ca]); [lra|]. split; auto.
    + inversion FR' as [|? ? Xy _]; subst. unfold xinge in Xy; cbn [fst snd] in Xy.
      right. split.
      * intros Q; apply Cr in Q. destruct Xy as (_ & Xy & _). assert (0 < H x * H y)%Q by (apply mul_neg_neg; lra). lra.
      * left. exists u, y, R', t, x, (ids0 ++ [t0]), i1. split; auto. constructor; auto.
        -- apply pre_low with (x := x0); auto.
        -- apply Forall_app. split; auto. apply Forall_app. split; auto.
Qed.
End Flipped.
(** ** The loop *)

Lemma quad_test_outcome q : (exists x, quad_diagonals_intersection vs q = Ret x) \/ quad_diagonals_intersection vs q = Panic.
Proof.
  assert (G : forall v, (exists p, getN vs v = Ret p) \/ getN vs v = Panic).
  { intros v. unfold getN. destruct (nthN vs v); eauto. }
  destruct q as [p1 p2 p3 p4].
  unfold quad_diagonals_intersection, collect_infinite_quad_vertices. cbn [q1 q2 q3 q4].
  destruct (is_infinite p1), (is_infinite p2), (is_infinite p3), (is_infinite p4); cbn [app bind]; auto;
  unfold quad_diagonals_intersection_1_infinite, quad_diagonals_intersection_2_infinite; cbn [qv q1 q2 q3 q4 opposite_quad adjacent_quad fst snd];
  repeat match goal with
         | |- context [infinite_vertex_local_quad_index ?v] => destruct (infinite_vertex_local_quad_index v)
         | |- context [getN vs ?v] => destruct (G v) as [(? & ->)| ->]; cbn [bind]
         end; eauto.
Qed.

Lemma edge_test_total e : vok (efrom e) -> vok (eto e) ->
  exists x, edge_and_constrained_edge_intersection vs e (va, vb) = Ret x.
Proof.
  intros V1 V2. unfold edge_and_constrained_edge_intersection, edge_to_vertices.
  destruct (is_finite (efrom e)) eqn:F1, (is_finite (eto e)) eqn:F2.
  - rewrite (lqi_fin _ F1), (lqi_fin _ F2).
    destruct (get_vertex vs _ V1 F1) as (p & -> & _), (get_vertex vs _ V2 F2) as (q & -> & _). simpl. eauto.
  - destruct (lqi_inf _ F2) as (q & ->). rewrite (lqi_fin _ F1).
    destruct (get_vertex vs _ V1 F1) as (p & -> & _). simpl. eauto.
  - destruct (lqi_inf _ F1) as (q & ->). rewrite (lqi_fin _ F2).
    destruct (get_vertex vs _ V2 F2) as (p & -> & _). simpl. eauto.
  - destruct (lqi_inf _ F1) as (q & ->), (lqi_inf _ F2) as (q' & ->). eauto.
Qed.

Lemma quad_test_fin q : vok (q1 q) -> vok (q2 q) -> vok (q3 q) -> vok (q4 q) ->
  is_finite (q1 q) = true -> is_finite (q2 q) = true -> is_finite (q3 q) = true -> is_finite (q4 q) = true ->
  exists x, quad_diagonals_intersection vs q = Ret x.
Proof.
  intros V1 V2 V3 V4 F1 F2 F3 F4. unfold quad_diagonals_intersection, collect_infinite_quad_vertices.
  rewrite !inf_not_fin, F1, F2, F3, F4. cbn [negb app bind].
  destruct (get_vertex vs _ V1 F1) as (p & -> & _), (get_vertex vs _ V2 F2) as (p' & -> & _),
    (get_vertex vs _ V3 F3) as (p3 & -> & _), (get_vertex vs _ V4 F4) as (p4 & -> & _). simpl. eauto.
Qed.

(** Edges without infinite vertex. *)
Definition fin2 (e : N * N) : Prop := is_finite (fst e) = true /\ is_finite (snd e) = true.
Definition finD (d : edge_data) : Prop := is_finite (efrom (d_edge d)) = true /\ is_finite (eto (d_edge d)) = true.

Lemma pre_fin ts P t x u l ids : Pre ts P t x u l ids -> Forall fin2 P -> is_finite x = true.
Proof.
  destruct 1 as [t u l V|P t x u l ids t' u' HP V|P t x u l ids t' l' HP V]; intros F.
  - exact (fin_a vs px py X a va Na).
  - apply Forall_app in F. destruct F as (_ & F). inversion F as [|? ? (F1 & F2)]. exact F1.
  - apply Forall_app in F. destruct F as (_ & F). inversion F as [|? ? (F1 & F2)]. exact F2.
Qed.

Lemma suf_fin ts u l R ids t' y : Mesh ts -> Suf ts u l R ids -> Forall fin2 R -> T ts t' l u y -> is_finite y = true.
Proof.
  intros M Sf F V. inversion Sf as [? ? ? V'|? ? ? u' ? ? V'|? ? ? l' ? ? V']; subst.
  - destruct (T_share _ _ _ _ _ _ _ M V V') as (_ & ->). exact (fin_b vs px py X b vb Nb).
  - apply T_rot in V'. destruct (T_share _ _ _ _ _ _ _ M V V') as (_ & ->). inversion F as [|? ? (F1 & F2)]. exact F1.
  - apply T_rot2 in V'. destruct (T_share _ _ _ _ _ _ _ M V V') as (_ & ->). inversion F as [|? ? (F1 & F2)]. exact F2.
Qed.

Definition Qm (Q : list edge_data) (es : list (N * N)) : Prop :=
  Forall2 (fun d e => sameE (efrom (d_edge d)) (eto (d_edge d)) (fst e) (snd e)) Q es.

Definition need (good : bool) (m r : nat) : nat :=
  if good then r + (m - 1) * m else r + m * m.

Definition QS (ts : list tri) (Q : list edge_data) (good : bool) (r : nat) (nc : N) : Prop :=
  Q = [] \/ exists P t x u l R ids idsS Q1 Q2, St ts P t x u l R ids idsS /\ Qm Q ((u, l) :: R ++ P) /\
    r = S (length R) /\ (good = true -> Carry x u l) /\
    (u, l) :: R ++ P = Q1 ++ Q2 /\ lenN Q2 = nc /\ Forall (blocked ts) Q2.

Lemma st_not_all_blocked ts P t x u l R ids idsS : Mesh ts -> St ts P t x u l R ids idsS ->
  Forall (blocked ts) ((u, l) :: R ++ P) -> False.
Proof.
  intros M S FB. destruct (st_rewind _ _ _ _ _ _ _ _ _ S) as (t0 & u0 & l0 & R0 & ids0 & Q & [A B C F]).
  cbn [app] in F. inversion F; subst.
  eapply (not_all_blocked ts M u0 l0 R0 ids0 B t0 a); eauto.
  - exact (pre_T _ _ _ _ _ _ _ A).
  - now apply carry_a.
  - rewrite Q. eapply Permutation_Forall; [|exact FB]. rewrite app_comm_cons. apply Permutation_app_comm.
Qed.

(** The quad of the edge at the front of the queue. *)
Lemma front_quad ts d P t x u l R ids idsS : MInv ts -> EDok ts d -> St ts P t x u l R ids idsS ->
  sameE (efrom (d_edge d)) (eto (d_edge d)) u l ->
  exists q t' y, to_quad ts d = Ret q /\ T ts t u l x /\ T ts t' l u y /\ t <> t' /\
    (forall j, j <> d_from d /\ j <> d_to d <-> j <> t /\ j <> t') /\ vok (q3 q) /\ vok (q4 q) /\
    sameE (q3 q) (q4 q) x y /\
    (crosses (q1 q) (q2 q) (q3 q) (q4 q) <-> crosses u l y x) /\
    (D (q4 q) (q1 q) (q2 q) < 0)%Q /\ (D (q2 q) (q1 q) (q3 q) < 0)%Q /\
    (forall ts', T ts' (d_from d) (q4 q) (q1 q) (q3 q) -> T ts' (d_to d) (q4 q) (q3 q) (q2 q) ->
       T ts' t x u y /\ T ts' t' x y l) /\
    (fin2 (u, l) -> fin2 (x, y) -> exists z, quad_diagonals_intersection vs q = Ret z).
Proof.
  intros I Hd S Sm. pose proof (I_mesh _ _ _ _ I) as M.
  destruct (pend_quad vs px py ts d I Hd) as (q & Hq & Q1 & Q2 & O1 & O2 & O3 & O4 & C1 & C2).
  destruct (EDok_views px py ts d M Hd) as (c & v & n1 & n2 & n3 & n4 & V1 & V2 & Hq').
  rewrite Hq in Hq'. apply Ret_inj in Hq'. subst q. cbn [q1 q2 q3 q4] in *. clear Q1 Q2.
  destruct S as [A B C F]. pose proof (pre_T _ _ _ _ _ _ _ A) as VA.
  destruct (suf_next _ _ _ _ _ B) as (t' & y & i1 & -> & VB & _).
  assert (Nt : t <> t').
  { intros <-. apply NoDup_remove_2 in C. apply C. apply in_or_app. right. now left. }
  eexists _, t', y. split; [exact Hq|]. split; [exact VA|]. split; [exact VB|]. split; [exact Nt|]. cbn [q1 q2 q3 q4].
  assert (W1 : T ts (d_from d) (efrom (d_edge d)) (eto (d_edge d)) v) by (apply T_rot; eexists; eexists; eexists; exact V1).
  assert (W2 : T ts (d_to d) (eto (d_edge d)) (efrom (d_edge d)) c) by (eexists; eexists; eexists; exact V2).
  destruct Sm as [(E1 & E2)|(E1 & E2)]; rewrite E1, E2 in *.
  - destruct (T_share _ _ _ _ _ _ _ M W1 VA) as (-> & ->). destruct (T_share _ _ _ _ _ _ _ M W2 VB) as (-> & ->).
    split; [tauto|]. split; auto. split; auto. split; [right; auto|]. split; [tauto|]. split; auto. split; auto. split; auto.
    intros (Fu & Fl) (Fx & Fy). now apply quad_test_fin.
  - destruct (T_share _ _ _ _ _ _ _ M W1 VB) as (-> & ->). destruct (T_share _ _ _ _ _ _ _ M W2 VA) as (-> & ->).
    split; [tauto|]. split; auto. split; auto. split; [left; auto|].
    split; [split; intros K; now apply (crosses_flip1 px py), (crosses_flip2 px py)|].
    split; auto. split; auto. split; [intros ts' K1 K2; split; [now apply T_rot|now apply T_rot2]|].
    intros (Fu & Fl) (Fx & Fy). now apply quad_test_fin.
Qed.

Lemma Qm_map upd Q es : (forall e, In e Q -> d_edge (upd e) = d_edge e) -> Qm Q es -> Qm (map upd Q) es.
Proof.
  intros U F. induction F as [|d e Q es S F IH]; simpl; constructor.
  - rewrite U by now left. exact S.
  - apply IH. intros e0 He. apply U. now right.
Qed.

Lemma lenN_app {A} (l1 l2 : list A) : lenN (l1 ++ l2) = lenN l1 + lenN l2.
Proof. unfold lenN. rewrite app_length. lia. Qed.

Lemma Qm_length Q es : Qm Q es -> length Q = length es.
Proof. induction 1; simpl; congruence. Qed.

Lemma Qm_fin Q es : Qm Q es -> Forall finD Q -> Forall fin2 es.
Proof.
  induction 1 as [|d e Q es Sd F IH]; intros K; [constructor|]. inversion K as [|? ? (F1 & F2) K']; subst.
  constructor; auto. unfold fin2. destruct Sd as [(<- & <-)|(<- & <-)]; split; auto.
Qed.

(** The loop ends, and it can only panic when a crossed edge is unbounded; otherwise what
    the bounded triangles cover remains covered. *)
Definition outcome (ts : list tri) (Q : list edge_data) (r : res (list tri * list N * list edge_data)) : Prop :=
  (exists ts' v2t' news', r = Ret (ts', v2t', news') /\ (Forall finD Q -> Covs ts ts')) \/
  (r = Panic /\ ~ Forall finD Q).

Lemma outcome_mono ts0 ts Q Q' r : (Forall finD Q' -> Forall finD Q /\ Covs ts0 ts) -> outcome ts Q r -> outcome ts0 Q' r.
Proof.
  intros K [(ts' & v' & n' & O & C)|(O & N)]; [left|right].
  - exists ts', v', n'. split; auto. intros F. destruct (K F) as (F' & C'). now apply (Covs_trans _ ts); auto.
  - split; auto. intros F. now apply N, K.
Qed.

Lemma Covs_refl ts : Covs ts ts.
Proof. now intros p. Qed.

Theorem remove_total : forall fuel ts v2t Q news nc good r,
  MInv ts -> VT ts v2t -> Pend ts (Q ++ news) -> QS ts Q good r nc ->
  (need good (length Q) r <= fuel)%nat ->
  outcome ts Q (remove_crossed_edges fuel ts vs v2t (va, vb) Q news nc).
Proof.
  induction fuel as [|fuel IH]; intros ts v2t Q news nc good r I V Pd HQ Hf.
  - destruct HQ as [-> |(P & t & x & u & l & R & ids & idsS & Q1 & Q2 & Sst & Qs & -> & _)].
    + left. simpl. exists ts, v2t, news. split; auto. intros _. apply Covs_refl.
    + exfalso. clear -Hf. unfold need in Hf. destruct good; cbn [Nat.add] in Hf; inversion Hf.
  - destruct HQ as [-> |(P & t & x & u & l & R & ids & idsS & Q1 & Q2 & Sst & Qs & Hr & Ca & Eq & Hnc & Bl)].
    { left. simpl. exists ts, v2t, news. split; auto. intros _. apply Covs_refl. }
    pose proof (I_mesh _ _ _ _ I) as M.
    destruct Q as [|d Q']; [inversion Qs|]. inversion Qs as [|? ? ? ? Sd Qs']; subst.
    cbn [fst snd] in Sd. cbn [app] in Pd.
    assert (Hd : EDok ts d) by (apply (P_ok _ _ Pd); now left).
    assert (Len : length Q' = (length R + length P)%nat).
    { apply Qm_length in Qs'. now rewrite app_length in Qs'. }
    cbn [remove_crossed_edges].
    (* not all blocked *)
    destruct Q1 as [|e1 Q1]; [exfalso; cbn [app] in Eq; rewrite <- Eq in Bl; eapply st_not_all_blocked; eauto|].
    cbn [app] in Eq. injection Eq as <- Eq.
    assert (Hlt : (lenN Q' <? lenN Q2) = false).
    { apply N.ltb_ge. apply (f_equal (@lenN _)) in Eq. rewrite !lenN_app in Eq. clear -Eq Len. unfold lenN in *. lia. }
    rewrite Hlt. clear Hlt.
    destruct (front_quad ts d P t x u l R ids idsS I Hd Sst Sd)
      as (q & t' & y & Hq & VA & VB & Nt & Hj & O3 & O4 & Sxy & Cq & C1 & C2 & HT & HF).
    rewrite Hq. cbn [bind].
    assert (Fxy : Forall finD (d :: Q') -> fin2 (u, l) /\ fin2 (x, y)).
    { intros Fq. apply (Qm_fin _ _ Qs) in Fq. inversion Fq as [|? ? Fu Fr]; subst. apply Forall_app in Fr. destruct Fr as (FR & FP).
      split; auto. split; cbn [fst snd]; [exact (pre_fin _ _ _ _ _ _ _ (S_pre _ _ _ _ _ _ _ _ _ Sst) FP)|].
      exact (suf_fin _ _ _ _ _ _ _ M (S_suf _ _ _ _ _ _ _ _ _ Sst) FR VB). }
    assert (Fup : forall upd, (forall e, In e Q' -> d_edge (upd e) = d_edge e) -> Forall finD (d :: Q') -> Forall finD (map upd Q')).
    { clear. intros upd U F. inversion F as [|? ? _ F']; subst. clear F. induction Q' as [|e Q' IHQ]; simpl; constructor.
      - unfold finD. rewrite U by now left. now inversion F'.
      - apply IHQ; [intros e0 He; apply U; now right|]. now inversion F'. }
    destruct (quad_test_outcome q) as [(z & HI)|HI]; rewrite HI; cbn [bind].
    2:{ right. split; auto. intros Fq. destruct (Fxy Fq) as (F1 & F2). destruct (HF F1 F2) as (z & Hz). congruence. }
    destruct (is_crossing z) eqn:Hz; cbn [negb].
    + (* swap *)
      pose proof (quad_crossing vs px py X XC q z HI Hz) as Cq'.
      destruct (crosses_convex px py _ _ _ _ C1 C2 Cq') as (N1 & N2).
      destruct (pend_swap vs px py ts v2t d (Q' ++ news) q I V Pd Hq N1 N2) as (ts1 & v1 & upd & Hs & W & Pd1 & U).
      rewrite Hs. cbn [bind d_edge].
      destruct (edge_test_total (Edge (q3 q) (q4 q)) O3 O4) as (z2 & HY). rewrite HY. cbn [bind].
      pose proof (crossing_test vs px py X XC a b va vb Na Nb _ _ _ HY) as Tst.
      pose proof (W_inv _ _ _ _ _ _ _ _ _ W) as I1. pose proof (W_vt _ _ _ _ _ _ _ _ _ W) as VT1.
      destruct (HT ts1 (W_from _ _ _ _ _ _ _ _ _ W) (W_to _ _ _ _ _ _ _ _ _ W)) as (T1 & T2).
      assert (Oth : forall j p q r, j <> t -> j <> t' -> T ts j p q r -> T ts1 j p q r).
      { intros j p0 q0 r0 J1 J2 (m1 & m2 & m3 & Vj). destruct (proj2 (Hj j) (conj J1 J2)) as (J3 & J4).
        exact (W_other _ _ _ _ _ _ _ _ _ W j _ _ _ _ _ _ J3 J4 Vj). }
      rewrite map_app in Pd1.
      assert (Cv : Forall finD (d :: Q') -> Covs ts ts1).
      { intros Fq. destruct (Fxy Fq) as (_ & F1 & F2). cbn [fst snd] in F1, F2.
        apply (swap_cov ts ts1 v1 d q upd M W); destruct Sxy as [(E1 & E2)|(E1 & E2)]; rewrite ?E1, ?E2; auto. }
      set (d' := ED (d_from d) (d_to d) (Edge (q3 q) (q4 q))) in *.
      assert (U' : forall e, In e Q' -> d_edge (upd e) = d_edge e) by (intros e He; apply U; apply in_or_app; now left).
      assert (Cxy : crosses a b (q3 q) (q4 q) <-> crosses a b x y).
      { split; apply (crosses_same px py); [exact Sxy|now apply sameE_sym]. }
      destruct (st_flip ts ts1 t t' x y u l M (I_mesh _ _ _ _ I1) VA VB T1 T2 Oth P R ids idsS Sst) as [(Cr & St1)|(NCr & St1)].
      * assert (Hz2 : is_crossing z2 = true) by tauto. rewrite Hz2.
        destruct St1 as (u2 & l2 & R2 & e & t2 & ids' & idsS' & -> & Se & St1 & Ca1).
        apply (outcome_mono ts ts1 (map upd Q' ++ [d'])).
        { intros Fq. split; [|auto]. apply Forall_app. split; [now apply Fup|]. constructor; [|constructor].
          destruct (Fxy Fq) as (_ & F1 & F2). destruct Sxy as [(E1 & E2)|(E1 & E2)]; unfold finD; cbn [d_edge efrom eto d']; rewrite E1, E2; auto. }
        apply IH with (good := good) (r := S (length R2)); auto.
        -- eapply pend_perm; [|exact Pd1]. rewrite <- app_assoc. simpl. apply Permutation_middle.
        -- right. exists (P ++ [e]), t2, x, u2, l2, R2, ids', idsS', ((u2, l2) :: R2 ++ P ++ [e]), [].
           split; auto. split.
           { change (Qm (map upd Q' ++ [d']) ((u2, l2) :: R2 ++ P ++ [e])). rewrite app_assoc, app_comm_cons.
             apply Forall2_app; [apply (Qm_map upd); auto|]. constructor; [|constructor].
             cbn [d_edge efrom eto]. apply sameE_trans with x y; [exact Sxy|now apply sameE_sym]. }
           split; auto. split; [auto|]. split; [now rewrite app_nil_r|]. split; auto.
        -- rewrite app_length, map_length. cbn [length] in *. clear -Hf. unfold need in *. destruct good.
           ++ replace (length Q' + 1)%nat with (S (length Q')) by lia. lia.
           ++ replace (length Q' + 1)%nat with (S (length Q')) by lia. lia.
      * assert (Hz2 : is_crossing z2 = false) by (destruct (is_crossing z2); auto; exfalso; tauto). rewrite Hz2.
        assert (Pd2 : Pend ts1 (map upd Q' ++ map upd news ++ [d'])).
        { eapply pend_perm; [|exact Pd1]. rewrite app_assoc. apply Permutation_cons_append. }
        destruct St1 as [(u2 & l2 & R2 & t2 & x2 & ids' & idsS' & -> & St1)|[(-> & ->)|(-> & u0 & l0 & R0 & t0 & ids0 & -> & St1)]].
        -- apply (outcome_mono ts ts1 (map upd Q')); [intros Fq; split; [now apply Fup|auto]|]. apply IH with (good := false) (r := S (length R2)); auto.
           ++ right. exists P, t2, x2, u2, l2, R2, ids', idsS', ((u2, l2) :: R2 ++ P), [].
              split; auto. split; [apply (Qm_map upd); auto|]. split; auto. split; [discriminate|].
              split; [now rewrite app_nil_r|]. split; auto.
           ++ rewrite map_length. cbn [length] in *. clear -Hf. unfold need in *. destruct good; nia.
        -- inversion Qs'; subst. left. eexists; eexists; eexists. split; [destruct fuel; simpl; reflexivity|auto].
        -- apply (outcome_mono ts ts1 (map upd Q')); [intros Fq; split; [now apply Fup|auto]|]. apply IH with (good := true) (r := length Q'); auto.
           ++ right. exists [], t0, a, u0, l0, R0, [], ids0, ((u0, l0) :: R0), [].
              split; auto. rewrite app_nil_r. split; [apply (Qm_map upd); auto|].
              split; [rewrite Len; reflexivity|]. split; [|split; [now rewrite app_nil_r|split; auto]].
              intros _. apply carry_a. pose proof (S_x _ _ _ _ _ _ _ _ _ St1) as Fx. now inversion Fx.
           ++ rewrite map_length. cbn [length] in *. clear -Hf Len. unfold need in *. destruct good; nia.
    + (* blocked *)
      assert (Bu : blocked ts (u, l)).
      { intros i j x0 y0 K1 K2. cbn [fst snd] in *.
        destruct (T_share _ _ _ _ _ _ _ M K1 VA) as (_ & ->). destruct (T_share _ _ _ _ _ _ _ M K2 VB) as (_ & ->).
        intros K. apply Cq in K. exact (quad_not_crossing q z HI Hz K). }
      assert (Pd2 : Pend ts ((Q' ++ [d]) ++ news)).
      { eapply pend_perm; [|exact Pd]. rewrite <- app_assoc. simpl. apply Permutation_middle. }
      assert (Sn : Qm (Q' ++ [d]) ((R ++ P) ++ [(u, l)])).
      { apply Forall2_app; auto. }
      assert (Bl2 : Forall (blocked ts) (Q2 ++ [(u, l)])) by (apply Forall_app; split; auto).
      assert (Ln2 : lenN (Q2 ++ [(u, l)]) = lenN Q2 + 1) by (rewrite lenN_app; reflexivity).
      apply (outcome_mono ts ts (Q' ++ [d])).
      { intros Fq. split; [|apply Covs_refl]. inversion Fq; subst. apply Forall_app. split; auto. }
      destruct R as [|(u2, l2) R2].
      * destruct good.
        { exfalso. destruct Sst as [A B C F]. inversion B; subst.
          assert (Fu : xing u l) by (apply Forall_app in F; destruct F as (_ & F); now inversion F).
          destruct (carry_next ts t t'0 x b u l M VA) as (K & _); auto. apply K. apply peq_refl. }
        destruct (st_rewind _ _ _ _ _ _ _ _ _ Sst) as (t0 & u0 & l0 & R0 & ids0 & Q0 & St1).
        apply IH with (good := true) (r := S (length R0)); auto.
        -- right. exists [], t0, a, u0, l0, R0, [], ids0, Q1, (Q2 ++ [(u, l)]).
           split; auto. rewrite app_nil_r. split; [cbn [app] in Sn; now rewrite Q0|]. split; auto.
           split; [|split; [|split; auto]].
           ++ intros _. apply carry_a. pose proof (S_x _ _ _ _ _ _ _ _ _ St1) as Fx. now inversion Fx.
           ++ rewrite Q0, app_assoc. cbn [app] in Eq. now rewrite Eq.
        -- rewrite app_length. cbn [length] in *. apply (f_equal (@length _)) in Q0. rewrite app_length in Q0.
           cbn [length] in Q0. clear -Hf Q0 Len. unfold need in *.
           replace (length Q' + 1)%nat with (S (length Q')) by lia. nia.
      * destruct (st_skip ts P t x u l u2 l2 R2 ids idsS M Sst) as (t2 & x2 & ids' & idsS' & St1 & Ca1).
        apply IH with (good := good) (r := S (length R2)); auto.
        -- right. exists (P ++ [(u, l)]), t2, x2, u2, l2, R2, ids', idsS', Q1, (Q2 ++ [(u, l)]).
           split; auto. split; [cbn [app] in Sn; now rewrite <- app_assoc in Sn|]. split; auto.
           split; [auto|]. split; [|split; auto].
           rewrite app_assoc, app_comm_cons. cbn [app] in Eq. rewrite Eq. now rewrite <- app_assoc.
        -- rewrite app_length. cbn [length] in *. clear -Hf. unfold need in *.
           replace (length Q' + 1)%nat with (S (length Q')) by lia. destruct good; lia.
Qed.

(** ** The strip found by the search *)
Section Search.
Variable ts : list tri.
Hypothesis M : Mesh ts.
Notation Reg := (Reg px py a b ts).

Definition dedge (d : edge_data) : N * N := (efrom (d_edge d), eto (d_edge d)).

Lemma register_strip : forall n cur rest x l, Reg cur (cur :: rest) ->
  Pre ts (map dedge (rev rest)) (d_from cur) x (efrom (d_edge cur)) (eto (d_edge cur)) (map d_from (rev rest)) ->
  (length ts < n + length (cur :: rest))%nat ->
  register_loop n ts vs (Edge a b) (va, vb) cur (cur :: rest) = Ret l ->
  exists t0 u0 l0 R0 ids0, St ts [] t0 a u0 l0 R0 [] ids0 /\ map dedge l = (u0, l0) :: R0.
Proof.
  induction n as [|n IH]; intros cur rest x l R Hp Hlen K; cbn [register_loop] in K.
  - exfalso. pose proof (NoDup_bound _ (length ts) (R_from _ _ _ _ _ _ _ R)) as B. rewrite map_length in B.
    assert (length (cur :: rest) <= length ts)%nat; [|lia]. apply B. intros i Hi. apply in_map_iff in Hi.
    destruct Hi as (d & <- & Hd). destruct (R_ok _ _ _ _ _ _ _ R _ Hd) as ((Hh & _) & _). apply he_lt in Hh. exact Hh.
  - destruct (R_ok _ _ _ _ _ _ _ R _ (R_cur _ _ _ _ _ _ _ R)) as ((Hh & Hn) & Xc).
    pose proof (glue_some _ _ M _ _ _ _ Hh Hn) as (v & n3 & n4 & V).
    destruct (view_nth _ _ _ _ _ _ _ _ V) as (t & Ht).
    unfold getN in K. rewrite Ht in K. cbn [bind] in K.
    assert (Hcur : d_edge cur = Edge (efrom (d_edge cur)) (eto (d_edge cur))) by now destruct (d_edge cur).
    cbn [eto] in K. destruct (verts_contains t b) eqn:Hb.
    + inversion K; subst l. apply (contains_corner px py ts _ _ _ Ht) in Hb.
      destruct Xc as (X1 & X2 & X3 & X4). pose proof H_b as Eb.
      assert (v = b).
      { destruct (corner_cases px py _ _ _ _ _ _ _ _ _ V Hb) as [Q|[Q|Q]]; auto; exfalso; rewrite <- Q in X1, X2 || rewrite <- Q in X2 || rewrite <- Q in X1; lra. }
      subst v.
      assert (S : St ts (map dedge (rev rest)) (d_from cur) x (efrom (d_edge cur)) (eto (d_edge cur)) []
                     (map d_from (rev rest)) [d_to cur]).
      { constructor; auto.
        - constructor. eexists; eexists; eexists; exact V.
        - change [d_from cur; d_to cur] with ([d_from cur] ++ [d_to cur]). rewrite app_assoc.
          replace (map d_from (rev rest) ++ [d_from cur]) with (map d_from (rev (cur :: rest))) by (simpl; now rewrite map_app).
          rewrite map_rev. apply (Permutation_NoDup (l := d_to cur :: map d_from (cur :: rest))).
          + eapply Permutation_trans; [apply Permutation_cons_append|]. apply Permutation_app_tail. apply Permutation_rev.
          + constructor; [|exact (R_from _ _ _ _ _ _ _ R)]. intros Hin. apply in_map_iff in Hin. destruct Hin as (d & Hf & Hin).
            destruct (R_ok _ _ _ _ _ _ _ R _ Hin) as ((Hd & _) & Xd). rewrite Hf in Hd. destruct Xd as (Y1 & Y2 & _).
            destruct (he_cases _ _ _ _ _ _ _ _ _ _ _ V Hd) as [(Q1 & Q2 & _)|[(Q1 & Q2 & _)|(Q1 & Q2 & _)]]; rewrite Q1 in Y1; rewrite Q2 in Y2; lra.
        - apply Forall_forall. intros e He.
          assert (Hin : In e (map dedge (rev (cur :: rest)))) by (simpl; now rewrite map_app).
          apply in_map_iff in Hin. destruct Hin as (d & <- & Hd). apply in_rev in Hd.
          destruct (R_ok _ _ _ _ _ _ _ R _ Hd) as (_ & Xd). exact Xd. }
      destruct (st_rewind _ _ _ _ _ _ _ _ _ S) as (t0 & u0 & l0 & R0 & ids0 & Q & S0).
      exists t0, u0, l0, R0, ids0. split; auto. rewrite Q, map_app. reflexivity.
    + destruct (get_next_triangle_edge_intersection vs (va, vb) t (d_to cur) (d_edge cur)) as [[d|]| | |] eqn:Hnx;
        cbn [bind] in K; try discriminate.
      destruct (next_intersection_spec vs px py X XC a b va vb Na Nb ts _ _ _ Ht _ _ Hnx) as (F1 & F2 & F3 & F4 & F5).
      assert (R' : Reg d (d :: cur :: rest)).
      { eapply (reg_step vs px py X a b va vb Na Nb ts M); eauto. split; auto. now rewrite F1. }
      assert (Pr : exists x', Pre ts (map dedge (rev (cur :: rest))) (d_from d) x' (efrom (d_edge d)) (eto (d_edge d)) (map d_from (rev (cur :: rest)))).
      { simpl. rewrite !map_app. simpl. rewrite F1.
        destruct (he_cases _ _ _ _ _ _ _ _ _ _ _ V F2) as [(Q1 & Q2 & _)|[(Q1 & Q2 & _)|(Q1 & Q2 & _)]]; rewrite Q1, Q2 in *.
        - exfalso. apply F5. now right.
        - eexists. apply pre_low with (x := x); [exact Hp|]. apply T_rot. eexists; eexists; eexists; exact V.
        - eexists. apply pre_up with (x := x); [exact Hp|]. apply T_rot2. eexists; eexists; eexists; exact V. }
      destruct Pr as (x' & Pr).
      apply (IH d (cur :: rest) x' l); auto. clear -Hlen; cbn [length] in *; lia.
Qed.

Lemma suf_length u l R ids : Suf ts u l R ids -> length ids = S (length R).
Proof. induction 1; simpl; auto. Qed.

Lemma suf_bound u l R ids : Suf ts u l R ids -> forall i, In i ids -> i < N.of_nat (length ts).
Proof.
  assert (Q : forall t p q r, T ts t p q r -> t < N.of_nat (length ts)).
  { intros t p q r (n1 & n2 & n3 & V). apply view_lt in V. unfold lenN in V. lia. }
  induction 1 as [t' u l V|t' u l u' R ids V S IH|t' u l l' R ids V S IH]; intros i [<- |Hi]; eauto. destruct Hi.
Qed.
End Search.

Lemma register_total ts v2t l start : Mesh ts ->
  nthN v2t a = Some start -> corner ts start a ->
  register_intersected_edges ts vs (Edge a b) (va, vb) v2t = Ret l -> l <> [] ->
  QS ts l true (length l) 0 /\ (S (length l) <= length ts)%nat.
Proof.
  intros M Hv Ca K Hne. unfold register_intersected_edges, getN in K. cbn [efrom] in K. rewrite Hv in K. cbn [bind] in K.
  destruct (search_first_intersected_quad ts vs (Edge a b) (va, vb) start) as [r| | |] eqn:Hs; cbn [bind] in K; try discriminate.
  pose proof (search_sound vs px py X XC a b va vb Na Nb Hab ts M _ _ Ca Hs) as Q. destruct r as [|d|]; [|simpl in Q|discriminate].
  - inversion K. congruence.
  - destruct Q as (Ok & Xd & x & z & V).
    assert (Hl : exists t0 u0 l0 R0 ids0, St ts [] t0 a u0 l0 R0 [] ids0 /\ map dedge l = (u0, l0) :: R0).
    { apply (register_strip ts M (length ts) d [] a l); auto.
      - exact (reg_start px py a b ts _ _ _ Ok Xd V).
      - simpl. constructor. apply T_rot. eexists; eexists; eexists; exact V.
      - clear. simpl. lia. }
    destruct Hl as (t0 & u0 & l0 & R0 & ids0 & [A B C F] & Hl).
    assert (Len : length l = S (length R0)) by (apply (f_equal (@length _)) in Hl; now rewrite map_length in Hl).
    split.
    + right. exists [], t0, a, u0, l0, R0, [], ids0, ((u0, l0) :: R0), []. rewrite !app_nil_r.
      split; [constructor; auto|]. split.
      * rewrite <- Hl. clear. unfold Qm. induction l; simpl; constructor; auto. apply sameE_refl.
      * split; auto. split; [|auto]. intros _. apply carry_a. now inversion F.
    + pose proof (NoDup_bound _ (length ts) C) as Bd. cbn [app length] in Bd.
      rewrite (suf_length _ _ _ _ _ B) in Bd. rewrite Len. apply Bd. intros i [<- |Hi].
      * destruct (pre_T _ _ _ _ _ _ _ A) as (n1 & n2 & n3 & V'). apply view_lt in V'. unfold lenN in V'. lia.
      * eapply suf_bound; eauto.
Qed.
End Ab.
End WithEnv.
