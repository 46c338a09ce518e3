(** * CUnique: two meshes over the same points whose edges are shared or locally Delaunay. *)

From Coq Require Import NArith List Bool Lia QArith Lqa.
From Verif Require Import Base BaseFacts Arith Types Utils Infinite Triangulation Constrained Geom Mesh
  MeshOps Exact ExactC MeshVerts MeshEdge AnyDT Walk Insert DTExact Spec DTOut Lifted Lawson Empty CSwap CCross CReg CPres
  CTerm CApply CTotal CLocal CDel CDelTwo Domain SpecUnique Unique.
Import ListNotations.
Local Open Scope N_scope.

Section WithEnv.
Context {E : Env}.
Variable vs : list vertex.
Variables px py : N -> Q.
Notation pos := (hpos px py).
Notation fin v := (is_finite v = true).
Notation MInv := (MInv vs px py).
Notation Good := (Good px py).
Notation ldel := (ldel px py).
Notation at_ := (place px py).

(** The meshes have the same finite corners and the same triangles with infinite corners. *)
Definition alike (ts1 ts2 : list tri) : Prop :=
  (forall v, hascorner ts1 v <-> hascorner ts2 v) /\ inf_kept ts1 ts2.

(** Every edge of the first mesh is an edge of the second one, or locally Delaunay. *)
Definition shares (ts1 ts2 : list tri) : Prop :=
  forall a b, medge ts1 a b -> fin a -> fin b -> medge ts2 a b \/ Good ts1 a b.

Lemma inf_kept_sym ts1 ts2 : inf_kept ts1 ts2 -> inf_kept ts2 ts1.
Proof. intros H i a b c Nf. symmetry. now apply H. Qed.

Lemma alike_sym ts1 ts2 : alike ts1 ts2 -> alike ts2 ts1.
Proof. intros (A & B). split; [intros v; symmetry; apply A|now apply inf_kept_sym]. Qed.

Lemma fin3_dec a b c : fin3 a b c \/ ~ fin3 a b c.
Proof. unfold fin3. destruct (is_finite a), (is_finite b), (is_finite c); auto; right; intros (? & ? & ?); discriminate. Qed.

Lemma T_fin3 ts i a b c x y w : T ts i a b c -> T ts i x y w -> fin3 a b c -> fin3 x y w.
Proof.
  intros A B (F1 & F2 & F3). split; [|split].
  - destruct (T_corner _ _ _ _ _ _ _ _ B A) as [->|[->| ->]]; auto.
  - destruct (T_corner _ _ _ _ _ _ _ _ (T_rot _ _ _ _ _ B) A) as [->|[->| ->]]; auto.
  - destruct (T_corner _ _ _ _ _ _ _ _ (T_rot2 _ _ _ _ _ B) A) as [->|[->| ->]]; auto.
Qed.

Lemma T_open ts i a b c p : T ts i a b c -> (inT pos ts i p <-> in_open (pos a) (pos b) (pos c) p).
Proof. intros (n1 & n2 & n3 & V). exact (inT_view _ _ _ _ _ _ _ _ _ _ V). Qed.

Lemma T_closed ts i a b c p : T ts i a b c -> (inC pos ts i p <-> in_closed (pos a) (pos b) (pos c) p).
Proof. intros (n1 & n2 & n3 & V). exact (inC_view _ _ _ _ _ _ _ _ _ _ V). Qed.

Section Pair.
Variables ts1 ts2 : list tri.
Hypothesis I1 : MInv ts1.
Hypothesis I2 : MInv ts2.
Hypothesis Al : alike ts1 ts2.
Hypothesis Sh : shares ts1 ts2.
Let M1 := I_mesh _ _ _ _ I1.
Let M2 := I_mesh _ _ _ _ I2.

(** A triangle of the first mesh with a point inside a finite triangle of the second one is finite. *)
Lemma closed_fin i j a b c x y w p : T ts1 i a b c -> T ts2 j x y w -> fin3 x y w ->
  in_open (pos x) (pos y) (pos w) p -> in_closed (pos a) (pos b) (pos c) p -> fin3 a b c.
Proof.
  intros Ti Tj Fj Oj Ci. destruct (fin3_dec a b c) as [|Nf]; auto. exfalso.
  pose proof (proj1 (proj2 Al i a b c Nf) Ti) as Ti'.
  apply (T_open _ _ _ _ _ _ Tj) in Oj. apply (T_closed _ _ _ _ _ _ Ti') in Ci.
  pose proof (open_closed_excl _ _ M2 j i p Oj Ci) as <-. apply Nf. exact (T_fin3 _ _ _ _ _ _ _ _ Tj Ti' Fj).
Qed.

Lemma open_closed a b c p : in_open a b c p -> in_closed a b c p.
Proof. intros (A & B & C). repeat split; lra. Qed.

(** An edge through the inside of a triangle of the second mesh is locally Delaunay. *)
Lemma through_good i k j a b c d x y w p : T ts1 i a b c -> T ts1 k b a d -> T ts2 j x y w -> fin3 x y w ->
  fin a -> fin b -> in_open (pos x) (pos y) (pos w) p ->
  (det (pos a) (pos b) p == 0)%Q -> (det (pos b) (pos c) p < 0)%Q -> (det (pos c) (pos a) p < 0)%Q ->
  Good ts1 a b.
Proof.
  intros Ti Tk Tj Fj Fa Fb Oj Z1 G2 G3. destruct (Sh a b (T_medge _ _ _ _ _ Ti) Fa Fb) as [Hm|]; auto. exfalso.
  destruct (medge_both px py a b Fa Fb ts2 M2 Hm) as (_ & (h & n & q & n1 & n2 & V)).
  pose proof Ti as (m1 & m2 & m3 & Vi). pose proof (M_cw _ _ M1 _ _ _ _ _ _ _ Vi) as C.
  pose proof (M_cw _ _ M2 _ _ _ _ _ _ _ V) as C'.
  destruct (split2_other _ _ _ p C Z1 G2 G3 (pos q) C') as (O1 & O2).
  assert (Cp : inC pos ts2 h p).
  { apply (inC_view _ _ _ _ _ _ _ _ _ _ V). pose proof (det_swap (pos a) (pos b) p). repeat split; lra. }
  apply (T_open _ _ _ _ _ _ Tj) in Oj. pose proof (open_closed_excl _ _ M2 j h p Oj Cp) as <-.
  apply (inT_view _ _ _ _ _ _ _ _ _ _ V) in Oj. destruct Oj as (O & _). pose proof (det_swap (pos a) (pos b) p). lra.
Qed.

(** The way from a point inside the triangle xyw to its corner x. *)
Lemma way_open v x y w x0 y0 t : fin v -> fin3 x y w -> v = x \/ v = y \/ v = w -> (det (pos x) (pos y) (pos w) < 0)%Q ->
  in_open (pos x) (pos y) (pos w) (P3 x0 y0 1) -> (0 <= t)%Q -> (t < 1)%Q ->
  in_open (pos x) (pos y) (pos w) (onway px py v x0 y0 t).
Proof.
  intros Fv (Fx & Fy & Fw) Hv C (O1 & O2 & O3) T0 T1.
  assert (K : forall a b, fin a -> fin b -> (det (pos a) (pos b) (P3 x0 y0 1) < 0)%Q -> (det (pos a) (pos b) (pos v) <= 0)%Q ->
    (det (pos a) (pos b) (onway px py v x0 y0 t) < 0)%Q).
  { intros a b Fa Fb A B. rewrite (det_onway px py v Fv) by auto.
    assert (0 < (1 - t) * (- det (pos a) (pos b) (P3 x0 y0 1)))%Q by (apply Qmul_pos; lra).
    assert (0 <= t * (- det (pos a) (pos b) (pos v)))%Q by (apply Qmult_le_0_compat; lra). lra. }
  destruct (closed_corner _ _ _ C) as (Cx & Cy & Cw).
  assert (Cv : in_closed (pos x) (pos y) (pos w) (pos v)) by (destruct Hv as [->|[->| ->]]; auto).
  destruct Cv as (V1 & V2 & V3). split; [|split]; apply K; auto.
Qed.

Section Over.
Variables i j a b c x y w : N.
Hypothesis Ti : T ts1 i a b c.
Hypothesis Tj : T ts2 j x y w.
Hypothesis Fi : fin3 a b c.
Hypothesis Fj : fin3 x y w.

(** From a common point, a generic way to a corner of the second triangle. *)
Lemma generic_way x0 y0 v : fin v ->
  in_open (pos a) (pos b) (pos c) (P3 x0 y0 1) -> in_open (pos x) (pos y) (pos w) (P3 x0 y0 1) ->
  exists x1 y1, in_open (pos a) (pos b) (pos c) (P3 x1 y1 1) /\ in_open (pos x) (pos y) (pos w) (P3 x1 y1 1) /\
    forall u, hascorner ts1 u -> fin u -> ~ samepos px py u v -> ~ (det (pos v) (pos u) (P3 x1 y1 1) == 0)%Q.
Proof.
  intros Fv (A1 & A2 & A3) (B1 & B2 & B3). destruct Fi as (Fa & Fb & Fc), Fj as (Fx & Fy & Fw).
  destruct (generic_near px py x0 y0 [(a, b); (b, c); (c, a); (x, y); (y, w); (w, x)] v (corners ts1) Fv) as (x1 & y1 & H & G).
  - intros u u' [Q|[Q|[Q|[Q|[Q|[Q|[]]]]]]]; injection Q as <- <-; auto.
  - apply corners_fin.
  - exists x1, y1. split; [|split].
    + repeat split; apply H; cbn [In]; auto.
    + repeat split; apply H; cbn [In]; auto 10.
    + intros u Cu Fu. apply G. now apply corners_in.
Qed.

Lemma corner_fin v : v = x \/ v = y \/ v = w -> fin v.
Proof. destruct Fj as (Fx & Fy & Fw). intros [->|[->| ->]]; auto. Qed.

Lemma corner_has v : v = x \/ v = y \/ v = w -> hascorner ts1 v.
Proof.
  intros Hv. apply (proj1 Al). exists j. destruct Tj as (n1 & n2 & n3 & V).
  destruct (view_he _ _ _ _ _ _ _ _ V) as (H1 & H2 & H3). destruct Hv as [->|[->| ->]]; eexists; eexists; eauto.
Qed.

Lemma tj_cw : (det (pos x) (pos y) (pos w) < 0)%Q.
Proof. destruct Tj as (n1 & n2 & n3 & V). exact (M_cw _ _ M2 _ _ _ _ _ _ _ V). Qed.

(** Two overlapping triangles: the corners of the second one are not in the circle of the first one. *)
Lemma over_empty x0 y0 v : in_open (pos a) (pos b) (pos c) (P3 x0 y0 1) -> in_open (pos x) (pos y) (pos w) (P3 x0 y0 1) ->
  v = x \/ v = y \/ v = w -> ldel a b c v.
Proof.
  intros Oa Ox Hv. pose proof (corner_fin v Hv) as Fv. destruct (generic_way x0 y0 v Fv Oa Ox) as (x1 & y1 & Oa1 & Ox1 & Gen).
  destruct Fi as (Fa & Fb & Fc).
  apply (seen_empty vs px py ts1 v x1 y1 i a b c I1 Fv (corner_has v Hv) Gen); auto.
  - intros i' k' a' b' c' d' t T0 T1 Ti' Tk' Fa' Fb' Fc' Fd' Z1 G2 G3.
    pose proof (way_open v x y w x1 y1 t Fv Fj Hv tj_cw Ox1 T0 T1) as Op.
    exact (through_good i' k' j a' b' c' d' x y w _ Ti' Tk' Tj Fj Fa' Fb' Op Z1 G2 G3 i' k' c' d' Ti' Tk' Fa' Fb' Fc' Fd').
  - intros t i' a' b' c' T0 T1 Hi' Ti'.
    pose proof (way_open v x y w x1 y1 t Fv Fj Hv tj_cw Ox1 T0 T1) as Op.
    apply (closed_fin i' j a' b' c' x y w _ Ti' Tj Fj Op). apply open_closed. now apply (T_open _ _ _ _ _ _ Ti').
Qed.

(** A corner of the second triangle is a corner of the first one, or seen through one of its edges. *)
Lemma over_way x0 y0 v : in_open (pos a) (pos b) (pos c) (P3 x0 y0 1) -> in_open (pos x) (pos y) (pos w) (P3 x0 y0 1) ->
  v = x \/ v = y \/ v = w ->
  (v = a \/ v = b \/ v = c) \/
  exists k u u' u'' d x1 y1, T ts1 i u u' u'' /\ fin3 u u' u'' /\ T ts1 k u' u d /\ fin3 u' u d /\
    in_open (pos u') (pos u) (pos d) (P3 x1 y1 1) /\ in_open (pos x) (pos y) (pos w) (P3 x1 y1 1).
Proof.
  intros Oa Ox Hv. pose proof (corner_fin v Hv) as Fv. destruct (generic_way x0 y0 v Fv Oa Ox) as (x1 & y1 & Oa1 & Ox1 & Gen).
  destruct Fi as (Fa & Fb & Fc).
  assert (O0 : in_open (pos a) (pos b) (pos c) (onway px py v x1 y1 0)).
  { assert (K : forall p q, fin p -> fin q -> (det (pos p) (pos q) (onway px py v x1 y1 0) == det (pos p) (pos q) (P3 x1 y1 1))%Q)
      by (intros p q Fp Fq; rewrite (det_onway px py v Fv) by auto; ring).
    destruct Oa1 as (O1 & O2 & O3). repeat split; rewrite K; auto. }
  assert (Cr : forall u u' u'', T ts1 i u u' u'' -> fin3 u u' u'' -> crossed px py ts1 v x1 y1 i 0 u u' u'' ->
    exists k u u' u'' d x1 y1, T ts1 i u u' u'' /\ fin3 u u' u'' /\ T ts1 k u' u d /\ fin3 u' u d /\
    in_open (pos u') (pos u) (pos d) (P3 x1 y1 1) /\ in_open (pos x) (pos y) (pos w) (P3 x1 y1 1)).
  { intros u u' u'' Tu Fu (k & d & e & s' & E0 & S0 & S1 & Tk & _ & _ & _ & Op & _).
    assert (L0 : (0 <= s')%Q) by lra.
    pose proof (way_open v x y w x1 y1 s' Fv Fj Hv tj_cw Ox1 L0 S1) as Ow.
    exists k, u, u', u'', d, (x1 + s' * (px v - x1))%Q, (y1 + s' * (py v - y1))%Q.
    split; [exact Tu|]. split; [exact Fu|]. split; [exact Tk|]. split; [|split; [exact Op|exact Ow]].
    exact (closed_fin k j u' u d x y w _ Tk Tj Fj Ow (open_closed _ _ _ _ Op)). }
  destruct (way_out vs px py ts1 I1 v Fv (corner_has v Hv) x1 y1 Gen i 0 a b c) as [K|[K|[K|[K|[K|K]]]]]; auto; try lra.
  - right. apply (Cr a b c); auto; repeat split; auto.
  - right. apply (Cr b c a); auto; [now apply T_rot|repeat split; auto].
  - right. apply (Cr c a b); auto; [now apply T_rot2|repeat split; auto].
Qed.
End Over.
End Pair.

(** ** Both ways *)
Section Both.
Variables ts1 ts2 : list tri.
Hypothesis I1 : MInv ts1.
Hypothesis I2 : MInv ts2.
Hypothesis Al : alike ts1 ts2.
Hypothesis Sh1 : shares ts1 ts2.
Hypothesis Sh2 : shares ts2 ts1.
Let M1 := I_mesh _ _ _ _ I1.
Let M2 := I_mesh _ _ _ _ I2.

Lemma T_cw ts i a b c : MInv ts -> T ts i a b c -> fin3 a b c -> clockwise (at_ a) (at_ b) (at_ c).
Proof.
  intros I (n1 & n2 & n3 & V) (Fa & Fb & Fc). unfold clockwise. rewrite <- (det_orient px py) by auto.
  exact (M_cw _ _ (I_mesh _ _ _ _ I) _ _ _ _ _ _ _ V).
Qed.

Lemma open_inside a b c x0 y0 : fin3 a b c -> in_open (pos a) (pos b) (pos c) (P3 x0 y0 1) ->
  strictly_inside (at_ a) (at_ b) (at_ c) (x0, y0).
Proof.
  intros (Fa & Fb & Fc) (O1 & O2 & O3).
  assert (K : forall u v, fin u -> fin v -> (det (pos u) (pos v) (P3 x0 y0 1) == orient (at_ u) (at_ v) (x0, y0))%Q)
    by (intros u v Fu Fv; exact (det_orient_p px py u v (x0, y0) Fu Fv)).
  rewrite K in O1, O2, O3 by auto. repeat split; auto.
Qed.

Lemma over_circle i j a b c x y w x0 y0 : T ts1 i a b c -> T ts2 j x y w -> fin3 a b c -> fin3 x y w ->
  in_open (pos a) (pos b) (pos c) (P3 x0 y0 1) -> in_open (pos x) (pos y) (pos w) (P3 x0 y0 1) ->
  on_circumcircle (at_ x) (at_ y) (at_ w) (at_ a) /\ on_circumcircle (at_ x) (at_ y) (at_ w) (at_ b) /\
  on_circumcircle (at_ x) (at_ y) (at_ w) (at_ c).
Proof.
  intros Ti Tj Fi Fj Oi Oj.
  assert (K : forall v, v = x \/ v = y \/ v = w -> ~ in_circumcircle (at_ a) (at_ b) (at_ c) (at_ v)).
  { intros v Hv. apply (ldel_circle px py a b c v).
    exact (over_empty ts1 ts2 I1 I2 Al Sh1 i j a b c x y w Ti Tj Fi Fj x0 y0 v Oi Oj Hv). }
  assert (K' : forall v, v = a \/ v = b \/ v = c -> ~ in_circumcircle (at_ x) (at_ y) (at_ w) (at_ v)).
  { intros v Hv. apply (ldel_circle px py x y w v).
    exact (over_empty ts2 ts1 I2 I1 (alike_sym _ _ Al) Sh2 j i x y w a b c Tj Ti Fj Fi x0 y0 v Oj Oi Hv). }
  apply (overlap_circle (at_ a) (at_ b) (at_ c) (at_ x) (at_ y) (at_ w) (x0, y0)); auto.
  - exact (T_cw _ _ _ _ _ I1 Ti Fi).
  - exact (T_cw _ _ _ _ _ I2 Tj Fj).
  - now apply open_inside.
  - destruct (open_inside x y w x0 y0 Fj Oj) as (O1 & O2 & O3). repeat split; lra.
Qed.

(** Four points on the circle of three others. *)
Lemma circle_four a b c p q r s : clockwise a b c -> on_circumcircle a b c p -> on_circumcircle a b c q ->
  on_circumcircle a b c r -> on_circumcircle a b c s -> on_circumcircle p q r s.
Proof.
  intros C (o & A1 & A2 & Hp) Hq Hr Hs.
  assert (K : forall t, on_circumcircle a b c t -> (sqdist o t == sqdist o a)%Q).
  { intros t (o' & B1 & B2 & Ht). pose proof (power_bary o a o' a a b c t) as Pb. unfold power in Pb.
    assert (Z : ((sqdist o t - sqdist o a - (sqdist o' t - sqdist o' a)) * orient a b c == 0)%Q).
    { rewrite Pb. rewrite <- A2, <- A1, <- B2, <- B1. ring. }
    unfold clockwise in C. apply Qmult_integral in Z. destruct Z as [Z|Z]; lra. }
  exists o. rewrite (K q Hq), (K r Hr), (K s Hs), Hp. repeat split; reflexivity.
Qed.

Hypothesis Gen : forall i k u u' u'' d, T ts1 i u u' u'' -> T ts1 k u' u d -> fin3 u u' u'' -> fin d ->
  ~ on_circumcircle (at_ u) (at_ u') (at_ u'') (at_ d).

Lemma over_corner i j a b c x y w x0 y0 v : T ts1 i a b c -> T ts2 j x y w -> fin3 a b c -> fin3 x y w ->
  in_open (pos a) (pos b) (pos c) (P3 x0 y0 1) -> in_open (pos x) (pos y) (pos w) (P3 x0 y0 1) ->
  v = x \/ v = y \/ v = w -> v = a \/ v = b \/ v = c.
Proof.
  intros Ti Tj Fi Fj Oi Oj Hv.
  destruct (over_way ts1 ts2 I1 I2 Al i j a b c x y w Ti Tj Fi Fj x0 y0 v Oi Oj Hv) as [|(k & u & u' & u'' & d & x1 & y1 & Tu & Fu & Tk & Fk & Ok & Oj1)]; auto.
  exfalso. destruct (over_circle i j a b c x y w x0 y0 Ti Tj Fi Fj Oi Oj) as (Ca & Cb & Cc).
  destruct (over_circle k j u' u d x y w x1 y1 Tk Tj Fk Fj Ok Oj1) as (Cu' & Cu & Cd).
  assert (Cu'' : on_circumcircle (at_ x) (at_ y) (at_ w) (at_ u'')).
  { destruct (T_corner _ _ _ _ _ _ _ _ (T_rot2 _ _ _ _ _ Tu) Ti) as [->|[->| ->]]; auto. }
  destruct Fk as (_ & _ & Fd). apply (Gen i k u u' u'' d Tu Tk Fu Fd).
  exact (circle_four _ _ _ _ _ _ _ (T_cw _ _ _ _ _ I2 Tj Fj) Cu Cu' Cu'' Cd).
Qed.

Lemma over_same i j a b c x y w x0 y0 : T ts1 i a b c -> T ts2 j x y w -> fin3 a b c -> fin3 x y w ->
  in_open (pos a) (pos b) (pos c) (P3 x0 y0 1) -> in_open (pos x) (pos y) (pos w) (P3 x0 y0 1) -> T ts2 j a b c.
Proof.
  intros Ti Tj Fi Fj Oi Oj.
  pose proof (over_corner i j a b c x y w x0 y0 x Ti Tj Fi Fj Oi Oj (or_introl eq_refl)) as Hx.
  pose proof (over_corner i j a b c x y w x0 y0 y Ti Tj Fi Fj Oi Oj (or_intror (or_introl eq_refl))) as Hy.
  pose proof (over_corner i j a b c x y w x0 y0 w Ti Tj Fi Fj Oi Oj (or_intror (or_intror eq_refl))) as Hw.
  pose proof (T_cw _ _ _ _ _ I1 Ti Fi) as C1. pose proof (T_cw _ _ _ _ _ I2 Tj Fj) as C2. unfold clockwise, orient in C1, C2.
  destruct Hx as [->|[->| ->]], Hy as [->|[->| ->]], Hw as [->|[->| ->]];
    first [exact Tj|exact (T_rot _ _ _ _ _ Tj)|exact (T_rot2 _ _ _ _ _ Tj)|exfalso; clear - C1 C2; lra].
Qed.

(** A finite triangle of the first mesh is one of the second mesh. *)
Lemma in_both i a b c : T ts1 i a b c -> fin3 a b c -> exists j, T ts2 j a b c.
Proof.
  intros Ti Fi. pose proof (T_cw _ _ _ _ _ I1 Ti Fi) as C1. unfold clockwise in C1.
  pose proof (mid_inside at_ (a, b, c) C1) as (O1 & O2 & O3).
  set (p := mid at_ (a, b, c)) in *.
  destruct (M_cover _ _ M2 (P3 (fst p) (snd p) 1)) as (k & Hk); [cbn; lra|].
  pose proof Hk as (x & y & w & n1 & n2 & n3 & V & _).
  assert (Tk : T ts2 k x y w) by (exists n1, n2, n3; exact V).
  apply (T_closed _ _ _ _ _ _ Tk) in Hk. destruct Fi as (Fa & Fb & Fc).
  rewrite <- (det_orient_p px py) in O1, O2, O3 by auto.
  assert (Fk : fin3 x y w).
  { apply (closed_fin ts2 ts1 I1 (alike_sym _ _ Al) k i x y w a b c (P3 (fst p) (snd p) 1)); auto; repeat split; auto. }
  pose proof (T_cw _ _ _ _ _ I2 Tk Fk) as C2.
  pose proof (mid_inside at_ (x, y, w) C2) as (G1 & G2 & G3).
  set (g := mid at_ (x, y, w)) in *. destruct Fk as (Fx & Fy & Fw).
  rewrite <- (det_orient_p px py) in G1, G2, G3 by auto.
  set (P := P3 (fst p) (snd p) 1) in *. set (G := P3 (fst g) (snd g) 1) in *.
  destruct (small_neg [(det (pos a) (pos b) P, det (pos a) (pos b) G - det (pos a) (pos b) P)%Q;
    (det (pos b) (pos c) P, det (pos b) (pos c) G - det (pos b) (pos c) P)%Q;
    (det (pos c) (pos a) P, det (pos c) (pos a) G - det (pos c) (pos a) P)%Q; (-1, 1)%Q]) as (d & Hd & Sm).
  pose proof (Sm _ (or_introl eq_refl)) as S1. pose proof (Sm _ (or_intror (or_introl eq_refl))) as S2.
  pose proof (Sm _ (or_intror (or_intror (or_introl eq_refl)))) as S3.
  pose proof (Sm _ (or_intror (or_intror (or_intror (or_introl eq_refl))))) as S4. cbn [fst snd] in S1, S2, S3, S4.
  specialize (S1 O1). specialize (S2 O2). specialize (S3 O3). assert (L1 : (d < 1)%Q) by (specialize (S4 ltac:(lra)); lra).
  set (x0 := (fst p + d * (fst g - fst p))%Q). set (y0 := (snd p + d * (snd g - snd p))%Q).
  assert (K : forall u v, fin u -> fin v -> (det (pos u) (pos v) (P3 x0 y0 1) == det (pos u) (pos v) P + d * (det (pos u) (pos v) G - det (pos u) (pos v) P))%Q).
  { intros u v Fu Fv. unfold P, G, x0, y0. rewrite (hpos_fin px py u Fu), (hpos_fin px py v Fv). unfold det; cbn [hx hy hw]. ring. }
  assert (K' : forall u v, fin u -> fin v -> (det (pos u) (pos v) P <= 0)%Q -> (det (pos u) (pos v) G < 0)%Q -> (det (pos u) (pos v) (P3 x0 y0 1) < 0)%Q).
  { intros u v Fu Fv A B. rewrite K by auto.
    assert (0 <= (1 - d) * (- det (pos u) (pos v) P))%Q by (apply Qmult_le_0_compat; lra).
    assert (0 < d * (- det (pos u) (pos v) G))%Q by (apply Qmul_pos; lra). lra. }
  destruct Hk as (H1 & H2 & H3).
  exists k. apply (over_same i k a b c x y w x0 y0 Ti Tk); repeat split; auto; rewrite K; auto.
Qed.
End Both.
End WithEnv.
