(** * Lawson: inserting a vertex into an area that is already triangulated.

    With exact predicates: if every edge between two finite triangles is locally Delaunay
    and the new vertex falls inside the area of the finite triangles, then every edge
    between two finite triangles is locally Delaunay after the insertion.  And the area of
    the finite triangles never shrinks, wherever the new vertex falls. *)

From Coq Require Import NArith List Bool Lia QArith Lqa.
From Verif Require Import Base BaseFacts Arith Types Utils Infinite Triangulation Geom Mesh
  MeshOps Exact AnyDT MeshVerts Walk Insert DTExact DTOut Spec Lifted MeshEdge.
Import ListNotations.
Local Open Scope N_scope.

Section WithEnv.
Context {E : Env}.
Variable vs : list vertex.
Variables px py : N -> Q.
Hypothesis X : Exact vs px py.

Notation pos := (hpos px py).
Notation D a b c := (det (pos a) (pos b) (pos c)).
Notation Mesh := (Mesh pos).
Notation Ids := (Ids vs).
Notation vok := (vok vs).
Notation fin v := (is_finite v = true).
Notation z := (z px py).
Notation ev := (ev px py).
Notation ldel := (ldel px py).
Local Notation at_ := (fun v : N => (px v, py v)).

(** Triangle number i has the corners a, b, c in this cyclic order. *)
Definition tri3 (ts : list tri) (i a b c : N) : Prop := exists x y w, view ts i a b c x y w.

Lemma tri3_rot ts i a b c : tri3 ts i a b c -> tri3 ts i b c a.
Proof. intros (x & y & w & V). exists y, w, x. now apply view_rot. Qed.

Lemma tri3_rot2 ts i a b c : tri3 ts i a b c -> tri3 ts i c a b.
Proof. intros (x & y & w & V). exists w, x, y. now apply view_rot2. Qed.

Lemma tri3_fun ts i a b c a' b' c' : tri3 ts i a b c -> tri3 ts i a' b' c' ->
  (a' = a /\ b' = b /\ c' = c) \/ (a' = b /\ b' = c /\ c' = a) \/ (a' = c /\ b' = a /\ c' = b).
Proof.
  intros (x & y & w & V) (x' & y' & w' & V').
  destruct (view_fun _ _ _ _ _ _ _ _ _ _ _ _ _ _ V V') as [?|[?|?]]; tauto.
Qed.

Lemma tri3_cw ts i a b c : Mesh ts -> tri3 ts i a b c -> (D a b c < 0)%Q.
Proof. intros M (x & y & w & V). exact (M_cw _ _ M _ _ _ _ _ _ _ V). Qed.

Lemma tri3_nth ts i t k : nthN ts i = Some t -> tri3 ts i (tv t k) (tv t (next_cw k)) (tv t (next_ccw k)).
Proof. intros H. do 3 eexists. now apply view_at. Qed.

(** Same corners, same [tri3]. *)
Lemma tri3_same ts ts' i t t' : nthN ts i = Some t -> nthN ts' i = Some t' ->
  (forall k, tv t' k = tv t k) -> forall a b c, tri3 ts' i a b c <-> tri3 ts i a b c.
Proof.
  assert (K : forall ts ts' t t', nthN ts i = Some t -> nthN ts' i = Some t' ->
     (forall k, tv t' k = tv t k) -> forall a b c, tri3 ts i a b c -> tri3 ts' i a b c).
  { clear. intros ts ts' t t' H H' Hv a b c (x & y & w & u & k & Hu & R).
    assert (u = t) by congruence. subst u. unfold rot in R. injection R as r1 r2 r3 _ _ _.
    rewrite <- r1, <- r2, <- r3, <- !Hv. now apply tri3_nth. }
  intros H H' Hv a b c. split; eapply K; eauto.
Qed.

Lemma tri3_edge ts i j u v w w' : Mesh ts -> tri3 ts i u v w -> tri3 ts j u v w' -> i = j /\ w = w'.
Proof.
  intros M H H'. assert (i = j).
  { destruct H as (x & y & q & V). destruct H' as (x' & y' & q' & V').
    exact (edge_share _ _ M i j u v x x' (proj1 (view_he _ _ _ _ _ _ _ _ V)) (proj1 (view_he _ _ _ _ _ _ _ _ V'))). }
  subst j. split; auto. pose proof (tri3_cw _ _ _ _ _ M H) as C.
  destruct (D_distinct pos _ _ _ C) as (N1 & N2 & N3).
  destruct (tri3_fun _ _ _ _ _ _ _ _ H H') as [(?&?&?)|[(?&?&?)|(?&?&?)]]; congruence.
Qed.

(** ** The finite area *)
Definition reg (ts : list tri) (p : pt3) : Prop :=
  exists i a b c, tri3 ts i a b c /\ fin a /\ fin b /\ fin c /\ in_closed (pos a) (pos b) (pos c) p.

(** ** A swap *)

(** The quad P a c b loses the diagonal ab and gets the diagonal Pc. *)
Record Swapped (ts ts' : list tri) (P x y a b c : N) : Prop := {
  W_mesh : Mesh ts;
  W_mesh' : Mesh ts';
  W_xy : x <> y;
  W_x : tri3 ts x P a b;
  W_y : tri3 ts y b a c;
  W_x' : tri3 ts' x P a c;
  W_y' : tri3 ts' y P c b;
  W_out : forall j, j <> x -> j <> y -> forall u v w, tri3 ts' j u v w <-> tri3 ts j u v w;
  W_c : fin c;
  W_swap : should_swap_diagonals (Quad a b c P) vs = Ret true
}.

Lemma check_and_swap_step ts P x y st ts' st' :
  fin P -> vok P -> Rinv vs px py ts P ((x, y) :: st) ->
  check_and_swap ts vs P x y st = Ret (ts', st') ->
  Rinv vs px py ts' P st' /\ lenN ts' = lenN ts /\
  ((ts' = ts /\ st' = st) \/
   (cnt (noP P) ts = S (cnt (noP P) ts') /\ (length st' <= 2 + length st)%nat /\
    exists a b c, Swapped ts ts' P x y a b c)).
Proof.
  intros FP VP R HC.
  destruct (check_and_swap_spec vs px py X ts P x y st FP VP R) as (ts1 & st1 & HC1 & R1 & L1 & K & _).
  rewrite HC in HC1. injection HC1 as <- <-. split; auto. split; auto.
  destruct K as [K|(K1 & K2)]; [now left|]. right. split; auto. split; auto.
  destruct R as [M I F S Nd Lg].
  destruct (S x y (or_introl eq_refl)) as (a & b & n1 & n2 & Hx & Hy).
  pose proof (view_exists _ _ _ Hx) as V1; simpl in V1.
  destruct (view_he _ _ _ _ _ _ _ _ V1) as (_ & E2 & _).
  pose proof (glue_some _ _ M _ _ _ _ E2 Hy) as (c & n3 & n4 & V2).
  assert (Hxn : x <> NONE) by (apply view_lt in V1; pose proof (M_len _ _ M); unfold NONE; lia).
  destruct (view_nth _ _ _ _ _ _ _ _ V2) as (t2 & Ht2).
  unfold check_and_swap in HC. unfold getN at 1 in HC. rewrite Ht2 in HC. cbn [bind] in HC.
  rewrite (quad_of_pair_view px py ts y t2 x P a b c n3 n4 M Ht2 Hxn V2) in HC.
  destruct (Ids_view _ _ _ _ _ _ _ _ _ I V1) as (_ & Va & Vb).
  destruct (Ids_view _ _ _ _ _ _ _ _ _ I V2) as (_ & _ & Vc).
  pose proof (M_cw _ _ M _ _ _ _ _ _ _ V1) as C1. pose proof (M_cw _ _ M _ _ _ _ _ _ _ V2) as C2.
  destruct (should_swap_post vs px py X a b c P Va Vb Vc VP FP C1 C2) as (r & Hr & Hconv).
  rewrite Hr in HC. cbn [bind] in HC. destruct r.
  2:{ injection HC as <- <-. exfalso. lia. }
  destruct (Hconv eq_refl) as (Fc & N1 & N2).
  destruct (swap_pair_spec px py ts P a b c x y n1 n2 n3 n4 st M Hx V2) as (ts1 & Hs & Hl & A & B & O).
  rewrite Hs in HC. injection HC as <- <-.
  pose proof (flip_facts pos ts x y a b c P n1 n2 n3 n4 M V1 V2) as (_ & _ & T12 & _).
  exists a, b, c. constructor; auto.
  - exact (R_mesh _ _ _ _ _ _ R1).
  - do 3 eexists; eauto.
  - do 3 eexists; eauto.
  - exact (tri3_nth _ _ _ I1 A).
  - exact (tri3_nth _ _ _ I1 B).
  - intros j J1 J2 u v w. destruct (nthN ts j) as [t|] eqn:Ht.
    + assert (Hj : j < lenN ts) by (now apply nthN_lt in Ht).
      destruct (nthN_Some ts1 j) as (t' & Ht'); [lia|].
      apply (tri3_same ts ts1 j t t' Ht Ht').
      exact (proj1 (flip_outer_tn pos ts ts1 x y a b c P n1 n2 n3 n4 M V1 V2 Hl O j t t' I1 J1 J2 Ht Ht')).
    + assert (Ht' : nthN ts1 j = None) by (apply nthN_None; apply nthN_None in Ht; lia).
      split; intros (? & ? & ? & q & k & Hq & _); congruence.
Qed.

Lemma swap_facts ts ts' P x y a b c : fin P -> Ids ts -> Swapped ts ts' P x y a b c ->
  (D P a b < 0)%Q /\ (D b a c < 0)%Q /\ (D P a c < 0)%Q /\ (D P c b < 0)%Q /\
  P <> a /\ P <> b /\ P <> c /\ a <> b /\ a <> c /\ b <> c.
Proof.
  intros FP I W.
  pose proof (tri3_cw _ _ _ _ _ (W_mesh _ _ _ _ _ _ _ _ W) (W_x _ _ _ _ _ _ _ _ W)) as C1.
  pose proof (tri3_cw _ _ _ _ _ (W_mesh _ _ _ _ _ _ _ _ W) (W_y _ _ _ _ _ _ _ _ W)) as C2.
  pose proof (tri3_cw _ _ _ _ _ (W_mesh' _ _ _ _ _ _ _ _ W) (W_x' _ _ _ _ _ _ _ _ W)) as C3.
  pose proof (tri3_cw _ _ _ _ _ (W_mesh' _ _ _ _ _ _ _ _ W) (W_y' _ _ _ _ _ _ _ _ W)) as C4.
  destruct (D_distinct pos _ _ _ C1) as (? & ? & ?). destruct (D_distinct pos _ _ _ C2) as (? & ? & ?).
  destruct (D_distinct pos _ _ _ C3) as (? & ? & ?). repeat split; auto; congruence.
Qed.

(** The swap of a quad with finite corners is made when P is inside the circle. *)
Lemma swap_circle a b c P : vok a -> vok b -> vok c -> vok P ->
  fin P -> fin a -> fin b -> fin c -> (D P a b < 0)%Q -> (D b a c < 0)%Q ->
  should_swap_diagonals (Quad a b c P) vs = Ret true ->
  forall k, (ev k a == z a)%Q -> (ev k b == z b)%Q -> (ev k c == z c)%Q -> (z P <= ev k P)%Q.
Proof.
  intros Va Vb Vc VP FP Fa Fb Fc H1 H2 Hs k Ka Kb Kc.
  destruct (get_vertex vs P VP FP) as (pP & GP & NP). destruct (get_vertex vs a Va Fa) as (pa & Ga & Na).
  destruct (get_vertex vs b Vb Fb) as (pb & Gb & Nb). destruct (get_vertex vs c Vc Fc) as (pc & Gc & Nc).
  unfold should_swap_diagonals in Hs. cbn [q1 q2 q3 q4] in Hs.
  rewrite inf_not_fin, Fa, Fb, Fc in Hs. cbn [negb andb] in Hs. rewrite Ga in Hs; cbn [bind] in Hs.
  rewrite Gb in Hs; cbn [bind] in Hs. rewrite Gc in Hs; cbn [bind] in Hs. rewrite GP in Hs; cbn [bind] in Hs.
  injection Hs as Hs.
  apply (X_circle _ _ _ X a b c P pa pb pc pP Na Nb Nc NP H1 H2) in Hs.
  rewrite (incircle_plane px py k a b c P Fa Fb Fc FP Ka Kb Kc) in Hs.
  pose proof (det_swap (pos b) (pos a) (pos c)) as S1.
  destruct (Qlt_le_dec (ev k P) (z P)) as [L|L]; [|exact L]. nra.
Qed.

Lemma swap_area ts ts' P x y a b c p : fin P -> Ids ts -> Swapped ts ts' P x y a b c ->
  reg ts p -> reg ts' p.
Proof.
  intros FP I W (i & u & v & w & T & Fu & Fv & Fw & Hp).
  destruct (swap_facts _ _ _ _ _ _ _ _ FP I W) as (C1 & C2 & C3 & C4 & _).
  destruct W as [M M' Hxy Wx Wy Wx' Wy' Wo Fc _].
  assert (Main : fin a -> fin b -> in_closed (pos P) (pos a) (pos b) p \/ in_closed (pos b) (pos a) (pos c) p -> reg ts' p).
  { intros Fa Fb [H|H].
    - destruct (flip_cover1 (pos a) (pos b) (pos c) (pos P) C1 C2 C3 C4 p H) as [K|K].
      + exists x, P, a, c; auto 7.
      + exists y, P, c, b; auto 7.
    - destruct (flip_cover2 (pos a) (pos b) (pos c) (pos P) C1 C2 C3 C4 p H) as [K|K].
      + exists x, P, a, c; auto 7.
      + exists y, P, c, b; auto 7. }
  destruct (N.eq_dec i x) as [->|J1]; [|destruct (N.eq_dec i y) as [->|J2]].
  - destruct (tri3_fun _ _ _ _ _ _ _ _ Wx T) as [(->&->&->)|[(->&->&->)|(->&->&->)]]; apply Main; auto; left; auto.
    + now do 2 apply in_closed_rot.
    + now apply in_closed_rot.
  - destruct (tri3_fun _ _ _ _ _ _ _ _ Wy T) as [(->&->&->)|[(->&->&->)|(->&->&->)]]; apply Main; auto; right; auto.
    + now do 2 apply in_closed_rot.
    + now apply in_closed_rot.
  - exists i, u, v, w. split; [now apply Wo|auto].
Qed.

(** ** The planes around the new vertex

    Every vertex a of a finite triangle around P has a plane [h a] through the point over a, not
    above the points over its neighbors on these triangles and not below the one over P; every
    finite triangle i = P a b has a plane [g i] through the points over a and b (the
    one of the former triangle on the inner side of ab), not above the point over the
    vertex across ab and, over P, not above [h a] and [h b]. *)
Record Linv (ts : list tri) (P : N) (h g : N -> plane) : Prop := {
  L_star : forall i a b, tri3 ts i P a b -> fin a -> fin b ->
    (ev (h a) a == z a)%Q /\ (ev (h b) b == z b)%Q /\
    (ev (h a) b <= z b)%Q /\ (ev (h b) a <= z a)%Q /\
    (z P <= ev (h a) P)%Q /\ (z P <= ev (h b) P)%Q /\
    (ev (g i) a == z a)%Q /\ (ev (g i) b == z b)%Q /\
    (ev (g i) P <= ev (h a) P)%Q /\ (ev (g i) P <= ev (h b) P)%Q;
  L_out : forall i j a b c, tri3 ts i P a b -> tri3 ts j b a c -> fin a -> fin b -> fin c -> (ev (g i) c <= z c)%Q;
  L_rest : forall i j a b c d, tri3 ts i a b c -> tri3 ts j b a d ->
    fin a -> fin b -> fin c -> fin d -> P <> a -> P <> b -> P <> c -> P <> d -> ldel a b c d
}.

Definition upd (f : N -> plane) (i : N) (k : plane) (j : N) : plane := if j =? i then k else f j.

Lemma upd_same f i k : upd f i k i = k.
Proof. unfold upd. now rewrite N.eqb_refl. Qed.
Lemma upd_other f i k j : j <> i -> upd f i k j = f j.
Proof. intros H. unfold upd. apply N.eqb_neq in H. now rewrite H. Qed.

Lemma swap_linv ts ts' P x y a b c h g : fin P -> vok P -> Ids ts ->
  Swapped ts ts' P x y a b c -> fin a -> fin b -> Linv ts P h g -> exists h' g', Linv ts' P h' g'.
Proof.
  intros FP VP I W Fa Fb L.
  destruct (swap_facts _ _ _ _ _ _ _ _ FP I W) as (C1 & C2 & C3 & C4 & Pa & Pb & Pc & ab & ac & bc).
  destruct W as [M M' Hxy Wx Wy Wx' Wy' Wo Fc Hs].
  destruct (L_star _ _ _ _ L x a b Wx Fa Fb) as (Ha & Hb & Hab & Hba & HaP & HbP & Ga & Gb & GaP & GbP).
  pose proof (L_out _ _ _ _ L x y a b c Wx Wy Fa Fb Fc) as Gc.
  destruct (plane_exists px py b a c Fb Fa Fc) as (k & Kb & Ka & Kc); [lra|].
  assert (Vabc : vok a /\ vok b /\ vok c).
  { destruct Wx as (? & ? & ? & V). destruct Wy as (? & ? & ? & V').
    destruct (Ids_view _ _ _ _ _ _ _ _ _ I V) as (_ & Va & Vb).
    destruct (Ids_view _ _ _ _ _ _ _ _ _ I V') as (_ & _ & Vc). auto. }
  destruct Vabc as (Va & Vb & Vc).
  pose proof (swap_circle a b c P Va Vb Vc VP FP Fa Fb Fc C1 C2 Hs k Ka Kb Kc) as KP.
  pose proof (swap_edge px py (g x) k P a b c FP Fa Fb Fc C1 C2 Ga Gb Gc Ka Kb Kc) as KG.
  pose proof (swap_vertex px py (g x) (h a) P a b c FP Fa Fb Fc C1 C2 C3 Ga Gb Gc Ha Hab GaP) as Hac.
  pose proof (swap_vertex2 px py (g x) (h b) P a b c FP Fa Fb Fc C1 C2 C4 Ga Gb Gc Hb Hba GbP) as Hbc.
  (* the triangles of the new star *)
  assert (Star : forall i u v, tri3 ts' i P u v ->
     (i = x /\ u = a /\ v = c) \/ (i = y /\ u = c /\ v = b) \/
     (i <> x /\ i <> y /\ tri3 ts i P u v /\ u <> c /\ v <> c)).
  { intros i u v T.
    destruct (N.eq_dec i x) as [->|J1]; [|destruct (N.eq_dec i y) as [->|J2]].
    - left. destruct (tri3_fun _ _ _ _ _ _ _ _ Wx' T) as [(?&?&?)|[(?&?&?)|(?&?&?)]]; intuition congruence.
    - right; left. destruct (tri3_fun _ _ _ _ _ _ _ _ Wy' T) as [(?&?&?)|[(?&?&?)|(?&?&?)]]; intuition congruence.
    - right; right. repeat split; auto.
      + now apply Wo.
      + intros ->. destruct (tri3_edge ts' i y P c v b M' T Wy'). congruence.
      + intros ->. apply tri3_rot2 in T. pose proof (tri3_rot2 _ _ _ _ _ Wx') as T'.
        destruct (tri3_edge ts' i x c P _ _ M' T T'). congruence. }
  (* the triangles across the star *)
  assert (Anti : forall i j u v w, tri3 ts' i P u v -> tri3 ts' j v u w -> w <> P).
  { intros i j u v w T T' ->. pose proof (tri3_cw _ _ _ _ _ M' T) as Q1. pose proof (tri3_cw _ _ _ _ _ M' T') as Q2.
    pose proof (det_swap13 (pos P) (pos u) (pos v)). lra. }
  assert (Across : forall i j u v w, tri3 ts' i P u v -> tri3 ts' j v u w -> tri3 ts j v u w).
  { intros i j u v w T T'. pose proof (Anti _ _ _ _ _ T T') as NP.
    pose proof (D_distinct pos _ _ _ (tri3_cw _ _ _ _ _ M' T)) as (Q1 & Q2 & Q3).
    apply Wo; auto; intros ->.
    - destruct (tri3_fun _ _ _ _ _ _ _ _ Wx' T') as [(?&?&?)|[(?&?&?)|(?&?&?)]]; congruence.
    - destruct (tri3_fun _ _ _ _ _ _ _ _ Wy' T') as [(?&?&?)|[(?&?&?)|(?&?&?)]]; congruence. }
  exists (upd h c k), (upd (upd g x k) y k). constructor.
  - intros i u v T Fu Fv. destruct (Star i u v T) as [(-> & -> & ->)|[(-> & -> & ->)|(J1 & J2 & T0 & U1 & U2)]].
    + rewrite (upd_other _ y) by auto. rewrite !upd_same. rewrite upd_other by auto.
      repeat split; auto; try lra.
    + rewrite !upd_same. rewrite upd_other by auto. repeat split; auto; try lra.
    + rewrite !upd_other by auto. exact (L_star _ _ _ _ L i u v T0 Fu Fv).
  - intros i j u v w T T' Fu Fv Fw. pose proof (Across _ _ _ _ _ T T') as T0'. pose proof (Anti _ _ _ _ _ T T') as NP.
    destruct (Star i u v T) as [(-> & -> & ->)|[(-> & -> & ->)|(J1 & J2 & T0 & U1 & U2)]].
    + rewrite (upd_other _ y) by auto. rewrite upd_same.
      pose proof (L_rest _ _ _ _ L y j a c b w (tri3_rot _ _ _ _ _ Wy) T0' Fa Fc Fb Fw Pa Pc Pb (not_eq_sym NP)) as K.
      apply K; auto.
    + rewrite upd_same.
      pose proof (L_rest _ _ _ _ L y j c b a w (tri3_rot2 _ _ _ _ _ Wy) T0' Fc Fb Fa Fw Pc Pb Pa (not_eq_sym NP)) as K.
      apply K; auto.
    + rewrite !upd_other by auto. exact (L_out _ _ _ _ L i j u v w T0 T0' Fu Fv Fw).
  - assert (Old : forall i u v w, tri3 ts' i u v w -> P <> u -> P <> v -> P <> w -> tri3 ts i u v w).
    { intros i u v w T Q1 Q2 Q3. apply Wo; auto; intros ->.
      - destruct (tri3_fun _ _ _ _ _ _ _ _ Wx' T) as [(?&?&?)|[(?&?&?)|(?&?&?)]]; congruence.
      - destruct (tri3_fun _ _ _ _ _ _ _ _ Wy' T) as [(?&?&?)|[(?&?&?)|(?&?&?)]]; congruence. }
    intros i j u v w d T T' Fu Fv Fw Fd Q1 Q2 Q3 Q4.
    apply (L_rest _ _ _ _ L i j u v w d); auto.
Qed.

(** ** Swaps stay in the finite area

    Either every triangle around P is finite, or P is on the inner side of every edge between
    the finite area and the unbounded triangles. *)
Definition star_fin (ts : list tri) (P : N) : Prop := forall i a b, tri3 ts i P a b -> fin a /\ fin b.

Definition wborder (ts : list tri) (P : N) : Prop :=
  forall i a b c, tri3 ts i a b c -> fin a -> fin b -> is_finite c = false -> (0 <= D a b P)%Q.

Definition held (ts : list tri) (P : N) : Prop := star_fin ts P \/ wborder ts P.

Lemma held_swap ts ts' P x y a b c : fin P -> Ids ts -> Swapped ts ts' P x y a b c -> held ts P ->
  fin a /\ fin b /\ held ts' P.
Proof.
  intros FP I W H.
  destruct (swap_facts _ _ _ _ _ _ _ _ FP I W) as (C1 & C2 & C3 & C4 & Pa & Pb & Pc & ab & ac & bc).
  destruct W as [M M' Hxy Wx Wy Wx' Wy' Wo Fc _].
  assert (F : fin a /\ fin b).
  { destruct H as [SF|WB]; [exact (SF _ _ _ Wx)|].
    pose proof (det_rot3 (pos P) (pos a) (pos c)) as (R1 & R2). pose proof (det_rot3 (pos P) (pos c) (pos b)) as (R3 & R4).
    pose proof (det_rot3 (pos P) (pos a) (pos b)) as (R5 & R6). pose proof (det_swap (pos a) (pos b) (pos P)) as Sw.
    destruct (is_finite a) eqn:Ea, (is_finite b) eqn:Eb; auto; exfalso.
    - pose proof (WB _ _ _ _ (tri3_rot _ _ _ _ _ Wy) Ea Fc Eb). lra.
    - pose proof (WB _ _ _ _ (tri3_rot2 _ _ _ _ _ Wy) Fc Eb Ea). lra.
    - pose proof (two_inf px py b a c P Eb Ea Fc FP). lra. }
  destruct F as (Fa & Fb). split; auto. split; auto. destruct H as [SF|WB]; [left|right].
  - intros i u v T. destruct (N.eq_dec i x) as [->|J1]; [|destruct (N.eq_dec i y) as [->|J2]].
    + destruct (tri3_fun _ _ _ _ _ _ _ _ Wx' T) as [(?&?&?)|[(?&?&?)|(?&?&?)]]; subst; auto; congruence.
    + destruct (tri3_fun _ _ _ _ _ _ _ _ Wy' T) as [(?&?&?)|[(?&?&?)|(?&?&?)]]; subst; auto; congruence.
    + apply (SF i). now apply Wo.
  - intros i u v w T Fu Fv Iw. destruct (N.eq_dec i x) as [->|J1]; [|destruct (N.eq_dec i y) as [->|J2]].
    + destruct (tri3_fun _ _ _ _ _ _ _ _ Wx' T) as [(?&?&?)|[(?&?&?)|(?&?&?)]]; subst; congruence.
    + destruct (tri3_fun _ _ _ _ _ _ _ _ Wy' T) as [(?&?&?)|[(?&?&?)|(?&?&?)]]; subst; congruence.
    + apply (WB i u v w); auto. now apply Wo.
Qed.

(** ** The loop *)
Lemma restore_linv P : fin P -> vok P -> forall fuel ts st ts',
  Rinv vs px py ts P st -> restore_delaunay fuel ts vs P st = Ret ts' ->
  (forall p, reg ts p -> reg ts' p) /\
  (held ts P -> (exists h g, Linv ts P h g) -> exists h g, Linv ts' P h g).
Proof.
  intros FP VP. induction fuel as [|fuel IH]; intros ts st ts' R H.
  - destruct st as [|(x, y) st]; simpl in H; [injection H as <-; auto|discriminate].
  - destruct st as [|(x, y) st]; simpl in H; [injection H as <-; auto|].
    destruct (check_and_swap ts vs P x y st) as [(ts1, st1)| | |] eqn:Hc; try discriminate. cbn [bind] in H.
    destruct (check_and_swap_step ts P x y st ts1 st1 FP VP R Hc) as (R1 & _ & K).
    destruct (IH ts1 st1 ts' R1 H) as (A1 & A2).
    destruct K as [(-> & ->)|(_ & _ & a & b & c & W)]; auto. split.
    + intros p Hp. apply A1. eapply swap_area; eauto. exact (R_ids _ _ _ _ _ _ R).
    + intros Hh (h & g & L). pose proof (R_ids _ _ _ _ _ _ R) as I.
      destruct (held_swap _ _ _ _ _ _ _ _ FP I W Hh) as (Fa & Fb & Hh'). apply A2; auto. eapply swap_linv; eauto.
Qed.

(** Every edge between two finite triangles is locally Delaunay. *)
Definition all_ldel (ts : list tri) : Prop :=
  forall i j a b c d, tri3 ts i a b c -> tri3 ts j b a d ->
    fin a -> fin b -> fin c -> fin d -> ldel a b c d.

Lemma final_ldel ts P h g : fin P -> Mesh ts -> Linv ts P h g ->
  (forall i j a b c, tri3 ts i P a b -> tri3 ts j b a c -> fin a -> fin b -> fin c -> ldel P a b c) ->
  all_ldel ts.
Proof.
  intros FP M L Lg i j a b c d T T' Fa Fb Fc Fd.
  pose proof (tri3_cw _ _ _ _ _ M T) as C1. pose proof (tri3_cw _ _ _ _ _ M T') as C2.
  destruct (D_distinct pos _ _ _ C1) as (Q1 & Q2 & Q3). destruct (D_distinct pos _ _ _ C2) as (Q4 & Q5 & Q6).
  assert (Spoke : forall i j x y w, tri3 ts i P x y -> tri3 ts j x P w -> fin x -> fin y -> fin w -> ldel P x y w).
  { clear - L M FP. intros i j x y w T T' Fx Fy Fw.
    destruct (L_star _ _ _ _ L _ _ _ T Fx Fy) as (Hx & _ & Hy & _ & HP & _).
    apply tri3_rot in T'. destruct (L_star _ _ _ _ L _ _ _ T' Fw Fx) as (_ & _ & _ & Hw & _).
    pose proof (tri3_cw _ _ _ _ _ M T) as C1. pose proof (tri3_cw _ _ _ _ _ M T') as C2.
    apply (spoke px py (h x)); auto. }
  destruct (N.eq_dec P a) as [<-|Pa]; [exact (Spoke _ _ _ _ _ T T' Fb Fc Fd)|].
  destruct (N.eq_dec P b) as [<-|Pb].
  { apply ldel_sym; auto. exact (Spoke _ _ _ _ _ T' T Fa Fd Fc). }
  destruct (N.eq_dec P c) as [<-|Pc].
  { apply ldel_rot. apply (Lg i j a b d); auto. now apply tri3_rot2. }
  destruct (N.eq_dec P d) as [<-|Pd].
  { apply ldel_sym; auto. apply ldel_rot. apply (Lg j i b a c); auto. now apply tri3_rot2. }
  exact (L_rest _ _ _ _ L i j a b c d T T' Fa Fb Fc Fd Pa Pb Pc Pd).
Qed.

(** ** Splitting a triangle *)
Record Cut3 (ts ts' : list tri) (P i l1 l2 a b c : N) : Prop := {
  T_mesh : Mesh ts;
  T_mesh' : Mesh ts';
  T_in : in_open (pos a) (pos b) (pos c) (pos P);
  T_old : tri3 ts i a b c;
  T_a : tri3 ts' i P c a;
  T_b : tri3 ts' l1 P b c;
  T_c : tri3 ts' l2 P a b;
  T_out : forall j, j <> i -> j <> l1 -> j <> l2 -> forall u v w, tri3 ts' j u v w <-> tri3 ts j u v w;
  T_l1 : forall u v w, ~ tri3 ts l1 u v w;
  T_l2 : forall u v w, ~ tri3 ts l2 u v w
}.

Lemma tri3_none ts j u v w : lenN ts <= j -> ~ tri3 ts j u v w.
Proof. intros H (x & y & q & V). apply view_lt in V. lia. Qed.

Lemma split3_cut ts i P ts' st : Mesh ts -> lenN ts + 2 <= idmax -> inT pos ts i (pos P) ->
  split_triangle_into_three ts i P [] = Ret (ts', st) ->
  exists a b c, Cut3 ts ts' P i (lenN ts) (lenN ts + 1) a b c.
Proof.
  intros M Hmax Hin Hs.
  assert (Hi : i < lenN ts) by (destruct Hin as (? & ? & ? & ? & ? & ? & V & _); now apply view_lt in V).
  destruct (nthN_Some ts i Hi) as (t & Ht).
  pose proof (view_exists _ _ _ Ht) as V.
  apply (inT_view _ _ _ _ _ _ _ _ _ _ V) in Hin.
  destruct (split3_spec px py ts i P [] t M Ht Hmax) as (ts1 & Hs1 & Hl & A & B & C & O).
  rewrite Hs in Hs1. injection Hs1 as <- _.
  pose proof (mesh_split3 pos ts ts' i P t M Ht Hin Hl Hmax A B C O) as M'.
  exists (t_v1 t), (t_v2 t), (t_v3 t). constructor; auto.
  - do 3 eexists; eauto.
  - exact (tri3_nth _ _ _ I1 A).
  - exact (tri3_nth _ _ _ I1 B).
  - exact (tri3_nth _ _ _ I1 C).
  - intros j J1 J2 J3 u v w. destruct (nthN ts j) as [t0|] eqn:Ht0.
    + pose proof (nthN_lt _ _ _ Ht0) as Hj. pose proof (O j J1 Hj) as Ht'. rewrite Ht0 in Ht'.
      apply (tri3_same ts ts' j t0 _ Ht0 Ht'). intros k. now rewrite !relink_tv.
    + apply nthN_None in Ht0. split; intros K; exfalso; revert K; apply tri3_none; lia.
  - intros u v w. apply tri3_none. lia.
  - intros u v w. apply tri3_none. lia.
Qed.

Lemma cut3_area ts ts' P i l1 l2 a b c p : fin P -> Cut3 ts ts' P i l1 l2 a b c -> reg ts p -> reg ts' p.
Proof.
  intros FP [M M' Hin T Ta Tb Tc Out N1 N2] (j & u & v & w & Tj & Fu & Fv & Fw & Hp).
  destruct (N.eq_dec j i) as [->|J].
  - assert (Q : fin a /\ fin b /\ fin c /\ in_closed (pos a) (pos b) (pos c) p).
    { destruct (tri3_fun _ _ _ _ _ _ _ _ T Tj) as [(->&->&->)|[(->&->&->)|(->&->&->)]]; repeat split; auto;
        try apply Hp. }
    destruct Q as (Fa & Fb & Fc & Hq).
    destruct (split3_cover _ _ _ _ Hin p Hq) as [K|[K|K]].
    + exists l2, P, a, b; auto 7.
    + exists l1, P, b, c; auto 7.
    + exists i, P, c, a; auto 7.
  - exists j, u, v, w. split; [|auto]. apply Out; auto; intros ->; [exact (N1 _ _ _ Tj)|exact (N2 _ _ _ Tj)].
Qed.

Lemma cut3_linv ts ts' P i l1 l2 a b c :
  fin P -> fin a -> fin b -> fin c -> ~ hascorner ts P -> all_ldel ts ->
  Cut3 ts ts' P i l1 l2 a b c -> exists h g, Linv ts' P h g.
Proof.
  intros FP Fa Fb Fc NP AL [M M' Hin T Ta Tb Tc Out N1 N2].
  pose proof (tri3_cw _ _ _ _ _ M T) as C.
  destruct (plane_exists px py a b c Fa Fb Fc) as (k & Ka & Kb & Kc); [lra|].
  destruct Hin as (I1 & I2 & I3).
  pose proof (det_rot3 (pos P) (pos b) (pos c)) as (R1 & R2).
  pose proof (det_rot3 (pos a) (pos P) (pos c)) as (R3 & R4).
  pose proof (det_rot3 (pos c) (pos a) (pos P)) as (R5 & R6).
  assert (KP : (z P <= ev k P)%Q) by (apply (inside_below px py k a b c P); auto; lra).
  assert (NT : forall j u v w, tri3 ts j u v w -> P <> u).
  { intros j u v w (x & y & q & V) <-. apply NP. exists j, v, x. exact (proj1 (view_he _ _ _ _ _ _ _ _ V)). }
  assert (Old : forall j u v w, tri3 ts' j u v w -> P <> u -> P <> v -> P <> w -> tri3 ts j u v w).
  { intros j u v w Tj Q1 Q2 Q3. apply Out; auto; intros ->.
    - destruct (tri3_fun _ _ _ _ _ _ _ _ Ta Tj) as [(?&?&?)|[(?&?&?)|(?&?&?)]]; congruence.
    - destruct (tri3_fun _ _ _ _ _ _ _ _ Tb Tj) as [(?&?&?)|[(?&?&?)|(?&?&?)]]; congruence.
    - destruct (tri3_fun _ _ _ _ _ _ _ _ Tc Tj) as [(?&?&?)|[(?&?&?)|(?&?&?)]]; congruence. }
  assert (Star : forall j u v, tri3 ts' j P u v ->
     (u = c /\ v = a) \/ (u = b /\ v = c) \/ (u = a /\ v = b)).
  { intros j u v Tj. pose proof (D_distinct pos _ _ _ (tri3_cw _ _ _ _ _ M' Tj)) as (Q1 & Q2 & Q3).
    destruct (N.eq_dec j i) as [->|J1]; [|destruct (N.eq_dec j l1) as [->|J2]; [|destruct (N.eq_dec j l2) as [->|J3]]].
    - left. destruct (tri3_fun _ _ _ _ _ _ _ _ Ta Tj) as [(?&?&?)|[(?&?&?)|(?&?&?)]]; auto;
        exfalso; [apply (NT _ _ _ _ (tri3_rot2 _ _ _ _ _ T))|apply (NT _ _ _ _ T)]; congruence.
    - right; left. destruct (tri3_fun _ _ _ _ _ _ _ _ Tb Tj) as [(?&?&?)|[(?&?&?)|(?&?&?)]]; auto;
        exfalso; [apply (NT _ _ _ _ (tri3_rot _ _ _ _ _ T))|apply (NT _ _ _ _ (tri3_rot2 _ _ _ _ _ T))]; congruence.
    - right; right. destruct (tri3_fun _ _ _ _ _ _ _ _ Tc Tj) as [(?&?&?)|[(?&?&?)|(?&?&?)]]; auto;
        exfalso; [apply (NT _ _ _ _ T)|apply (NT _ _ _ _ (tri3_rot _ _ _ _ _ T))]; congruence.
    - exfalso. apply (NT j P u v); auto. now apply Out. }
  exists (fun _ => k), (fun _ => k). constructor.
  - intros j u v Tj _ _. destruct (Star j u v Tj) as [(-> & ->)|[(-> & ->)|(-> & ->)]]; repeat split; auto; lra.
  - intros j j' u v w Tj Tj' _ _ Fw.
    pose proof (D_distinct pos _ _ _ (tri3_cw _ _ _ _ _ M' Tj)) as (Q1 & Q2 & Q3).
    assert (Pw : P <> w).
    { intros <-. pose proof (tri3_cw _ _ _ _ _ M' Tj). pose proof (tri3_cw _ _ _ _ _ M' Tj').
      pose proof (det_swap13 (pos P) (pos u) (pos v)). lra. }
    assert (T0 : tri3 ts j' v u w) by (apply Old; auto).
    destruct (Star j u v Tj) as [(-> & ->)|[(-> & ->)|(-> & ->)]].
    + apply (AL i j' c a b w (tri3_rot2 _ _ _ _ _ T) T0); auto.
    + apply (AL i j' b c a w (tri3_rot _ _ _ _ _ T) T0); auto.
    + apply (AL i j' a b c w T T0); auto.
  - intros j j' u v w d Tj Tj' Fu Fv Fw Fd Q1 Q2 Q3 Q4. apply (AL j j' u v w d); auto.
Qed.

(** ** Splitting the two triangles of an edge *)
Record Cut4 (ts ts' : list tri) (P i j l1 l2 u v c d : N) : Prop := {
  Q_mesh : Mesh ts;
  Q_mesh' : Mesh ts';
  Q_on : (D u v P == 0)%Q;
  Q_v : (D v c P < 0)%Q;
  Q_u : (D c u P < 0)%Q;
  Q_i : tri3 ts i u v c;
  Q_j : tri3 ts j v u d;
  Q_a : tri3 ts' i P c u;
  Q_b : tri3 ts' j P u d;
  Q_c : tri3 ts' l1 P v c;
  Q_d : tri3 ts' l2 P d v;
  Q_out : forall e, e <> i -> e <> j -> e <> l1 -> e <> l2 ->
     forall u v w, tri3 ts' e u v w <-> tri3 ts e u v w;
  Q_ij : i <> j;
  Q_l : l1 <> i /\ l1 <> j /\ l1 <> l2 /\ l2 <> i /\ l2 <> j;
  Q_l1 : forall u v w, ~ tri3 ts l1 u v w;
  Q_l2 : forall u v w, ~ tri3 ts l2 u v w
}.

Lemma split4_cut ts i k t P ts' st : Mesh ts -> lenN ts + 2 <= idmax -> nthN ts i = Some t -> fin P ->
  (D (tv t k) (tv t (next_cw k)) P == 0)%Q ->
  (D (tv t (next_cw k)) (tv t (next_ccw k)) P < 0)%Q ->
  (D (tv t (next_ccw k)) (tv t k) P < 0)%Q ->
  split_quad_into_four ts i k (tedge t k) P [] = Ret (ts', st) ->
  exists j d, Cut4 ts ts' P i j (lenN ts) (lenN ts + 1) (tv t k) (tv t (next_cw k)) (tv t (next_ccw k)) d.
Proof.
  intros M Hmax Ht FP Z N1 N2 Hs.
  pose proof (view_at ts i t k Ht) as V1.
  assert (Hw : (0 < hw (pos P))%Q) by (rewrite hw_fin by auto; lra).
  pose proof (edge_point_neighbor px py _ _ _ _ _ _ _ _ _ M V1 Hw Z) as Hn.
  destruct (view_he _ _ _ _ _ _ _ _ V1) as (E1 & _ & _).
  destruct (glue_some _ _ M _ _ _ _ E1 Hn) as (d & n3 & n4 & V2).
  assert (Hr : rot t k = Tri (tv t k) (tv t (next_cw k)) (tv t (next_ccw k)) (tn t k) (tn t (next_cw k)) (tn t (next_ccw k))) by reflexivity.
  rewrite tedge_eq in Hs.
  set (u := tv t k) in *. set (v := tv t (next_cw k)) in *. set (c := tv t (next_ccw k)) in *.
  set (t2 := tn t k) in *. set (n1 := tn t (next_cw k)) in *. set (n2 := tn t (next_ccw k)) in *.
  destruct (split4_spec px py ts i k P [] t t2 u v c d n1 n2 n3 n4 M Ht Hmax Hr V2)
    as (ts1 & Hs1 & Hl & A & B & C & G & O).
  rewrite Hs in Hs1. injection Hs1 as <- _.
  pose proof (mesh_split4 pos ts ts' i t2 P u v c d n1 n2 n3 n4 M V1 V2 Z N1 N2 Hl Hmax A B C G O) as M'.
  pose proof (view_lt _ _ _ _ _ _ _ _ V1) as Li. pose proof (view_lt _ _ _ _ _ _ _ _ V2) as Lj.
  exists t2, d. constructor; auto.
  - do 3 eexists; eauto.
  - do 3 eexists; eauto.
  - exact (tri3_nth _ _ _ I1 A).
  - exact (tri3_nth _ _ _ I1 B).
  - exact (tri3_nth _ _ _ I1 C).
  - exact (tri3_nth _ _ _ I1 G).
  - intros j J1 J2 J3 J4 u0 v0 w. destruct (nthN ts j) as [t0|] eqn:Ht0.
    + pose proof (nthN_lt _ _ _ Ht0) as Hj. pose proof (O j J1 J2 Hj) as Ht'. rewrite Ht0 in Ht'.
      apply (tri3_same ts ts' j t0 _ Ht0 Ht'). intros k0. now rewrite !relink_tv.
    + apply nthN_None in Ht0. split; intros K; exfalso; revert K; apply tri3_none; clear - Hl Ht0 J3 J4; lia.
  - intros Q. rewrite <- Q in E1. apply (no_self _ _ M _ _ _ E1). unfold NONE; clear - Li Hmax; lia.
  - clear - Li Lj. lia.
  - intros u0 v0 w. apply tri3_none. lia.
  - intros u0 v0 w. apply tri3_none. lia.
Qed.

Lemma cut4_area ts ts' P i j l1 l2 u v c d p : fin P -> Cut4 ts ts' P i j l1 l2 u v c d -> reg ts p -> reg ts' p.
Proof.
  intros FP [M M' Z G1 G2 Ti Tj Ta Tb Tc Td Out Dij (X1 & X2 & X3 & X4 & X5) N1 N2] (e & a & b & w & Te & Fa & Fb & Fw & Hp).
  pose proof (tri3_cw _ _ _ _ _ M Ti) as Ci. pose proof (tri3_cw _ _ _ _ _ M Tj) as Cj.
  destruct (N.eq_dec e i) as [->|J1]; [|destruct (N.eq_dec e j) as [->|J2]].
  - assert (Q : fin u /\ fin v /\ fin c /\ in_closed (pos u) (pos v) (pos c) p).
    { destruct (tri3_fun _ _ _ _ _ _ _ _ Ti Te) as [(->&->&->)|[(->&->&->)|(->&->&->)]]; repeat split; auto;
        try apply Hp. }
    destruct Q as (Fu & Fv & Fc & Hq).
    destruct (split2_cover _ _ _ (pos P) Ci Z G1 G2 p Hq) as [K|K].
    + exists i, P, c, u; auto 7.
    + exists l1, P, v, c; auto 7.
  - assert (Q : fin v /\ fin u /\ fin d /\ in_closed (pos v) (pos u) (pos d) p).
    { destruct (tri3_fun _ _ _ _ _ _ _ _ Tj Te) as [(->&->&->)|[(->&->&->)|(->&->&->)]]; repeat split; auto;
        try apply Hp. }
    destruct Q as (Fv & Fu & Fd & Hq).
    destruct (split2_other _ _ _ (pos P) Ci Z G1 G2 (pos d) Cj) as (O1 & O2).
    destruct (split2_cover (pos v) (pos u) (pos d) (pos P) Cj) with (x := p) as [K|K]; auto.
    + pose proof (det_swap (pos u) (pos v) (pos P)). lra.
    + exists l2, P, d, v; auto 7.
    + exists j, P, u, d; auto 7.
  - exists e, a, b, w. split; [|auto]. apply Out; auto; intros ->; [exact (N1 _ _ _ Te)|exact (N2 _ _ _ Te)].
Qed.

Lemma cut4_linv ts ts' P i j l1 l2 u v c d :
  fin P -> fin u -> fin v -> fin c -> fin d -> ~ hascorner ts P -> all_ldel ts ->
  Cut4 ts ts' P i j l1 l2 u v c d -> exists h g, Linv ts' P h g.
Proof.
  intros FP Fu Fv Fc Fd NP AL [M M' Z G1 G2 Ti Tj Ta Tb Tc Td Out Dij (X1 & X2 & X3 & X4 & X5) N1 N2].
  pose proof (tri3_cw _ _ _ _ _ M Ti) as Ci. pose proof (tri3_cw _ _ _ _ _ M Tj) as Cj.
  destruct (plane_exists px py u v c Fu Fv Fc) as (k & Ku & Kv & Kc); [lra|].
  destruct (plane_exists px py v u d Fv Fu Fd) as (k' & Kv' & Ku' & Kd'); [lra|].
  pose proof (AL i j u v c d Ti Tj Fu Fv Fc Fd k Ku Kv Kc) as Kd.
  pose proof (ldel_sym px py u v c d Fu Fv Fc Fd Ci Cj (AL i j u v c d Ti Tj Fu Fv Fc Fd) k' Kv' Ku' Kd') as Kc'.
  pose proof (det_rot3 (pos P) (pos v) (pos c)) as (R1 & R2).
  pose proof (det_rot3 (pos u) (pos P) (pos c)) as (R3 & R4).
  pose proof (det_rot3 (pos c) (pos u) (pos P)) as (R5 & R6).
  assert (KP : (z P <= ev k P)%Q) by (apply (inside_below px py k u v c P); auto; lra).
  assert (KK : (ev k P == ev k' P)%Q).
  { pose proof (bary px py (psub k k') u v c P Fu Fv Fc FP) as Q. rewrite !ev_sub in Q.
    assert (Q1 : (ev k u - ev k' u == 0)%Q) by lra. assert (Q2 : (ev k v - ev k' v == 0)%Q) by lra.
    rewrite Q1, Q2, Z in Q.
    assert (Q3 : ((ev k P - ev k' P) * D u v c == 0)%Q) by lra.
    apply Qmult_integral in Q3. destruct Q3; lra. }
  assert (cd : c <> d).
  { intros <-. pose proof (det_swap (pos u) (pos v) (pos c)). lra. }
  pose proof (D_distinct pos _ _ _ Ci) as (uv & vc & cu). pose proof (D_distinct pos _ _ _ Cj) as (vu & ud & dv).
  assert (NT : forall j u v w, tri3 ts j u v w -> P <> u).
  { intros j0 u0 v0 w (x & y & q & V) <-. apply NP. exists j0, v0, x. exact (proj1 (view_he _ _ _ _ _ _ _ _ V)). }
  pose proof (NT _ _ _ _ Ti) as Pu. pose proof (NT _ _ _ _ (tri3_rot _ _ _ _ _ Ti)) as Pv.
  pose proof (NT _ _ _ _ (tri3_rot2 _ _ _ _ _ Ti)) as Pc. pose proof (NT _ _ _ _ (tri3_rot2 _ _ _ _ _ Tj)) as Pd.
  assert (Old : forall e u v w, tri3 ts' e u v w -> P <> u -> P <> v -> P <> w -> tri3 ts e u v w).
  { intros e u0 v0 w Te Q1 Q2 Q3. apply Out; auto; intros ->.
    - destruct (tri3_fun _ _ _ _ _ _ _ _ Ta Te) as [(?&?&?)|[(?&?&?)|(?&?&?)]]; congruence.
    - destruct (tri3_fun _ _ _ _ _ _ _ _ Tb Te) as [(?&?&?)|[(?&?&?)|(?&?&?)]]; congruence.
    - destruct (tri3_fun _ _ _ _ _ _ _ _ Tc Te) as [(?&?&?)|[(?&?&?)|(?&?&?)]]; congruence.
    - destruct (tri3_fun _ _ _ _ _ _ _ _ Td Te) as [(?&?&?)|[(?&?&?)|(?&?&?)]]; congruence. }
  assert (Star : forall e a b, tri3 ts' e P a b ->
     (e = i /\ a = c /\ b = u) \/ (e = j /\ a = u /\ b = d) \/ (e = l1 /\ a = v /\ b = c) \/ (e = l2 /\ a = d /\ b = v)).
  { intros e a b Te.
    destruct (N.eq_dec e i) as [->|J1]; [|destruct (N.eq_dec e j) as [->|J2]; [|
      destruct (N.eq_dec e l1) as [->|J3]; [|destruct (N.eq_dec e l2) as [->|J4]]]].
    - left. destruct (tri3_fun _ _ _ _ _ _ _ _ Ta Te) as [(?&?&?)|[(?&?&?)|(?&?&?)]]; auto; congruence.
    - right; left. destruct (tri3_fun _ _ _ _ _ _ _ _ Tb Te) as [(?&?&?)|[(?&?&?)|(?&?&?)]]; auto; congruence.
    - right; right; left. destruct (tri3_fun _ _ _ _ _ _ _ _ Tc Te) as [(?&?&?)|[(?&?&?)|(?&?&?)]]; auto; congruence.
    - right; right; right. destruct (tri3_fun _ _ _ _ _ _ _ _ Td Te) as [(?&?&?)|[(?&?&?)|(?&?&?)]]; auto; congruence.
    - exfalso. apply (NT e P a b); auto. now apply Out. }
  exists (upd (fun _ => k) d k'), (upd (upd (fun _ => k) j k') l2 k'). constructor.
  - intros e a b Te _ _. destruct (Star e a b Te) as [(-> & -> & ->)|[(-> & -> & ->)|[(-> & -> & ->)|(-> & -> & ->)]]].
    + rewrite !upd_other by auto. repeat split; auto; lra.
    + rewrite (upd_other _ l2) by auto. rewrite !upd_same, !upd_other by auto. repeat split; auto; lra.
    + rewrite !upd_other by auto. repeat split; auto; lra.
    + rewrite !upd_same, !upd_other by auto. repeat split; auto; lra.
  - intros e e' a b w Te Te' _ _ Fw.
    pose proof (D_distinct pos _ _ _ (tri3_cw _ _ _ _ _ M' Te)) as (Q1 & Q2 & Q3).
    assert (Pw : P <> w).
    { intros <-. pose proof (tri3_cw _ _ _ _ _ M' Te). pose proof (tri3_cw _ _ _ _ _ M' Te').
      pose proof (det_swap13 (pos P) (pos a) (pos b)). lra. }
    assert (T0 : tri3 ts e' b a w) by (apply Old; auto).
    destruct (Star e a b Te) as [(-> & -> & ->)|[(-> & -> & ->)|[(-> & -> & ->)|(-> & -> & ->)]]].
    + rewrite !upd_other by auto. apply (AL i e' c u v w (tri3_rot2 _ _ _ _ _ Ti) T0); auto.
    + rewrite (upd_other _ l2) by auto. rewrite upd_same.
      apply (AL j e' u d v w (tri3_rot _ _ _ _ _ Tj) T0); auto.
    + rewrite !upd_other by auto. apply (AL i e' v c u w (tri3_rot _ _ _ _ _ Ti) T0); auto.
    + rewrite upd_same. apply (AL j e' d v u w (tri3_rot2 _ _ _ _ _ Tj) T0); auto.
  - intros e e' a b w w' Te Te' Fa Fb Fw Fw' Q1 Q2 Q3 Q4. apply (AL e e' a b w w'); auto.
Qed.

(** ** One insertion *)
Definition cut (ts ts' : list tri) (P : N) : Prop :=
  (exists i l1 l2 a b c, Cut3 ts ts' P i l1 l2 a b c) \/
  (exists i j l1 l2 u v c d, Cut4 ts ts' P i j l1 l2 u v c d).

Lemma insert_cases fuel done s P s' :
  DInv vs px py done s -> P < lenN vs -> ~ In P done -> lenN (s_ts s) + 2 <= idmax ->
  insert_vertex fuel vs s P = Ret s' ->
  s_ts s' = s_ts s \/
  exists ts1 st, cut (s_ts s) ts1 P /\ ~ hascorner (s_ts s) P /\ Rinv vs px py ts1 P st /\
    restore_delaunay fuel ts1 vs P st = Ret (s_ts s').
Proof.
  intros DI HP Hnew Hmax H. pose proof DI as [A B C F R Mp]. pose proof A as [M I J O].
  assert (FP : fin P).
  { unfold is_finite. apply N.ltb_lt. pose proof (X_len _ _ _ X). lia. }
  assert (VP : vok P) by (intros _; auto).
  assert (NP : ~ hascorner (s_ts s) P) by (intros K; auto).
  destruct (nthN_Some vs P HP) as (p & Hp).
  unfold insert_vertex in H. unfold getN at 1 in H. rewrite Hp in H. cbn [bind] in H.
  pose proof (find_post vs px py X (s_ts s) P p (s_start s) M I Hp B) as FPost.
  destruct (find_vertex_placement p (s_start s) (s_ts s) vs) as [pl|e| |]; simpl in FPost; try contradiction.
  assert (Fin : forall ts1 st, finish_insert fuel vs (s_map s) P (ts1, st) = Ret s' ->
            restore_delaunay fuel ts1 vs P st = Ret (s_ts s')).
  { intros ts1 st K. unfold finish_insert in K. destruct (restore_delaunay fuel ts1 vs P st) as [t2| | |]; try discriminate.
    cbn [bind] in K. destruct (last_id t2) as [q| | |]; try discriminate. cbn [bind] in K. injection K as <-. reflexivity. }
  cbn [bind] in H. destruct pl as [i|i k ed|]; simpl in FPost.
  - destruct (split3_ok px py (s_ts s) i P M Hmax FPost) as (ts' & st & news & Hs & S & Hl & Hst).
    rewrite Hs in H. cbn [bind] in H. right. exists ts', st.
    destruct (split3_cut _ _ _ _ _ M Hmax FPost Hs) as (a & b & c & T).
    split; [left; do 6 eexists; eauto|]. split; auto. split; [eapply split_rinv; eauto|now apply Fin].
  - destruct FPost as (t & Ht & -> & Z & G1 & G2).
    rewrite tedge_eq in H. cbn [efrom eto] in H.
    pose proof (view_at (s_ts s) i t k Ht) as V.
    pose proof (M_cw _ _ M _ _ _ _ _ _ _ V) as CW.
    pose proof (det_rot3 (pos (tv t k)) (pos (tv t (next_cw k))) (pos (tv t (next_ccw k)))) as Rt.
    destruct (close_to_ok vs px py X (tv t k) P p (Ids_tv _ _ _ _ _ I Ht) Hp) as (b1 & Hb1 & Eb1).
    destruct (close_to_ok vs px py X (tv t (next_cw k)) P p (Ids_tv _ _ _ _ _ I Ht) Hp) as (b2 & Hb2 & Eb2).
    rewrite Hb1 in H. cbn [bind] in H. destruct b1.
    { left. destruct (record_merge (s_map s) P (tv t k)); try discriminate. cbn [bind] in H. injection H as <-. reflexivity. }
    rewrite Hb2 in H. cbn [bind] in H. destruct b2.
    { left. destruct (record_merge (s_map s) P (tv t (next_cw k))); try discriminate. cbn [bind] in H. injection H as <-. reflexivity. }
    assert (H1 : (D (tv t (next_cw k)) (tv t (next_ccw k)) P < 0)%Q).
    { apply lt_of; auto. intros Q.
      assert (K : false = true); [apply Eb2|discriminate].
      apply (at_corner px py (tv t (next_cw k)) (tv t (next_ccw k)) (tv t k)); auto. lra. }
    assert (H2 : (D (tv t (next_ccw k)) (tv t k) P < 0)%Q).
    { apply lt_of; auto. intros Q.
      assert (K : false = true); [apply Eb1|discriminate].
      apply (at_corner px py (tv t k) (tv t (next_cw k)) (tv t (next_ccw k))); auto. }
    destruct (split4_ok px py (s_ts s) i k t P M Hmax Ht FP Z H1 H2) as (ts' & st & news & Hs & S & Hl & Hst).
    pose proof Hs as Hs'. rewrite tedge_eq in Hs. rewrite Hs in H. cbn [bind] in H. right. exists ts', st.
    destruct (split4_cut _ _ _ _ _ _ _ M Hmax Ht FP Z H1 H2 Hs') as (j & d & T).
    split; [right; do 8 eexists; eauto|]. split; auto. split; [eapply split_rinv; eauto|now apply Fin].
  - discriminate.
Qed.

(** The finite area never shrinks. *)
Lemma insert_area fuel done s P s' p :
  DInv vs px py done s -> P < lenN vs -> ~ In P done -> lenN (s_ts s) + 2 <= idmax ->
  insert_vertex fuel vs s P = Ret s' -> reg (s_ts s) p -> reg (s_ts s') p.
Proof.
  intros DI HP Hnew Hmax H Hr.
  assert (FP : fin P) by (unfold is_finite; apply N.ltb_lt; pose proof (X_len _ _ _ X); lia).
  destruct (insert_cases _ _ _ _ _ DI HP Hnew Hmax H) as [->|(ts1 & st & K & _ & R & Hres)]; auto.
  apply (proj1 (restore_linv P FP (fun _ => HP) fuel ts1 st _ R Hres)).
  destruct K as [(i & l1 & l2 & a & b & c & T)|(i & j & l1 & l2 & u & v & c & d & T)].
  - eapply cut3_area; eauto.
  - eapply cut4_area; eauto.
Qed.

(** P is in the interior of the finite area. *)
Definition inner (ts : list tri) (P : N) : Prop :=
  exists r, (0 < r)%Q /\ forall x y, (- r <= x - px P <= r)%Q -> (- r <= y - py P <= r)%Q -> reg ts (P3 x y 1).

(** A point of an open triangle arbitrarily close to a point of the relative interior of
    one of its edges. *)
Lemma near_inside u v c P r : fin P -> (0 < r)%Q ->
  (D u v c < 0)%Q -> (D u v P <= 0)%Q -> (D v c P < 0)%Q -> (D c u P < 0)%Q ->
  exists x y, (- r <= x - px P <= r)%Q /\ (- r <= y - py P <= r)%Q /\
    in_open (pos u) (pos v) (pos c) (P3 x y 1).
Proof.
  intros FP Hr C H1 H2 H3.
  (* the direction of the third corner from P *)
  set (w := hw (pos c)). set (dx := (hx (pos c) - w * px P)%Q). set (dy := (hy (pos c) - w * py P)%Q).
  assert (Dt : forall a b t, (det (pos a) (pos b) (P3 (px P + t * dx) (py P + t * dy) 1) ==
                (1 - t * w) * D a b P + t * D a b c)%Q).
  { intros a b t. rewrite (hpos_fin px py P FP). unfold det, dx, dy, w; simpl. ring. }
  assert (W : (0 <= w <= 1)%Q) by (unfold w; destruct (hw_cases px py c) as [(_ & Q)|(_ & Q)]; rewrite Q; lra).
  destruct (small_delta [(- r, dx); (- r, - dx); (- r, dy); (- r, - dy); (- (1), 2)]%Q) as (t & Ht & Hall).
  { intros q K. simpl in K. decompose [or] K; subst; simpl; try lra; contradiction. }
  specialize (Hall t Ht (Qle_refl t)).
  pose proof (Hall (- r, dx)%Q (or_introl eq_refl)) as K1.
  pose proof (Hall (- r, - dx)%Q (or_intror (or_introl eq_refl))) as K2.
  pose proof (Hall (- r, dy)%Q (or_intror (or_intror (or_introl eq_refl)))) as K3.
  pose proof (Hall (- r, - dy)%Q (or_intror (or_intror (or_intror (or_introl eq_refl))))) as K4.
  pose proof (Hall (- (1), 2)%Q (or_intror (or_intror (or_intror (or_intror (or_introl eq_refl)))))) as K5.
  cbn [fst snd] in *. clear Hall.
  exists (px P + t * dx)%Q, (py P + t * dy)%Q.
  split; [lra|]. split; [lra|].
  assert (S : (0 < 1 - t * w)%Q) by nra.
  pose proof (det_zero (pos c) (pos v)) as (Z1 & Z2 & Z3). pose proof (det_zero (pos c) (pos u)) as (Z4 & Z5 & Z6).
  repeat split; rewrite Dt.
  - nra.
  - rewrite Z3. nra.
  - rewrite Z5. nra.
Qed.

(** The triangles that such a vertex splits are finite. *)
Lemma inner_excl ts i a b c x y : tri3 ts i a b c -> Mesh ts ->
  in_open (pos a) (pos b) (pos c) (P3 x y 1) -> reg ts (P3 x y 1) -> fin a /\ fin b /\ fin c.
Proof.
  clear. intros T M Ho (j & u & v & w & Tj & Fu & Fv & Fw & Hc).
  destruct T as (n1 & n2 & n3 & V). pose proof Tj as (m1 & m2 & m3 & Vj).
  assert (i = j).
  { apply (open_closed_excl _ _ M i j (P3 x y 1)).
    - now apply (inT_view _ _ _ _ _ _ _ _ _ _ V).
    - now apply (inC_view _ _ _ _ _ _ _ _ _ _ Vj). }
  subst j. destruct (view_fun _ _ _ _ _ _ _ _ _ _ _ _ _ _ V Vj) as [Q|[Q|Q]];
    destruct Q as (-> & -> & -> & _); auto.
Qed.

Lemma inner_cut3 ts ts' P i l1 l2 a b c : fin P -> inner ts P -> Cut3 ts ts' P i l1 l2 a b c ->
  fin a /\ fin b /\ fin c.
Proof.
  intros FP (r & Hr & In_) T. pose proof (T_in _ _ _ _ _ _ _ _ _ T) as Ho. rewrite (hpos_fin px py P FP) in Ho.
  refine (inner_excl _ _ _ _ _ _ _ (T_old _ _ _ _ _ _ _ _ _ T) (T_mesh _ _ _ _ _ _ _ _ _ T) Ho _). apply In_; lra.
Qed.

Lemma inner_cut4 ts ts' P i j l1 l2 u v c d : fin P -> inner ts P -> Cut4 ts ts' P i j l1 l2 u v c d ->
  fin u /\ fin v /\ fin c /\ fin d.
Proof.
  intros FP (r & Hr & In_) [M M' Z G1 G2 Ti Tj _ _ _ _ _ _ _ _ _].
  pose proof (tri3_cw _ _ _ _ _ M Ti) as Ci. pose proof (tri3_cw _ _ _ _ _ M Tj) as Cj.
  destruct (near_inside u v c P r FP Hr Ci) as (x & y & B1 & B2 & Ho); auto; [lra|].
  destruct (inner_excl _ _ _ _ _ _ _ Ti M Ho (In_ x y B1 B2)) as (Fu & Fv & Fc).
  destruct (split2_other _ _ _ (pos P) Ci Z G1 G2 (pos d) Cj) as (O1 & O2).
  pose proof (det_swap (pos u) (pos v) (pos P)) as Sw.
  destruct (near_inside v u d P r FP Hr Cj) as (x' & y' & B1' & B2' & Ho'); auto; [lra|].
  destruct (inner_excl _ _ _ _ _ _ _ Tj M Ho' (In_ x' y' B1' B2')) as (_ & _ & Fd). auto.
Qed.

(** ** Inside the finite area the area does not grow *)
Lemma sub_closed a b c p q r x : (det p q r < 0)%Q ->
  in_closed a b c p -> in_closed a b c q -> in_closed a b c r -> in_closed p q r x -> in_closed a b c x.
Proof.
  intros C (P1 & P2 & P3) (Q1 & Q2 & Q3) (R1 & R2 & R3) H.
  repeat split; eapply (bary_nonpos p q r x); eauto.
Qed.

Lemma swap_star ts ts' P x y a b c : fin P -> Ids ts -> Swapped ts ts' P x y a b c -> held ts P ->
  held ts' P /\ forall p, reg ts' p -> reg ts p.
Proof.
  intros FP I W Hh. destruct (held_swap _ _ _ _ _ _ _ _ FP I W Hh) as (Fa & Fb & Hh').
  destruct (swap_facts _ _ _ _ _ _ _ _ FP I W) as (C1 & C2 & C3 & C4 & Pa & Pb & Pc & ab & ac & bc).
  destruct W as [M M' Hxy Wx Wy Wx' Wy' Wo Fc _]. split; [exact Hh'|].
  intros p (i & u & v & w & T & Fu & Fv & Fw & Hp).
  pose proof (det_rot3 (pos P) (pos a) (pos c)) as (R1 & R2).
  pose proof (det_rot3 (pos P) (pos c) (pos b)) as (R3 & R4).
  pose proof (det_rot3 (pos b) (pos a) (pos c)) as (R5 & R6).
  pose proof (det_rot3 (pos P) (pos a) (pos b)) as (R7 & R8).
  assert (Main : in_closed (pos a) (pos c) (pos P) p \/ in_closed (pos P) (pos c) (pos b) p -> reg ts p).
  { assert (E1 : (det (pos a) (pos c) (pos P) < 0)%Q) by lra.
    assert (E2 : (det (pos a) (pos c) (pos b) < 0)%Q) by lra.
    assert (E3 : (det (pos a) (pos b) (pos P) < 0)%Q) by lra.
    intros [H|H].
    - destruct (flip_cover1 (pos c) (pos P) (pos b) (pos a) E1 C4 E2 E3 p H) as [K|K].
      + exists y, b, a, c. repeat split; auto; apply K.
      + exists x, P, a, b. repeat split; auto; apply K.
    - destruct (flip_cover2 (pos c) (pos P) (pos b) (pos a) E1 C4 E2 E3 p H) as [K|K].
      + exists y, b, a, c. repeat split; auto; apply K.
      + exists x, P, a, b. repeat split; auto; apply K. }
  destruct (N.eq_dec i x) as [->|J1]; [|destruct (N.eq_dec i y) as [->|J2]].
  + apply Main. left. destruct (tri3_fun _ _ _ _ _ _ _ _ Wx' T) as [(->&->&->)|[(->&->&->)|(->&->&->)]];
      repeat split; apply Hp.
  + apply Main. right. destruct (tri3_fun _ _ _ _ _ _ _ _ Wy' T) as [(->&->&->)|[(->&->&->)|(->&->&->)]];
      repeat split; apply Hp.
  + exists i, u, v, w. split; [now apply Wo|auto].
Qed.

Lemma restore_star P : fin P -> vok P -> forall fuel ts st ts',
  Rinv vs px py ts P st -> restore_delaunay fuel ts vs P st = Ret ts' -> held ts P ->
  forall p, reg ts' p -> reg ts p.
Proof.
  intros FP VP. induction fuel as [|fuel IH]; intros ts st ts' R H SF.
  - destruct st as [|(x, y) st]; simpl in H; [injection H as <-; auto|discriminate].
  - destruct st as [|(x, y) st]; simpl in H; [injection H as <-; auto|].
    destruct (check_and_swap ts vs P x y st) as [(ts1, st1)| | |] eqn:Hc; try discriminate. cbn [bind] in H.
    destruct (check_and_swap_step ts P x y st ts1 st1 FP VP R Hc) as (R1 & _ & K).
    destruct K as [(-> & ->)|(_ & _ & a & b & c & W)]; [eauto|].
    destruct (swap_star _ _ _ _ _ _ _ _ FP (R_ids _ _ _ _ _ _ R) W SF) as (SF1 & A1).
    intros p Hp. apply A1. exact (IH ts1 st1 ts' R1 H SF1 p Hp).
Qed.

Lemma cut3_star ts ts' P i l1 l2 a b c : fin a -> fin b -> fin c -> ~ hascorner ts P ->
  Cut3 ts ts' P i l1 l2 a b c -> star_fin ts' P /\ forall p, reg ts' p -> reg ts p.
Proof.
  intros Fa Fb Fc NP [M M' Hin T Ta Tb Tc Out N1 N2].
  pose proof (tri3_cw _ _ _ _ _ M T) as C.
  destruct (closed_corner _ _ _ C) as (K1 & K2 & K3). pose proof (in_open_closed _ _ _ _ Hin) as K4.
  assert (Old : forall e u v w, tri3 ts' e u v w -> e <> i -> e <> l1 -> e <> l2 -> tri3 ts e u v w) by (intros; now apply Out).
  pose proof (tri3_cw _ _ _ _ _ M' Ta) as Ca. pose proof (tri3_cw _ _ _ _ _ M' Tb) as Cb.
  pose proof (tri3_cw _ _ _ _ _ M' Tc) as Cc.
  destruct (D_distinct pos _ _ _ Ca) as (q1 & q2 & q3). destruct (D_distinct pos _ _ _ Cb) as (q4 & q5 & q6).
  destruct (D_distinct pos _ _ _ Cc) as (q7 & q8 & q9).
  assert (Any : forall e u v w, tri3 ts' e u v w -> e = i \/ e = l1 \/ e = l2 \/ tri3 ts e u v w).
  { intros e u v w Te. destruct (N.eq_dec e i); auto. destruct (N.eq_dec e l1); auto. destruct (N.eq_dec e l2); auto. }
  split.
  - intros e u v Te. destruct (Any _ _ _ _ Te) as [->|[->|[->|To]]].
    + destruct (tri3_fun _ _ _ _ _ _ _ _ Ta Te) as [(?&?&?)|[(?&?&?)|(?&?&?)]]; subst; auto; congruence.
    + destruct (tri3_fun _ _ _ _ _ _ _ _ Tb Te) as [(?&?&?)|[(?&?&?)|(?&?&?)]]; subst; auto; congruence.
    + destruct (tri3_fun _ _ _ _ _ _ _ _ Tc Te) as [(?&?&?)|[(?&?&?)|(?&?&?)]]; subst; auto; congruence.
    + exfalso. apply NP. destruct To as (n1 & n2 & n3 & V). destruct (view_he _ _ _ _ _ _ _ _ V) as (h & _).
      exists e. eexists; eexists; eauto.
  - intros p (e & u & v & w & Te & Fu & Fv & Fw & Hp).
    assert (Sub : in_closed (pos a) (pos b) (pos c) p -> reg ts p) by (intros K; exists i, a, b, c; auto 7).
    destruct (Any _ _ _ _ Te) as [->|[->|[->|To]]].
    + apply Sub, (sub_closed _ _ _ (pos P) (pos c) (pos a)); auto.
      destruct (tri3_fun _ _ _ _ _ _ _ _ Ta Te) as [(->&->&->)|[(->&->&->)|(->&->&->)]]; repeat split; apply Hp.
    + apply Sub, (sub_closed _ _ _ (pos P) (pos b) (pos c)); auto.
      destruct (tri3_fun _ _ _ _ _ _ _ _ Tb Te) as [(->&->&->)|[(->&->&->)|(->&->&->)]]; repeat split; apply Hp.
    + apply Sub, (sub_closed _ _ _ (pos P) (pos a) (pos b)); auto.
      destruct (tri3_fun _ _ _ _ _ _ _ _ Tc Te) as [(->&->&->)|[(->&->&->)|(->&->&->)]]; repeat split; apply Hp.
    + exists e, u, v, w. auto 7.
Qed.

Lemma cut4_star ts ts' P i j l1 l2 u v c d : fin u -> fin v -> fin c -> fin d -> ~ hascorner ts P ->
  Cut4 ts ts' P i j l1 l2 u v c d -> star_fin ts' P /\ forall p, reg ts' p -> reg ts p.
Proof.
  intros Fu Fv Fc Fd NP [M M' Z G1 G2 Ti Tj Ta Tb Tc Td Out Dij (X1 & X2 & X3 & X4 & X5) N1 N2].
  pose proof (tri3_cw _ _ _ _ _ M Ti) as Ci. pose proof (tri3_cw _ _ _ _ _ M Tj) as Cj.
  destruct (split2_other _ _ _ (pos P) Ci Z G1 G2 (pos d) Cj) as (O1 & O2).
  destruct (closed_corner _ _ _ Ci) as (K1 & K2 & K3). destruct (closed_corner _ _ _ Cj) as (L1 & L2 & L3).
  pose proof (det_swap (pos u) (pos v) (pos P)) as Sw.
  assert (K4 : in_closed (pos u) (pos v) (pos c) (pos P)) by (repeat split; lra).
  assert (L4 : in_closed (pos v) (pos u) (pos d) (pos P)) by (repeat split; lra).
  pose proof (tri3_cw _ _ _ _ _ M' Ta) as Ca. pose proof (tri3_cw _ _ _ _ _ M' Tb) as Cb.
  pose proof (tri3_cw _ _ _ _ _ M' Tc) as Cc. pose proof (tri3_cw _ _ _ _ _ M' Td) as Cd.
  destruct (D_distinct pos _ _ _ Ca) as (q1 & q2 & q3). destruct (D_distinct pos _ _ _ Cb) as (q4 & q5 & q6).
  destruct (D_distinct pos _ _ _ Cc) as (q7 & q8 & q9). destruct (D_distinct pos _ _ _ Cd) as (q10 & q11 & q12).
  assert (Any : forall e x y w, tri3 ts' e x y w -> e = i \/ e = j \/ e = l1 \/ e = l2 \/ tri3 ts e x y w).
  { intros e x y w Te. destruct (N.eq_dec e i); auto. destruct (N.eq_dec e j); auto.
    destruct (N.eq_dec e l1); auto. destruct (N.eq_dec e l2); auto. do 4 right. now apply Out. }
  split.
  - intros e x y Te. destruct (Any _ _ _ _ Te) as [->|[->|[->|[->|To]]]].
    + destruct (tri3_fun _ _ _ _ _ _ _ _ Ta Te) as [(?&?&?)|[(?&?&?)|(?&?&?)]]; subst; auto; congruence.
    + destruct (tri3_fun _ _ _ _ _ _ _ _ Tb Te) as [(?&?&?)|[(?&?&?)|(?&?&?)]]; subst; auto; congruence.
    + destruct (tri3_fun _ _ _ _ _ _ _ _ Tc Te) as [(?&?&?)|[(?&?&?)|(?&?&?)]]; subst; auto; congruence.
    + destruct (tri3_fun _ _ _ _ _ _ _ _ Td Te) as [(?&?&?)|[(?&?&?)|(?&?&?)]]; subst; auto; congruence.
    + exfalso. apply NP. destruct To as (n1 & n2 & n3 & V). destruct (view_he _ _ _ _ _ _ _ _ V) as (h & _).
      exists e. eexists; eexists; eauto.
  - intros p (e & x & y & w & Te & Fx & Fy & Fw & Hp).
    assert (Sub : in_closed (pos u) (pos v) (pos c) p -> reg ts p) by (intros K; exists i, u, v, c; auto 7).
    assert (Sub' : in_closed (pos v) (pos u) (pos d) p -> reg ts p) by (intros K; exists j, v, u, d; auto 7).
    destruct (Any _ _ _ _ Te) as [->|[->|[->|[->|To]]]].
    + apply Sub, (sub_closed _ _ _ (pos P) (pos c) (pos u)); auto.
      destruct (tri3_fun _ _ _ _ _ _ _ _ Ta Te) as [(->&->&->)|[(->&->&->)|(->&->&->)]]; repeat split; apply Hp.
    + apply Sub', (sub_closed _ _ _ (pos P) (pos u) (pos d)); auto.
      destruct (tri3_fun _ _ _ _ _ _ _ _ Tb Te) as [(->&->&->)|[(->&->&->)|(->&->&->)]]; repeat split; apply Hp.
    + apply Sub, (sub_closed _ _ _ (pos P) (pos v) (pos c)); auto.
      destruct (tri3_fun _ _ _ _ _ _ _ _ Tc Te) as [(->&->&->)|[(->&->&->)|(->&->&->)]]; repeat split; apply Hp.
    + apply Sub', (sub_closed _ _ _ (pos P) (pos d) (pos v)); auto.
      destruct (tri3_fun _ _ _ _ _ _ _ _ Td Te) as [(->&->&->)|[(->&->&->)|(->&->&->)]]; repeat split; apply Hp.
    + exists e, x, y, w. auto 7.
Qed.

(** P is on an edge of the border of the area. *)
Lemma half_cut ts ts' P e0 u v c : Mesh ts -> Mesh ts' -> fin P -> fin u -> fin v -> fin c ->
  (D u v P == 0)%Q -> (D v c P < 0)%Q -> (D c u P < 0)%Q -> tri3 ts e0 u v c -> ~ hascorner ts P -> wborder ts P ->
  (forall e a b w, tri3 ts' e a b w -> fin a -> fin b -> fin w ->
     tri3 ts e a b w \/ tri3 ts' e P c u \/ tri3 ts' e P v c) ->
  (forall e a b w, tri3 ts' e a b w -> fin a -> fin b -> is_finite w = false -> tri3 ts e a b w \/ a = P \/ b = P) ->
  held ts' P /\ (forall p, reg ts' p -> reg ts p) /\ (all_ldel ts -> exists h g, Linv ts' P h g).
Proof.
  intros M M' FP Fu Fv Fc Z G1 G2 T NP WB OF OI.
  pose proof (tri3_cw _ _ _ _ _ M T) as C.
  assert (NT : forall e a b w, tri3 ts e a b w -> P <> a).
  { intros e a b w (x & y & q & V) <-. apply NP. exists e, b, x. exact (proj1 (view_he _ _ _ _ _ _ _ _ V)). }
  pose proof (NT _ _ _ _ T) as Pu. pose proof (NT _ _ _ _ (tri3_rot _ _ _ _ _ T)) as Pv.
  pose proof (NT _ _ _ _ (tri3_rot2 _ _ _ _ _ T)) as Pc.
  pose proof (D_distinct pos _ _ _ C) as (uv & vc & cu).
  pose proof (det_rot3 (pos P) (pos v) (pos c)) as (R1 & R2).
  pose proof (det_rot3 (pos u) (pos P) (pos c)) as (R3 & R4).
  pose proof (det_rot3 (pos c) (pos u) (pos P)) as (R5 & R6).
  split; [|split].
  - right. intros e a b w Te Fa Fb Iw. destruct (OI e a b w Te Fa Fb Iw) as [K|[->| ->]].
    + exact (WB e a b w K Fa Fb Iw).
    + assert (Q : (D P b P == 0)%Q) by (unfold det; ring). lra.
    + assert (Q : (D a P P == 0)%Q) by (unfold det; ring). lra.
  - destruct (closed_corner _ _ _ C) as (K1 & K2 & K3).
    assert (K4 : in_closed (pos u) (pos v) (pos c) (pos P)) by (repeat split; lra).
    intros p (e & a & b & w & Te & Fa & Fb & Fw & Hp).
    assert (Sub : in_closed (pos u) (pos v) (pos c) p -> reg ts p) by (intros K; exists e0, u, v, c; auto 7).
    destruct (OF e a b w Te Fa Fb Fw) as [K|[K|K]].
    + exists e, a, b, w. auto 7.
    + apply Sub, (sub_closed _ _ _ (pos P) (pos c) (pos u)); auto; [exact (tri3_cw _ _ _ _ _ M' K)|].
      destruct (tri3_fun _ _ _ _ _ _ _ _ K Te) as [(->&->&->)|[(->&->&->)|(->&->&->)]]; repeat split; apply Hp.
    + apply Sub, (sub_closed _ _ _ (pos P) (pos v) (pos c)); auto; [exact (tri3_cw _ _ _ _ _ M' K)|].
      destruct (tri3_fun _ _ _ _ _ _ _ _ K Te) as [(->&->&->)|[(->&->&->)|(->&->&->)]]; repeat split; apply Hp.
  - intros AL. destruct (plane_exists px py u v c Fu Fv Fc) as (k & Ku & Kv & Kc); [lra|].
    assert (KP : (z P <= ev k P)%Q) by (apply (inside_below px py k u v c P); auto; lra).
    assert (Old : forall e a b w, tri3 ts' e a b w -> fin a -> fin b -> fin w -> P <> a -> P <> b -> P <> w -> tri3 ts e a b w).
    { intros e a b w Te Fa Fb Fw Q1 Q2 Q3. destruct (OF e a b w Te Fa Fb Fw) as [K|[K|K]]; auto; exfalso;
        destruct (tri3_fun _ _ _ _ _ _ _ _ K Te) as [(?&?&?)|[(?&?&?)|(?&?&?)]]; congruence. }
    assert (Star : forall e a b, tri3 ts' e P a b -> fin a -> fin b -> (a = c /\ b = u) \/ (a = v /\ b = c)).
    { intros e a b Te Fa Fb. destruct (OF e P a b Te FP Fa Fb) as [K|[K|K]].
      - exfalso. exact (NT _ _ _ _ K eq_refl).
      - left. destruct (tri3_fun _ _ _ _ _ _ _ _ K Te) as [(?&?&?)|[(?&?&?)|(?&?&?)]]; auto; congruence.
      - right. destruct (tri3_fun _ _ _ _ _ _ _ _ K Te) as [(?&?&?)|[(?&?&?)|(?&?&?)]]; auto; congruence. }
    exists (fun _ => k), (fun _ => k). constructor.
    + intros e a b Te Fa Fb. destruct (Star e a b Te Fa Fb) as [(-> & ->)|(-> & ->)]; repeat split; auto; lra.
    + intros e e' a b w Te Te' Fa Fb Fw.
      pose proof (D_distinct pos _ _ _ (tri3_cw _ _ _ _ _ M' Te)) as (Q1 & Q2 & Q3).
      assert (Pw : P <> w).
      { intros <-. pose proof (tri3_cw _ _ _ _ _ M' Te). pose proof (tri3_cw _ _ _ _ _ M' Te').
        pose proof (det_swap13 (pos P) (pos a) (pos b)). lra. }
      assert (T0 : tri3 ts e' b a w) by (apply Old; auto).
      destruct (Star e a b Te Fa Fb) as [(-> & ->)|(-> & ->)].
      * apply (AL e0 e' c u v w (tri3_rot2 _ _ _ _ _ T) T0); auto.
      * apply (AL e0 e' v c u w (tri3_rot _ _ _ _ _ T) T0); auto.
    + intros e e' a b w d Te Te' Fa Fb Fw Fd Q1 Q2 Q3 Q4. apply (AL e e' a b w d); auto.
Qed.

Lemma cut4_half ts ts' P i j l1 l2 u v c d : fin P -> fin u -> fin v -> (fin c /\ is_finite d = false) \/ (is_finite c = false /\ fin d) ->
  ~ hascorner ts P -> wborder ts P -> Cut4 ts ts' P i j l1 l2 u v c d ->
  held ts' P /\ (forall p, reg ts' p -> reg ts p) /\ (all_ldel ts -> exists h g, Linv ts' P h g).
Proof.
  intros FP Fu Fv Hcd NP WB [M M' Z G1 G2 Ti Tj Ta Tb Tc Td Out Dij (X1 & X2 & X3 & X4 & X5) N1 N2].
  pose proof (tri3_cw _ _ _ _ _ M Ti) as Ci. pose proof (tri3_cw _ _ _ _ _ M Tj) as Cj.
  destruct (split2_other _ _ _ (pos P) Ci Z G1 G2 (pos d) Cj) as (O1 & O2).
  pose proof (det_swap (pos u) (pos v) (pos P)) as Sw.
  assert (Any : forall e x y w, tri3 ts' e x y w -> e = i \/ e = j \/ e = l1 \/ e = l2 \/ tri3 ts e x y w).
  { intros e x y w Te. destruct (N.eq_dec e i); auto. destruct (N.eq_dec e j); auto.
    destruct (N.eq_dec e l1); auto. destruct (N.eq_dec e l2); auto. do 4 right. now apply Out. }
  assert (Inf : forall e a b w q, tri3 ts' e a b w -> fin a -> fin b -> fin w -> is_finite q = false ->
            (exists x y, tri3 ts' e x q y) \/ (exists x y, tri3 ts' e x y q) -> False).
  { intros e a b w q Te Fa Fb Fw Iq [(x & y & K)|(x & y & K)];
      destruct (tri3_fun _ _ _ _ _ _ _ _ K Te) as [(?&?&?)|[(?&?&?)|(?&?&?)]]; congruence. }
  assert (One : forall e a b w q, tri3 ts' e a b w -> fin a -> fin b -> is_finite w = false -> fin q ->
            tri3 ts' e P q w \/ tri3 ts' e P w q -> a = P \/ b = P).
  { intros e a b w q Te Fa Fb Iw Fq [K|K];
      destruct (tri3_fun _ _ _ _ _ _ _ _ K Te) as [(?&?&?)|[(?&?&?)|(?&?&?)]]; subst; auto; congruence. }
  destruct Hcd as [(Fc & Id)|(Ic & Fd)].
  - apply (half_cut ts ts' P i u v c); auto.
    + intros e a b w Te Fa Fb Fw. destruct (Any _ _ _ _ Te) as [->|[->|[->|[->|To]]]]; auto; exfalso.
      * apply (Inf j a b w d Te Fa Fb Fw Id). right. eauto.
      * apply (Inf l2 a b w d Te Fa Fb Fw Id). left. eauto.
    + intros e a b w Te Fa Fb Iw. destruct (Any _ _ _ _ Te) as [->|[->|[->|[->|To]]]]; auto; right.
      * destruct (tri3_fun _ _ _ _ _ _ _ _ Ta Te) as [(?&?&?)|[(?&?&?)|(?&?&?)]]; subst; congruence.
      * destruct (tri3_fun _ _ _ _ _ _ _ _ Tb Te) as [(?&?&?)|[(?&?&?)|(?&?&?)]]; subst; auto; congruence.
      * destruct (tri3_fun _ _ _ _ _ _ _ _ Tc Te) as [(?&?&?)|[(?&?&?)|(?&?&?)]]; subst; congruence.
      * destruct (tri3_fun _ _ _ _ _ _ _ _ Td Te) as [(?&?&?)|[(?&?&?)|(?&?&?)]]; subst; auto; congruence.
  - apply (half_cut ts ts' P j v u d); auto.
    + lra.
    + intros e a b w Te Fa Fb Fw. destruct (Any _ _ _ _ Te) as [->|[->|[->|[->|To]]]]; auto; exfalso.
      * apply (Inf i a b w c Te Fa Fb Fw Ic). left. eauto.
      * apply (Inf l1 a b w c Te Fa Fb Fw Ic). right. eauto.
    + intros e a b w Te Fa Fb Iw. destruct (Any _ _ _ _ Te) as [->|[->|[->|[->|To]]]]; auto; right.
      * destruct (tri3_fun _ _ _ _ _ _ _ _ Ta Te) as [(?&?&?)|[(?&?&?)|(?&?&?)]]; subst; auto; congruence.
      * destruct (tri3_fun _ _ _ _ _ _ _ _ Tb Te) as [(?&?&?)|[(?&?&?)|(?&?&?)]]; subst; congruence.
      * destruct (tri3_fun _ _ _ _ _ _ _ _ Tc Te) as [(?&?&?)|[(?&?&?)|(?&?&?)]]; subst; auto; congruence.
      * destruct (tri3_fun _ _ _ _ _ _ _ _ Td Te) as [(?&?&?)|[(?&?&?)|(?&?&?)]]; subst; congruence.
Qed.

(** P is in the interior of the area, or in the area and on the inner side of its border. *)
Definition placed (ts : list tri) (P : N) : Prop := inner ts P \/ (reg ts (pos P) /\ wborder ts P).

Lemma cut_placed ts ts' P : fin P -> ~ hascorner ts P -> placed ts P -> cut ts ts' P ->
  held ts' P /\ (forall p, reg ts' p -> reg ts p) /\ (all_ldel ts -> exists h g, Linv ts' P h g).
Proof.
  intros FP NP Hp [(i & l1 & l2 & a & b & c & T)|(i & j & l1 & l2 & u & v & c & d & T)].
  - assert (F : fin a /\ fin b /\ fin c).
    { destruct Hp as [In_|(Rg & _)]; [exact (inner_cut3 _ _ _ _ _ _ _ _ _ FP In_ T)|].
      pose proof (T_in _ _ _ _ _ _ _ _ _ T) as Ho. rewrite (hpos_fin px py P FP) in Ho, Rg.
      exact (inner_excl _ _ _ _ _ _ _ (T_old _ _ _ _ _ _ _ _ _ T) (T_mesh _ _ _ _ _ _ _ _ _ T) Ho Rg). }
    destruct F as (Fa & Fb & Fc). destruct (cut3_star _ _ _ _ _ _ _ _ _ Fa Fb Fc NP T) as (SF & A).
    split; [now left|]. split; auto. intros AL. exact (cut3_linv _ _ _ _ _ _ _ _ _ FP Fa Fb Fc NP AL T).
  - assert (Full : fin u -> fin v -> fin c -> fin d ->
      held ts' P /\ (forall p, reg ts' p -> reg ts p) /\ (all_ldel ts -> exists h g, Linv ts' P h g)).
    { intros Fu Fv Fc Fd. destruct (cut4_star _ _ _ _ _ _ _ _ _ _ _ Fu Fv Fc Fd NP T) as (SF & A).
      split; [now left|]. split; auto. intros AL. exact (cut4_linv _ _ _ _ _ _ _ _ _ _ _ FP Fu Fv Fc Fd NP AL T). }
    destruct Hp as [In_|(Rg & WB)].
    { destruct (inner_cut4 _ _ _ _ _ _ _ _ _ _ _ FP In_ T) as (Fu & Fv & Fc & Fd). auto. }
    pose proof T as [M M' Z G1 G2 Ti Tj _ _ _ _ _ _ _ _ _].
    destruct Rg as (e & x & y & w & Te & Fx & Fy & Fw & Hc).
    assert (He : inC pos ts e (pos P)) by (destruct Te as (m1 & m2 & m3 & Ve); now apply (inC_view _ _ _ _ _ _ _ _ _ _ Ve)).
    assert (Hq : (0 < hw (pos P))%Q) by (rewrite hw_fin by auto; lra).
    assert (K : (fin u /\ fin v /\ fin c) \/ (fin v /\ fin u /\ fin d)).
    { destruct Ti as (n1 & n2 & n3 & V). destruct (edge_excl px py ts i u v c n1 n2 n3 (pos P) e M V Hq Z G1 G2 He) as [->| ->].
      - left. assert (Ti : tri3 ts i u v c) by (exists n1, n2, n3; auto).
        destruct (tri3_fun _ _ _ _ _ _ _ _ Te Ti) as [Q|[Q|Q]]; destruct Q as (-> & -> & ->); auto.
      - right. destruct Tj as (m1 & m2 & m3 & V').
        assert (n1 = j).
        { destruct (view_he _ _ _ _ _ _ _ _ V) as (H1 & _). destruct (view_he _ _ _ _ _ _ _ _ V') as (H2 & _).
          pose proof (glue_some _ _ M _ _ _ _ H1 (edge_point_neighbor px py _ _ _ _ _ _ _ _ _ M V Hq Z)) as H3.
          exact (edge_share _ _ M _ _ _ _ _ _ H3 H2). }
        subst n1. assert (Tj : tri3 ts j v u d) by (exists m1, m2, m3; auto).
        destruct (tri3_fun _ _ _ _ _ _ _ _ Te Tj) as [Q|[Q|Q]]; destruct Q as (-> & -> & ->); auto. }
    destruct (is_finite c) eqn:Ec, (is_finite d) eqn:Ed.
    + apply Full; tauto.
    + apply (cut4_half ts ts' P i j l1 l2 u v c d); try tauto. 
    + apply (cut4_half ts ts' P i j l1 l2 u v c d); try tauto.
    + exfalso. destruct K as [(_ & _ & K)|(_ & _ & K)]; congruence.
Qed.

Lemma insert_ldel fuel done s P s' :
  DInv vs px py done s -> P < lenN vs -> ~ In P done -> lenN (s_ts s) + 2 <= idmax ->
  insert_vertex fuel vs s P = Ret s' -> MInv vs px py (s_ts s') -> legal_around vs (s_ts s') P \/ s_ts s' = s_ts s ->
  placed (s_ts s) P -> all_ldel (s_ts s) -> all_ldel (s_ts s').
Proof.
  intros DI HP Hnew Hmax H MI Lg In_ AL.
  assert (FP : fin P) by (unfold is_finite; apply N.ltb_lt; pose proof (X_len _ _ _ X); lia).
  destruct (insert_cases _ _ _ _ _ DI HP Hnew Hmax H) as [->|(ts1 & st & K & NP & R & Hres)]; auto.
  destruct Lg as [Lg| ->]; auto.
  destruct (cut_placed _ _ _ FP NP In_ K) as (Hh & _ & LI). specialize (LI AL).
  destruct (proj2 (restore_linv P FP (fun _ => HP) fuel ts1 st _ R Hres) Hh LI) as (h & g & L).
  apply (final_ldel _ P h g FP (I_mesh _ _ _ _ MI) L).
  intros i j a b c T T' Fa Fb Fc. apply ldel_circle.
  intros Hc.
  destruct T as (x & y & w & V). destruct T' as (x' & y' & w' & V').
  pose proof (I_mesh _ _ _ _ MI) as M. pose proof (I_ids _ _ _ _ MI) as I.
  assert (y = j).
  { destruct (view_he _ _ _ _ _ _ _ _ V) as (_ & H1 & _). destruct (view_he _ _ _ _ _ _ _ _ V') as (H2 & _).
    destruct (M_glue _ _ M _ _ _ _ H1) as [(_ & Q & _)|G].
    - rewrite inf_not_fin, Fa in Q. discriminate.
    - exact (edge_share _ _ M _ _ _ _ _ _ G H2). }
  subst j. pose proof (Lg _ _ _ _ _ _ _ _ _ _ V V') as S.
  destruct (Ids_view _ _ _ _ _ _ _ _ _ I V) as (VP & Va & Vb).
  destruct (Ids_view _ _ _ _ _ _ _ _ _ I V') as (_ & _ & Vc).
  destruct (get_vertex vs P VP FP) as (pP & GP & NP'). destruct (get_vertex vs a Va Fa) as (pa & Ga & Na).
  destruct (get_vertex vs b Vb Fb) as (pb & Gb & Nb). destruct (get_vertex vs c Vc Fc) as (pc & Gc & Nc).
  unfold should_swap_diagonals in S. cbn [q1 q2 q3 q4] in S.
  rewrite inf_not_fin, Fa, Fb, Fc in S. cbn [negb andb] in S. rewrite Ga in S; cbn [bind] in S.
  rewrite Gb in S; cbn [bind] in S. rewrite Gc in S; cbn [bind] in S. rewrite GP in S; cbn [bind] in S.
  injection S as S.
  pose proof (M_cw _ _ M _ _ _ _ _ _ _ V) as C1. pose proof (M_cw _ _ M _ _ _ _ _ _ _ V') as C2.
  pose proof (X_circle _ _ _ X a b c P pa pb pc pP Na Nb Nc NP' C1 C2) as Xc.
  rewrite S in Xc. destruct Xc as (_ & Xc).
  assert (K0 : false = true); [|discriminate]. apply Xc.
  rewrite (det_orient px py) in C1 by auto.
  exact (circle_incircle (at_ a) (at_ b) (at_ c) (at_ P) C1 Hc).
Qed.

(** Such an insertion keeps the area. *)
Lemma insert_same_area fuel done s P s' p :
  DInv vs px py done s -> P < lenN vs -> ~ In P done -> lenN (s_ts s) + 2 <= idmax ->
  insert_vertex fuel vs s P = Ret s' -> placed (s_ts s) P -> reg (s_ts s') p -> reg (s_ts s) p.
Proof.
  intros DI HP Hnew Hmax H In_ Hr.
  assert (FP : fin P) by (unfold is_finite; apply N.ltb_lt; pose proof (X_len _ _ _ X); lia).
  destruct (insert_cases _ _ _ _ _ DI HP Hnew Hmax H) as [Q|(ts1 & st & K & NP & R & Hres)]; [now rewrite <- Q|].
  destruct (cut_placed _ _ _ FP NP In_ K) as (SF & B & _).
  apply B. exact (restore_star P FP (fun _ => HP) fuel ts1 st _ R Hres SF p Hr).
Qed.

End WithEnv.
