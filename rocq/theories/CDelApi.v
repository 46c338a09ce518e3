(** * CDelApi: constrained Delaunay at the entry point, for constraints that cross few edges. *)

From Coq Require Import NArith List Bool Lia QArith Lqa Permutation.
From Verif Require Import Base BaseFacts Arith Types Utils Infinite Triangulation Constrained Geom Mesh
  MeshOps Exact ExactC MeshVerts MeshEdge AnyDT SpecCdt AnyCDT Walk Insert DTExact Spec DTOut Lifted Lawson LawsonApi CSwap CCross CReg CPres
  CTerm CApply CTotal CdtApi CdtTotal CLocal CDel CDelTwo SpecDomain Domain DomainApi.
Import ListNotations.
Local Open Scope N_scope.

Section Api.
Context {E : Env}.
Variables (fuel : nat) (bins : N) (vs : list vertex).
Variables px py : N -> Q.
Hypothesis X : Exact (normalized vs) px py.
Hypothesis XC : ExactC (normalized vs) px py.
Hypothesis Hid : 2 * lenN vs + 2 <= idmax.
Hypothesis Hf : (4 * length vs + 12 <= fuel)%nat.
Notation at_ := (place px py).
Notation pos := (hpos px py).
Notation fin v := (is_finite v = true).
Notation MInv := (MInv (normalized vs) px py).
Notation VT := (VT (normalized vs)).
Notation circ a b c d := (in_circumcircle (at_ a) (at_ b) (at_ c) (at_ d)).

(** ** The run behind a constrained and an unconstrained triangulation *)
Record Run (cs : list edge) (out dt : list (N * N * N)) (ts0 : list tri) (m v2t : list N) (s' : cstate) : Prop := {
  U_inv : MInv ts0;
  U_vt : VT ts0 v2t;
  U_mapped : mapped m ts0;
  U_same : forall v w, nthN m v = Some w -> samepos px py w v;
  U_fold : foldM (apply_constraint fuel (normalized vs) m) cs (CSt ts0 v2t []) = Ret s';
  U_dt : dt = filter_triangles ts0;
  U_out : forall t, In t out -> In t (filter_triangles (c_ts s'));
  U_mesh : MInv (c_ts s');
  U_size : (length ts0 <= 2 * length vs + 2)%nat;
  U_map : lenN m = lenN vs;
  (** What the constraints start from does not depend on them. *)
  U_wrap : exists s, wrap_and_triangulate fuel bins (normalized vs) (Some (rangeN 0 (length vs))) = Ret s /\ s_map s = Some m /\
    s_ts s = ts0 /\ index_triangles (repeat 0 (length (normalized vs))) 0 ts0 = Ret v2t
}.

Lemma run_of2 cs out dt : 3 <= lenN vs ->
  constrained_triangulation_from_2d_vertices fuel bins vs cs = Ret out ->
  triangulation_from_2d_vertices fuel bins vs = Ret dt ->
  exists ts0 m v2t s', Run cs out dt ts0 m v2t s'.
Proof.
  intros H3 H H0.
  apply dt_inv in H0. destruct H0 as [(L & ->)|(_ & nvs & c1 & c2 & c3 & s0 & NV & _ & W0 & E0)]; [lia|].
  assert (EN : nvs = normalized vs) by (unfold normalized; now rewrite NV). rewrite EN in *. clear EN NV.
  destruct (cdt_run fuel bins vs px py X XC Hid Hf cs out H3 H) as (m & ts & cset & [M R1 Lm' _ Rcs _ _ (ids & _ & _ & _ & Eo) (s & W & SM & AC)]).
  pose proof (wrap_erased fuel bins (normalized vs) (Some (rangeN 0 (length vs)))) as Er.
  rewrite W in Er. cbn [erased] in Er. rewrite W0 in Er. apply Ret_inj in Er. subst s0. cbn [erase s_ts] in E0.
  destruct (norm_len vs) as (LN' & LN).
  assert (Hb : exists order, bin_sort bins (normalized vs) = Ret order).
  { unfold wrap_and_triangulate in W. destruct (bin_sort bins (normalized vs)); try discriminate. eauto. }
  destruct Hb as (order & Hb).
  pose proof (wrap_post (normalized vs) px py X fuel bins _ order Hb (or_intror eq_refl)) as Wp.
  rewrite LN, W in Wp. cbn [post] in Wp.
  destruct Wp as (done & Hdn & Ld & DI); [lia|lia|lia|].
  destruct DI as [A B C D1 R Mp]. destruct (Mp m SM) as (Lm & Hm & _).
  assert (Sp : forall v w, nthN m v = Some w -> hascorner (s_ts s) w /\ is_finite w = true /\ samepos px py w v).
  { intros v w Hv. pose proof (nthN_lt _ _ _ Hv) as Lv. rewrite Lm, LN' in Lv.
    destruct (Hm v) as (w' & Q & Cw & Fw & S0); [apply Hdn; lia|lia|]. rewrite Hv in Q. injection Q as <-. auto. }
  unfold apply_constraints in AC.
  destruct (index_ok (normalized vs) px py (s_ts s) A) as (v2t & Ix & V). rewrite Ix in AC. cbn [bind] in AC.
  destruct (foldM (apply_constraint fuel (normalized vs) m) cs (CSt (s_ts s) v2t [])) as [s'| | |] eqn:Fo;
    cbn [bind] in AC; try discriminate.
  apply Ret_inj in AC. injection AC as Et <-.
  exists (s_ts s), m, v2t, s'. constructor; auto.
  - intros v w Hv. destruct (Sp v w Hv) as (? & ? & _); auto.
  - intros v w Hv. now destruct (Sp v w Hv) as (_ & _ & ?).
  - intros t Ht. rewrite Et. rewrite Eo in Ht. exact (emitted_filter _ _ _ Ht).
  - now rewrite Et.
  - rewrite Ld, LN' in C. unfold lenN in C. lia.
  - exists s. auto.
Qed.

Lemma run_of cs out dt :
  constrained_triangulation_from_2d_vertices fuel bins vs cs = Ret out ->
  triangulation_from_2d_vertices fuel bins vs = Ret dt ->
  out = [] \/ exists ts0 m v2t s', Run cs out dt ts0 m v2t s'.
Proof.
  intros H H0. destruct (N.lt_ge_cases (lenN vs) 3) as [L|L]; [left|right; now apply run_of2].
  unfold constrained_triangulation_from_2d_vertices in H. rewrite (proj2 (N.ltb_lt _ _) L) in H. now apply Ret_inj in H.
Qed.

Lemma run_fun cs out dt ts0 m v2t s' cs2 out2 dt2 ts2 m2 v2t2 s2 :
  Run cs out dt ts0 m v2t s' -> Run cs2 out2 dt2 ts2 m2 v2t2 s2 -> ts2 = ts0 /\ m2 = m /\ v2t2 = v2t.
Proof.
  intros R1 R2. destruct (U_wrap _ _ _ _ _ _ _ R1) as (s & W & Sm & St & Ix).
  destruct (U_wrap _ _ _ _ _ _ _ R2) as (s0 & W0 & Sm0 & St0 & Ix0).
  rewrite W in W0. apply Ret_inj in W0. subst s0. rewrite Sm in Sm0. injection Sm0 as <-. subst ts2. subst ts0.
  rewrite Ix in Ix0. apply Ret_inj in Ix0. auto.
Qed.

Lemma cdt_in_range cs out e : 3 <= lenN vs ->
  constrained_triangulation_from_2d_vertices fuel bins vs cs = Ret out -> In e cs -> efrom e < lenN vs /\ eto e < lenN vs.
Proof.
  intros H3 H He. destruct (cdt_run fuel bins vs px py X XC Hid Hf cs out H3 H) as (m & ts & cset & [_ _ _ _ Rcs _ _ _ _]).
  exact (Rcs e He).
Qed.

(** ** An edge of the unconstrained triangulation *)
Lemma out_cw ts a b c : MInv ts -> is_tri (filter_triangles ts) a b c ->
  (det (pos a) (pos b) (pos c) < 0)%Q /\ fin a /\ fin b /\ fin c.
Proof.
  intros I H. destruct (is_tri_view _ _ _ _ H) as (i & x & y & w & V & F). split; auto. exact (M_cw _ _ (I_mesh _ _ _ _ I) _ _ _ _ _ _ _ V).
Qed.

Lemma tri_out (l l' : list (N * N * N)) a b c : (forall t, In t l -> In t l') -> is_tri l a b c -> is_tri l' a b c.
Proof. intros H [K|[K|K]]; unfold is_tri; auto. Qed.

Lemma circ_flip a b c d : fin a -> fin b -> fin c -> fin d ->
  (det (pos a) (pos b) (pos c) < 0)%Q -> (det (pos b) (pos a) (pos d) < 0)%Q -> ~ circ b a d c -> ~ circ a b c d.
Proof. intros Fa Fb Fc Fd C D N0. apply (ldel_circle px py a b c d). apply ldel_sym; auto. now apply ldel_circle. Qed.

(** Every edge of both triangulations is Delaunay. *)
Lemma shared_edge cs out dt a b c d :
  constrained_triangulation_from_2d_vertices fuel bins vs cs = Ret out ->
  triangulation_from_2d_vertices fuel bins vs = Ret dt ->
  (forall x y w v, is_tri dt x y w -> v < lenN vs -> ~ circ x y w v) -> edge_of at_ dt (Edge a b) ->
  is_tri out a b c -> is_tri out b a d -> ~ circ a b c d.
Proof.
  intros H H0 Em (x & y & w & Tw & Sx) Tc Td.
  assert (Li : lenN vs <= idmax + 1) by lia.
  pose proof (proj1 (cdt_ids fuel bins vs cs out Li H)) as Ids.
  assert (Lt : forall u v q, is_tri out u v q -> u < lenN vs /\ v < lenN vs /\ q < lenN vs).
  { intros u v q [K|[K|K]]; apply Ids in K; tauto. }
  destruct (Lt _ _ _ Tc) as (La & Lb & Lc). destruct (Lt _ _ _ Td) as (_ & _ & Ld).
  destruct (run_of cs out dt H H0) as [Q|(ts0 & m & v2t & s' & R)].
  { rewrite Q in Tc. destruct Tc as [[]|[[]|[]]]. }
  pose proof (tri_out _ _ _ _ _ (U_out _ _ _ _ _ _ _ R) Tc) as Tc'. pose proof (tri_out _ _ _ _ _ (U_out _ _ _ _ _ _ _ R) Td) as Td'.
  assert (Tw' := Tw). rewrite (U_dt _ _ _ _ _ _ _ R) in Tw'.
  destruct (out_cw _ _ _ _ (U_mesh _ _ _ _ _ _ _ R) Tc') as (Cc & Fa & Fb & Fc).
  destruct (out_cw _ _ _ _ (U_mesh _ _ _ _ _ _ _ R) Td') as (Cd & _ & _ & Fd).
  destruct (out_cw _ _ _ _ (U_inv _ _ _ _ _ _ _ R) Tw') as (Cw & Fx & Fy & Fw).
  assert (PP : forall u v, fin u -> fin v -> same_place (at_ u) (at_ v) -> peq (pos u) (pos v)).
  { intros u v Fu Fv (S1 & S2). rewrite (hpos_fin px py u Fu), (hpos_fin px py v Fv). split; [|split]; cbn [hx hy hw]; auto. reflexivity. }
  assert (LE : forall u v q q' u' v', same_place (at_ u) (at_ u') -> same_place (at_ v) (at_ v') ->
     ldel px py u v q q' -> ldel px py u' v' q q').
  { intros u v q q' u' v' (A1 & A2) (B1 & B2) L f Eu Ev Eq. cbn [place fst snd] in *.
    apply L; auto; unfold ev, z in *; [rewrite A1, A2|rewrite B1, B2]; auto. }
  assert (Em' : forall v, v < lenN vs -> ldel px py x y w v) by (intros v Hv; apply ldel_circle; now apply Em).
  destruct Sx as [(S1 & S2)|(S1 & S2)]; cbn [efrom eto] in S1, S2.
  - apply (ldel_circle px py a b c d). apply (pencil px py a b w c d); auto.
    + rewrite <- (PP _ _ Fx Fa S1), <- (PP _ _ Fy Fb S2). exact Cw.
    + apply (LE x y); auto.
    + apply (LE x y); auto.
  - apply circ_flip; auto. apply (ldel_circle px py b a d c). apply (pencil px py b a w d c); auto.
    + rewrite <- (PP _ _ Fx Fb S1), <- (PP _ _ Fy Fa S2). exact Cw.
    + apply (LE x y); auto.
    + apply (LE x y); auto.
Qed.

(** ** Constraints that cross few edges *)
Section Few.
Variables (cs : list edge) (out dt : list (N * N * N)) (ts0 : list tri) (m v2t : list N) (s' : cstate).
Hypothesis R : Run cs out dt ts0 m v2t s'.
Hypothesis Hq : ((2 * length vs + 4) * (2 * length vs + 4) <= fuel)%nat.
Hypothesis Lo : forall a b c d, is_tri dt a b c -> is_tri dt b a d -> ~ circ a b c d.
Hypothesis Cb : forall e, In e cs -> proper at_ e -> covers_between at_ dt (efrom e) (eto e).
Hypothesis Nx : forall r r', In r cs -> In r' cs -> ~ segments_cross (at_ (efrom r)) (at_ (eto r)) (at_ (efrom r')) (at_ (eto r')).
Hypothesis Few : forall e, In e cs -> crosses_at_most at_ dt 2 e.

Definition con (a b : N) : Prop := exists e, In e cs /\ map_edge m e = Some (Edge a b).

Lemma con_ends a b e : map_edge m e = Some (Edge a b) ->
  hascorner ts0 a /\ fin a /\ hascorner ts0 b /\ fin b /\ same_place (at_ a) (at_ (efrom e)) /\ same_place (at_ b) (at_ (eto e)).
Proof.
  intros H. apply map_edge_inv in H. destruct H as (Ha & Hb).
  destruct (U_mapped _ _ _ _ _ _ _ R _ _ Ha). destruct (U_mapped _ _ _ _ _ _ _ R _ _ Hb).
  pose proof (U_same _ _ _ _ _ _ _ R _ _ Ha). pose proof (U_same _ _ _ _ _ _ _ R _ _ Hb). auto 10.
Qed.

Lemma corner_inj u v : hascorner ts0 u -> hascorner ts0 v -> fin u -> fin v -> same_place (at_ u) (at_ v) -> u = v.
Proof.
  intros (i & Hu) (j & Hv) Fu Fv S. exact (I_inj _ _ _ _ (U_inv _ _ _ _ _ _ _ R) i j u v Hu Hv Fu Fv S).
Qed.

Lemma onseg_along a b s0 t0 : fin a -> fin b -> (0 < s0)%Q -> (0 < t0)%Q ->
  exists r, (0 < r < 1)%Q /\ peq (CCross.onseg px py a b s0 t0) (pscale (s0 + t0) (emb (along (at_ a) (at_ b) r))).
Proof.
  intros Fa Fb Hs Ht. assert (Hst : (~ s0 + t0 == 0)%Q) by lra.
  set (r := (t0 / (s0 + t0))%Q).
  assert (Er : (r * (s0 + t0) == t0)%Q) by (unfold r; field; auto).
  exists r. split; [split; nra|]. unfold CCross.onseg. rewrite (hpos_fin px py a Fa), (hpos_fin px py b Fb).
  unfold along, place, emb. split; [|split]; cbn [fst snd hx hy hw padd pscale]; unfold r; field; auto.
Qed.

Lemma along_same a b a' b' r : same_place a a' -> same_place b b' -> same_place (along a b r) (along a' b' r).
Proof. intros (A1 & A2) (B1 & B2). unfold along. split; cbn [fst snd]; rewrite ?A1, ?A2, ?B1, ?B2; reflexivity. Qed.

(** Points of a constraint in the triangles of the mesh. *)
Lemma con_hit a b e i : map_edge m e = Some (Edge a b) -> hit px py ts0 a b i ->
  exists r, (0 < r < 1)%Q /\ inT pos ts0 i (emb (along (at_ (efrom e)) (at_ (eto e)) r)).
Proof.
  intros He (s0 & t0 & Hs & Ht & H). destruct (con_ends a b e He) as (_ & Fa & _ & Fb & Sa & Sb).
  destruct (onseg_along a b s0 t0 Fa Fb Hs Ht) as (r & Hr & Pq). exists r. split; auto.
  apply (inT_peq px py ts0 i (emb (along (at_ a) (at_ b) r))); [apply emb_same; now apply along_same|].
  destruct H as (x & y & w & n1 & n2 & n3 & V & T1 & T2 & T3). exists x, y, w, n1, n2, n3. split; auto.
  assert (K : forall u v, (det u v (CCross.onseg px py a b s0 t0) < 0)%Q -> (det u v (emb (along (at_ a) (at_ b) r)) < 0)%Q).
  { intros u v Q. rewrite Pq, det_pscale in Q. destruct (Qlt_le_dec (det u v (emb (along (at_ a) (at_ b) r))) 0) as [L|L]; auto.
    exfalso. assert (0 <= (s0 + t0) * det u v (emb (along (at_ a) (at_ b) r)))%Q by (apply Qmult_le_0_compat; lra). lra. }
  split; [|split]; apply K; auto.
Qed.

(** A triangle with a covered point inside is finite. *)
Lemma open_finite i p : inT pos ts0 i (emb p) -> Spec.covered at_ dt p ->
  exists x y w n1 n2 n3, view ts0 i x y w n1 n2 n3 /\ fin x /\ fin y /\ fin w /\ In (x, y, w) dt.
Proof.
  intros Hi (((x, y), w) & Ht & P1 & P2 & P3). pose proof Ht as Ht'. rewrite (U_dt _ _ _ _ _ _ _ R) in Ht'.
  destruct (out_inv _ _ _ _ Ht') as (j & n1 & n2 & n3 & V & Fx & Fy & Fw).
  assert (Hj : inC pos ts0 j (emb p)).
  { apply (inC_view _ _ _ _ _ _ _ _ _ _ V). split; [|split]; unfold emb; rewrite (det_orient_p px py); auto. }
  pose proof (open_closed_excl _ _ (I_mesh _ _ _ _ (U_inv _ _ _ _ _ _ _ R)) i j _ Hi Hj) as Q. subst j.
  exists x, y, w, n1, n2, n3. auto 10.
Qed.

Lemma con_proper a b e : map_edge m e = Some (Edge a b) -> a <> b -> proper at_ e.
Proof.
  intros Me Hab S. destruct (con_ends a b e Me) as (Ka & Fa & Kb & Fb & Sa & Sb). apply Hab, corner_inj; auto.
  eapply same_place_trans; [exact Sa|]. eapply same_place_trans; [exact S|]. now apply same_place_sym.
Qed.

Lemma con_covered a b e r : In e cs -> map_edge m e = Some (Edge a b) -> a <> b -> (0 < r < 1)%Q ->
  Spec.covered at_ dt (along (at_ (efrom e)) (at_ (eto e)) r).
Proof. intros He Me Hab Hr. apply (Cb e He (con_proper a b e Me Hab)). auto. Qed.

Lemma con_segcov a b : con a b -> a <> b -> segcov px py a b ts0.
Proof.
  intros (e & He & Me) Hab s0 t0 Hs Ht. destruct (con_ends a b e Me) as (_ & Fa & _ & Fb & Sa & Sb).
  destruct (onseg_along a b s0 t0 Fa Fb Hs Ht) as (r & Hr & Pq).
  destruct (con_covered a b e r He Me Hab Hr) as (((x, y), w) & Hin & G1 & G2 & G3).
  rewrite (U_dt _ _ _ _ _ _ _ R) in Hin. destruct (out_inv _ _ _ _ Hin) as (i & n1 & n2 & n3 & V & Fx & Fy & Fw).
  exists i, x, y, w, n1, n2, n3. split; auto. split; auto. split; auto. split; auto.
  assert (K : forall u v, fin u -> fin v -> (orient (at_ u) (at_ v) (along (at_ (efrom e)) (at_ (eto e)) r) <= 0)%Q ->
    (det (pos u) (pos v) (CCross.onseg px py a b s0 t0) <= 0)%Q).
  { intros u v Fu Fv G. rewrite Pq, det_pscale. unfold emb. rewrite (det_orient_p px py) by auto.
    rewrite (orient_same (at_ u) (at_ v) (along (at_ a) (at_ b) r) (at_ u) (at_ v) (along (at_ (efrom e)) (at_ (eto e)) r))
      by (try (split; reflexivity); now apply along_same).
    assert (0 <= (s0 + t0) * - orient (at_ u) (at_ v) (along (at_ (efrom e)) (at_ (eto e)) r))%Q by (apply Qmult_le_0_compat; lra). lra. }
  split; [|split]; apply K; auto.
Qed.

Lemma hit_tri a b e i : In e cs -> map_edge m e = Some (Edge a b) -> a <> b -> hit px py ts0 a b i ->
  exists x y w n1 n2 n3, view ts0 i x y w n1 n2 n3 /\ fin x /\ fin y /\ fin w /\ In (x, y, w) dt.
Proof.
  intros He Hm Hab Hh. destruct (con_hit a b e i Hm Hh) as (r & Hr & Hi).
  destruct (open_finite i _ Hi (con_covered a b e r He Hm Hab Hr)) as (x & y & w & n1 & n2 & n3 & V & Fx & Fy & Fw & Ht).
  exists x, y, w, n1, n2, n3. auto 10.
Qed.

Lemma same_tri i x y w n1 n2 n3 u v q k1 k2 k3 : view ts0 i x y w n1 n2 n3 -> view ts0 i u v q k1 k2 k3 ->
  fin x -> fin y -> fin w -> is_tri dt u v q /\ fin u /\ fin v.
Proof.
  intros (t & k & Ht & Er) (t' & k' & Ht' & Er') Fx Fy Fw. rewrite Ht in Ht'. injection Ht' as <-.
  assert (Ff : fin (tv t I1) /\ fin (tv t I2) /\ fin (tv t I3)).
  { destruct t, k; cbn in Er |- *; injection Er as <- <- <- _ _ _; auto. }
  assert (V' : view ts0 i u v q k1 k2 k3) by (exists t, k'; auto).
  assert (F' : fin u /\ fin v /\ fin q) by (destruct t, k'; cbn in Er', Ff |- *; injection Er' as <- <- <- _ _ _; tauto).
  destruct F' as (F1 & F2 & F3). split; auto. rewrite (U_dt _ _ _ _ _ _ _ R). exact (view_out _ _ _ _ _ _ _ _ V' F1 F2 F3).
Qed.

Lemma edge_tri_dt a b e u v : In e cs -> map_edge m e = Some (Edge a b) -> a <> b -> medge ts0 u v -> xing px py a b u v ->
  fin u /\ fin v /\ exists q, is_tri dt u v q \/ is_tri dt v u q.
Proof.
  intros He Me Hab Hm Xg. pose proof (I_mesh _ _ _ _ (U_inv _ _ _ _ _ _ _ R)) as M.
  destruct Hm as [(i & n & q & y & z & V)|(i & n & q & y & z & V)].
  - pose proof (near_crossing px py ts0 a b i u v q n y z M Xg V) as Hh.
    destruct (hit_tri a b e i He Me Hab Hh) as (x1 & y1 & w1 & n1 & n2 & n3 & V1 & Fx & Fy & Fw & _).
    destruct (same_tri _ _ _ _ _ _ _ _ _ _ _ _ _ V1 V Fx Fy Fw) as (T1 & F1 & F2). eauto.
  - pose proof (hit_back px py ts0 a b i (near_crossing px py ts0 b a i v u q n y z M (xing_back px py _ _ _ _ Xg) V)) as Hh.
    destruct (hit_tri a b e i He Me Hab Hh) as (x1 & y1 & w1 & n1 & n2 & n3 & V1 & Fx & Fy & Fw & _).
    destruct (same_tri _ _ _ _ _ _ _ _ _ _ _ _ _ V1 V Fx Fy Fw) as (T1 & F1 & F2). eauto.
Qed.

Lemma pair_dec (x y : N * N) : {x = y} + {x <> y}.
Proof. decide equality; apply N.eq_dec. Qed.

(** Different edges among [l], up to direction, are at most as many. *)
Lemma few_count (l : list (N * N)) (k : list edge_data) :
  ForallOrdPairs (fun d e => ~ sameED d e) k ->
  (forall d, In d k -> In (efrom (d_edge d), eto (d_edge d)) l \/ In (eto (d_edge d), efrom (d_edge d)) l) ->
  (length k <= length l)%nat.
Proof.
  intros Nd Hk.
  set (f := fun d : edge_data => if in_dec pair_dec (efrom (d_edge d), eto (d_edge d)) l
    then (efrom (d_edge d), eto (d_edge d)) else (eto (d_edge d), efrom (d_edge d))).
  assert (Inj : forall d e, f d = f e -> sameED d e).
  { intros d e. unfold f, sameED, sameE.
    destruct (in_dec pair_dec _ l), (in_dec pair_dec _ l); intros Q; injection Q; auto. }
  assert (K : NoDup (map f k)).
  { clear Hk. induction Nd as [|d k Hd Nd IH]; cbn [map]; constructor; auto.
    rewrite in_map_iff. intros (e & Q & He). rewrite Forall_forall in Hd. apply (Hd e He). now apply Inj. }
  rewrite <- (map_length f). apply NoDup_incl_length; auto.
  intros p Hp. apply in_map_iff in Hp. destruct Hp as (d & <- & Hd). unfold f.
  destruct (in_dec pair_dec _ l); auto. destruct (Hk d Hd); auto. contradiction.
Qed.

Lemma xing_segments a b e u v : map_edge m e = Some (Edge a b) -> fin u -> fin v -> xing px py a b u v ->
  segments_cross (at_ u) (at_ v) (at_ (efrom e)) (at_ (eto e)).
Proof.
  intros Me Fu Fv (X1 & X2 & X3 & X4). destruct (con_ends a b e Me) as (_ & Fa & _ & Fb & Sa & Sb).
  rewrite (det_orient px py) in X1, X2, X3, X4 by auto.
  apply (segments_cross_same (at_ u) (at_ v) (at_ a) (at_ b)); auto; try (split; reflexivity).
  split.
  - assert (0 < (- orient (at_ u) (at_ v) (at_ a)) * orient (at_ u) (at_ v) (at_ b))%Q by (apply Qmul_pos; lra). lra.
  - assert (0 < orient (at_ a) (at_ b) (at_ u) * - orient (at_ a) (at_ b) (at_ v))%Q by (apply Qmul_pos; lra). lra.
Qed.

Lemma con_few a b : con a b -> a <> b -> few px py ts0 a b.
Proof.
  intros (e & He & Me) Hab l Nd Hl. destruct (Few e He) as (L & HL & Hc).
  apply Nat.le_trans with (length L); auto. apply few_count; auto. intros d Hd.
  destruct (Hl d Hd) as (Md & Xd). destruct (edge_tri_dt a b e _ _ He Me Hab Md Xd) as (Fu & Fv & q & [Tq|Tq]).
  - apply (Hc _ _ q Tq). now apply (xing_segments a b).
  - assert (K : segments_cross (at_ (eto (d_edge d))) (at_ (efrom (d_edge d))) (at_ (efrom e)) (at_ (eto e))).
    { destruct (xing_segments a b e _ _ Me Fu Fv Xd) as (K1 & K2). split; [|lra].
      assert (Fl : forall p, (orient (at_ (eto (d_edge d))) (at_ (efrom (d_edge d))) p ==
        - orient (at_ (efrom (d_edge d))) (at_ (eto (d_edge d))) p)%Q) by (intros p; unfold orient; ring).
      rewrite !Fl. lra. }
    destruct (Hc _ _ q Tq K); auto.
Qed.

Lemma con_free a b c d : con a b -> con c d -> ~ crosses px py a b c d.
Proof.
  intros (e & He & Me) (f & Hf' & Mf) Hc.
  destruct (con_ends a b e Me) as (_ & Fa & _ & Fb & Sa & Sb). destruct (con_ends c d f Mf) as (_ & Fc & _ & Fd & Sc & Sd).
  apply (Nx e f He Hf'). apply (crosses_places px py) in Hc; auto. eapply segments_cross_same; [| | | |exact Hc]; auto.
Qed.

Lemma first_good x y : Good px py ts0 x y.
Proof.
  intros i j p q (n1 & n2 & n3 & Vi) (k1 & k2 & k3 & Vj) Fx Fy Fp Fq. apply (ldel_circle px py).
  apply Lo; rewrite (U_dt _ _ _ _ _ _ _ R).
  - exact (view_out _ _ _ _ _ _ _ _ Vi Fx Fy Fp).
  - exact (view_out _ _ _ _ _ _ _ _ Vj Fy Fx Fq).
Qed.

(** The mesh after the constraints. *)
Lemma few_final : exists done, Two (normalized vs) px py con done s' /\
  (forall u v, In (Edge u v) done <-> con u v) /\
  (forall w, hascorner ts0 w <-> hascorner (c_ts s') w) /\ inf_kept ts0 (c_ts s').
Proof.
  assert (Cf : forall u v, con u v -> fin u /\ fin v).
  { intros u v (e & _ & Me). destruct (con_ends u v e Me) as (_ & Fu & _ & Fv & _). auto. }
  assert (J0 : Two (normalized vs) px py con [] (CSt ts0 v2t [])).
  { constructor; cbn [c_ts c_v2t c_set]; try contradiction.
    - exact (U_inv _ _ _ _ _ _ _ R).
    - exact (U_vt _ _ _ _ _ _ _ R).
    - intros u v (e & _ & Me). destruct (con_ends u v e Me) as (Ku & _ & Kv & _). auto.
    - exact con_few.
    - exact con_segcov.
    - intros u v _. right. apply first_good. }
  destruct (two_fold (normalized vs) px py X XC con con_free Cf fuel m cs [] (CSt ts0 v2t []) s' J0) as (done & J & Hd & _ & Hr & Hc & Ik).
  { cbn [c_ts]. pose proof (U_size _ _ _ _ _ _ _ R). nia. }
  { intros raw u v Hr Hm. exists raw. auto. }
  { exact (U_fold _ _ _ _ _ _ _ R). }
  exists done. split; [exact J|]. split; [|auto]. intros u v. split.
  - intros K. destruct (Hd _ K) as [[]|(e & He & Me)]. exists e. auto.
  - intros (e & He & Me). exact (Hr e _ He Me).
Qed.

Lemma few_delaunay : constrained_delaunay at_ cs out.
Proof.
  intros a b c d Tc Td Ic.
  pose proof (tri_out _ _ _ _ _ (U_out _ _ _ _ _ _ _ R) Tc) as Tc'. pose proof (tri_out _ _ _ _ _ (U_out _ _ _ _ _ _ _ R) Td) as Td'.
  destruct (is_tri_view _ _ _ _ Tc') as (i & k1 & k2 & k3 & Vi & Fa & Fb & Fc).
  destruct (is_tri_view _ _ _ _ Td') as (j & k4 & k5 & k6 & Vj & _ & _ & Fd).
  destruct few_final as (done & J & Hd & _).
  assert (Ti : T (c_ts s') i a b c) by (exists k1, k2, k3; exact Vi).
  assert (Tj : T (c_ts s') j b a d) by (exists k4, k5, k6; exact Vj).
  destruct (O_edge _ _ _ _ _ _ J a b (T_medge _ _ _ _ _ Ti)) as [(x & y & Hxy & S)|Gd].
  - destruct (proj1 (Hd _ _) Hxy) as (e & He & Me). exists e. split; auto.
    destruct (con_ends x y e Me) as (_ & _ & _ & _ & Sx & Sy).
    destruct S as [(-> & ->)|(-> & ->)]; [left|right]; split; now apply same_place_sym.
  - exfalso. apply (ldel_circle px py a b c d) in Ic; auto. exact (Gd i j c d Ti Tj Fa Fb Fc Fd).
Qed.
End Few.

(** The result is constrained Delaunay when the unconstrained triangulation is locally Delaunay
    and every constraint crosses at most two of its edges. *)
Lemma cdt_few cs out dt : ((2 * length vs + 4) * (2 * length vs + 4) <= fuel)%nat ->
  constrained_triangulation_from_2d_vertices fuel bins vs cs = Ret out ->
  triangulation_from_2d_vertices fuel bins vs = Ret dt ->
  (forall a b c d, is_tri dt a b c -> is_tri dt b a d -> ~ circ a b c d) ->
  (forall e, In e cs -> proper at_ e -> covers_between at_ dt (efrom e) (eto e)) ->
  (forall r r', In r cs -> In r' cs -> ~ segments_cross (at_ (efrom r)) (at_ (eto r)) (at_ (efrom r')) (at_ (eto r'))) ->
  (forall e, In e cs -> crosses_at_most at_ dt 2 e) ->
  constrained_delaunay at_ cs out.
Proof.
  intros Hq H H0 Lo Cb Nx Few.
  destruct (run_of cs out dt H H0) as [Q|(ts0 & m & v2t & s' & R)].
  { subst out. intros a b c d [[]|[[]|[]]]. }
  exact (few_delaunay cs out dt ts0 m v2t s' R Hq Lo Cb Nx Few).
Qed.
End Api.
