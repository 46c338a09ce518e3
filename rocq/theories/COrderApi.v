(** * COrderApi: the result does not depend on the order of the constraints. *)

From Coq Require Import NArith List Bool Lia QArith Lqa Permutation.
From Verif Require Import Base BaseFacts Arith Types Utils Infinite Triangulation Constrained Geom Mesh
  MeshOps Exact ExactC MeshVerts MeshEdge AnyDT SpecCdt AnyCDT Walk Insert DTExact Spec DTOut Lifted Lawson LawsonApi CSwap CCross CReg CPres
  CTerm CApply CTotal CdtApi CdtTotal CLocal CDel CDelTwo SpecDomain Domain DomainApi CDelApi SpecUnique Unique CUnique.
Import ListNotations.
Local Open Scope N_scope.

(** ** The area selected by the constraints depends on their set only *)
Section Domains.
Variables (at_ : N -> point) (cs1 cs2 : list edge).
Hypothesis Same : forall e, In e cs1 <-> In e cs2.

Lemma on_constraint_set p : on_constraint at_ cs2 p -> on_constraint at_ cs1 p.
Proof. intros (e & s & He & H). exists e, s. split; [now apply Same|exact H]. Qed.

Lemma apart_set p q : apart at_ cs1 p q -> apart at_ cs2 p q.
Proof. intros H s Hs K. apply (H s Hs). now apply on_constraint_set. Qed.

Lemma linked_set p q : linked at_ cs1 p q -> linked at_ cs2 p q.
Proof. induction 1 as [|q r _ IH Ha]; [constructor|]. apply (linked_next _ _ _ q); auto. now apply apart_set. Qed.

Lemma in_domain_set p : in_domain at_ cs1 p -> in_domain at_ cs2 p.
Proof.
  intros (q & Hl & e & s & He & Hs & Or & Fr). exists q. split; [now apply linked_set|].
  exists e, s. split; [now apply Same|]. split; [auto|]. split; [auto|]. intros t Ht K. apply (Fr t Ht). now apply on_constraint_set.
Qed.
End Domains.

(** ** Rotations of a triangle *)
Lemma view_tri out ts i a b c x y w n1 n2 n3 m1 m2 m3 : view ts i a b c n1 n2 n3 -> view ts i x y w m1 m2 m3 ->
  In (x, y, w) out -> is_tri out a b c.
Proof.
  intros (t & k & Ht & Er) (t' & k' & Ht' & Er') H. rewrite Ht in Ht'. injection Ht' as <-.
  destruct t, k, k'; cbn in Er, Er'; injection Er as <- <- <- _ _ _; injection Er' as <- <- <- _ _ _; unfold is_tri; auto.
Qed.

Lemma is_tri_In out a b c : is_tri out a b c -> exists x y w, In (x, y, w) out /\
  ((a = x /\ b = y /\ c = w) \/ (a = y /\ b = w /\ c = x) \/ (a = w /\ b = x /\ c = y)).
Proof. intros [H|[H|H]]; do 3 eexists; (split; [exact H|auto]). Qed.

Section Api.
Context {E : Env}.
Variables (fuel : nat) (bins : N) (vs : list vertex).
Variables px py : N -> Q.
Hypothesis X : Exact (normalized vs) px py.
Hypothesis XC : ExactC (normalized vs) px py.
Hypothesis Hid : 2 * lenN vs + 2 <= idmax.
Hypothesis Hf : (4 * length vs + 12 <= fuel)%nat.
Hypothesis Hq : ((2 * length vs + 4) * (2 * length vs + 4) <= fuel)%nat.
Notation at_ := (place px py).
Notation pos := (hpos px py).
Notation fin v := (is_finite v = true).
Notation MInv := (MInv (normalized vs) px py).
Notation circ a b c d := (in_circumcircle (at_ a) (at_ b) (at_ c) (at_ d)).
Notation Run := (Run fuel bins vs px py).

Section Pair.
Variables (cs1 cs2 : list edge) (out1 out2 dt : list (N * N * N)).
Variables (ts0 : list tri) (m v2t : list N) (s1 s2 : cstate).
Hypothesis R1 : Run cs1 out1 dt ts0 m v2t s1.
Hypothesis R2 : Run cs2 out2 dt ts0 m v2t s2.
Hypothesis H1 : constrained_triangulation_from_2d_vertices fuel bins vs cs1 = Ret out1.
Hypothesis H2 : constrained_triangulation_from_2d_vertices fuel bins vs cs2 = Ret out2.
Hypothesis H0 : triangulation_from_2d_vertices fuel bins vs = Ret dt.
Hypothesis H3 : 3 <= lenN vs.
Hypothesis Same : forall e, In e cs1 <-> In e cs2.
Hypothesis Gq : no_empty_quad_on_a_circle at_ (lenN vs).
Hypothesis Lo : forall a b c d, is_tri dt a b c -> is_tri dt b a d -> ~ circ a b c d.
Hypothesis Cb : forall e, In e cs1 -> proper at_ e -> covers_between at_ dt (efrom e) (eto e).
Hypothesis Nx : forall r r', In r cs1 -> In r' cs1 -> ~ segments_cross (at_ (efrom r)) (at_ (eto r)) (at_ (efrom r')) (at_ (eto r')).
Hypothesis Few : forall e, In e cs1 -> crosses_at_most at_ dt 2 e.

Let Cb2 e (H : In e cs2) : proper at_ e -> covers_between at_ dt (efrom e) (eto e) := Cb e (proj2 (Same e) H).
Let Few2 e (H : In e cs2) : crosses_at_most at_ dt 2 e := Few e (proj2 (Same e) H).
Let Nx2 r r' (A : In r cs2) (B : In r' cs2) := Nx r r' (proj2 (Same r) A) (proj2 (Same r') B).
Notation ts1 := (c_ts s1).
Notation ts2 := (c_ts s2).
Let I1 := U_mesh _ _ _ _ _ _ _ _ _ _ _ _ R1.
Let I2 := U_mesh _ _ _ _ _ _ _ _ _ _ _ _ R2.
Let I0 := U_inv _ _ _ _ _ _ _ _ _ _ _ _ R1.

Lemma con_set u v : con cs1 m u v -> con cs2 m u v.
Proof. intros (e & He & Me). exists e. split; [now apply Same|exact Me]. Qed.

Lemma pair_alike : alike ts1 ts2 /\ alike ts0 ts1.
Proof.
  destruct (few_final fuel bins vs px py X XC Hid Hf cs1 out1 dt ts0 m v2t s1 R1 Hq Lo Cb Nx Few) as (d1 & _ & _ & A1 & B1).
  destruct (few_final fuel bins vs px py X XC Hid Hf cs2 out2 dt ts0 m v2t s2 R2 Hq Lo Cb2 Nx2 Few2) as (d2 & _ & _ & A2 & B2).
  split; split; auto.
  - intros v. rewrite <- (A1 v). apply A2.
  - intros i a b c Nf. rewrite <- (B1 i a b c Nf). now apply B2.
Qed.

Lemma pair_shares : shares px py ts1 ts2.
Proof.
  destruct (few_final fuel bins vs px py X XC Hid Hf cs1 out1 dt ts0 m v2t s1 R1 Hq Lo Cb Nx Few) as (d1 & J1 & D1 & _).
  destruct (few_final fuel bins vs px py X XC Hid Hf cs2 out2 dt ts0 m v2t s2 R2 Hq Lo Cb2 Nx2 Few2) as (d2 & J2 & D2 & _).
  intros a b Hm Fa Fb. destruct (O_edge _ _ _ _ _ _ J1 a b Hm) as [(u & v & K & S)|]; auto. left.
  pose proof (proj2 (D2 u v) (con_set u v (proj1 (D1 u v) K))) as K2.
  assert (Ne : a <> b).
  { intros ->. destruct (medge_both px py b b Fa Fb ts1 (I_mesh _ _ _ _ I1) Hm) as ((i & n & c & n1 & n2 & V) & _).
    pose proof (M_cw _ _ (I_mesh _ _ _ _ I1) _ _ _ _ _ _ _ V) as C. pose proof (det_zero (pos b) (pos c)) as (Z1 & Z2 & Z3).
    unfold det in C. lra. }
  destruct S as [(-> & ->)|(-> & ->)]; [|apply medge_sym]; apply (O_keep _ _ _ _ _ _ J2); auto.
Qed.

Lemma no_quad i k u u' u'' d : T ts1 i u u' u'' -> T ts1 k u' u d -> fin3 u u' u'' -> fin d ->
  ~ on_circumcircle (at_ u) (at_ u') (at_ u'') (at_ d).
Proof.
  intros Ti Tk Fu Fd Oc. destruct Fu as (F1 & F2 & F3).
  assert (Lt : forall i a b c, T ts1 i a b c -> fin a -> a < lenN vs).
  { intros i' a b c (n1 & n2 & n3 & V) Fa. destruct (norm_len vs) as (_ & LN). 
    assert (Ha : hascorner ts1 a) by (destruct (view_he _ _ _ _ _ _ _ _ V) as (Q & _); exists i'; eexists; eexists; eauto).
    pose proof (hascorner_vok (normalized vs) _ _ (I_ids _ _ _ _ I1) Ha) as Va.
    destruct (get_vertex (normalized vs) a Va Fa) as (va & _ & Na). apply nthN_lt in Na. now rewrite (proj1 (norm_len vs)) in Na. }
  destruct (Gq u u' u'' d) as (v & Hv & N1 & N2 & N3 & N4 & Hin); auto.
  - exact (Lt _ _ _ _ Ti F1).
  - exact (Lt _ _ _ _ (T_rot _ _ _ _ _ Ti) F2).
  - exact (Lt _ _ _ _ (T_rot2 _ _ _ _ _ Ti) F3).
  - exact (Lt _ _ _ _ (T_rot2 _ _ _ _ _ Tk) Fd).
  - apply (T_cw (normalized vs) px py ts1 i u u' u'' I1 Ti). repeat split; auto.
  - apply (T_cw (normalized vs) px py ts1 k u' u d I1 Tk). repeat split; auto.
  - destruct (nthN m v) as [w|] eqn:Mw.
    2: { apply nthN_None in Mw. rewrite (U_map _ _ _ _ _ _ _ _ _ _ _ _ R1) in Mw. lia. }
    destruct (U_mapped _ _ _ _ _ _ _ _ _ _ _ _ R1 v w Mw) as (Cw & Fw). pose proof (U_same _ _ _ _ _ _ _ _ _ _ _ _ R1 v w Mw) as Sw.
    apply (proj1 (proj2 pair_alike)) in Cw. destruct Cw as (j & Cw).
    assert (Dw : forall a b, fin a -> fin b -> (orient (at_ a) (at_ b) (at_ v) <= 0)%Q -> (det (pos a) (pos b) (pos w) <= 0)%Q).
    { intros a b Fa Fb K. rewrite (det_orient px py) by auto.
      rewrite (orient_same (at_ a) (at_ b) (at_ w) (at_ a) (at_ b) (at_ v)); auto; split; reflexivity. }
    assert (Sp : forall a, samepos px py a w -> same_place (at_ v) (at_ a)).
    { intros a (A1 & A2). destruct Sw as (B1 & B2). split; cbn [place fst snd]; [rewrite A1|rewrite A2]; now symmetry. }
    destruct Hin as [(P1 & P2 & P3)|(P1 & P2 & P3)].
    + destruct Ti as (n1 & n2 & n3 & V).
      destruct (vertex_in_closed px py ts1 i u u' u'' n1 n2 n3 j w (I_mesh _ _ _ _ I1) V Cw Fw) as (a & Ha & _ & Sa).
      { repeat split; apply Dw; auto. }
      apply Sp in Sa. destruct Ha as [->|[->| ->]]; auto.
    + destruct Tk as (n1 & n2 & n3 & V).
      destruct (vertex_in_closed px py ts1 k u' u d n1 n2 n3 j w (I_mesh _ _ _ _ I1) V Cw Fw) as (a & Ha & _ & Sa).
      { repeat split; apply Dw; auto. }
      apply Sp in Sa. destruct Ha as [->|[->| ->]]; auto.
Qed.

Hypothesis Sh2 : shares px py ts2 ts1.

Lemma both_T i a b c : T ts1 i a b c -> fin3 a b c -> exists j, T ts2 j a b c.
Proof.
  apply (in_both (normalized vs) px py ts1 ts2 I1 I2 (proj1 pair_alike) pair_shares Sh2). exact no_quad.
Qed.

(** Inside a triangle of the mesh there is no constraint. *)
Lemma open_unconstrained i p : inT pos ts1 i (emb p) -> ~ on_constraint at_ cs1 p.
Proof.
  intros Hi. destruct (few_final fuel bins vs px py X XC Hid Hf cs1 out1 dt ts0 m v2t s1 R1 Hq Lo Cb Nx Few) as (d1 & J1 & D1 & A1 & _).
  set (Cn := fun u v => con cs1 m u v /\ u <> v).
  assert (Ce : forall u v, Cn u v -> medge ts1 u v /\ fin u /\ fin v).
  { intros u v (K & Ne). split; [apply (O_keep _ _ _ _ _ _ J1); auto; now apply D1|].
    destruct K as (e & _ & Me). destruct (con_ends fuel bins vs px py cs1 out1 dt ts0 m v2t s1 R1 u v e Me) as (_ & Fu & _ & Fv & _). auto. }
  intros (e & s & He & Hp & Hs & (P1 & P2)).
  destruct (cdt_in_range fuel bins vs px py X XC Hid Hf cs1 out1 e H3 H1 He) as (Lf & Lt).
  destruct (nthN_Some m (efrom e)) as (u & Mu); [now rewrite (U_map _ _ _ _ _ _ _ _ _ _ _ _ R1)|].
  destruct (nthN_Some m (eto e)) as (v & Mv); [now rewrite (U_map _ _ _ _ _ _ _ _ _ _ _ _ R1)|].
  assert (Me : map_edge m e = Some (Edge u v)) by (apply map_edge_inv; auto).
  destruct (con_ends fuel bins vs px py cs1 out1 dt ts0 m v2t s1 R1 u v e Me) as (_ & Fu & _ & Fv & (U1 & U2) & (V1 & V2)).
  apply (open_free px py ts1 (I_mesh _ _ _ _ I1) Cn Ce i (emb p) Hi).
  exists u, v, (1 - s)%Q, s. split.
  - split; [exists e; auto|]. intros ->. apply Hp. split; [rewrite <- U1, <- V1|rewrite <- U2, <- V2]; reflexivity.
  - split; [lra|]. split; [lra|]. split; [lra|].
    unfold CCross.onseg. rewrite (hpos_fin px py u Fu), (hpos_fin px py v Fv).
    unfold along, place in *. cbn [fst snd] in *.
    split; [|split]; cbn [emb padd pscale hx hy hw]; rewrite ?P1, ?P2, ?U1, ?U2, ?V1, ?V2; ring.
Qed.

Lemma half a b c : is_tri out1 a b c -> is_tri out2 a b c.
Proof.
  intros Hout.
  pose proof (tri_out _ _ _ _ _ (U_out _ _ _ _ _ _ _ _ _ _ _ _ R1) Hout) as Ho1.
  destruct (is_tri_view _ _ _ _ Ho1) as (i & n1 & n2 & n3 & V & Fa & Fb & Fc).
  assert (Ti : T ts1 i a b c) by (exists n1, n2, n3; exact V).
  assert (Fi : fin3 a b c) by (repeat split; auto).
  destruct (both_T i a b c Ti Fi) as (j & Tj).
  pose proof (T_cw (normalized vs) px py ts1 i a b c I1 Ti Fi) as C1.
  pose proof (mid_inside at_ (a, b, c) C1) as Om. set (p := mid at_ (a, b, c)) in *.
  assert (Op : in_open (pos a) (pos b) (pos c) (emb p)).
  { destruct Om as (O1 & O2 & O3). unfold emb. repeat split; rewrite (det_orient_p px py); auto. }
  assert (Hi : inT pos ts1 i (emb p)) by (apply (inT_view _ _ _ _ _ _ _ _ _ _ V); exact Op).
  pose proof (open_unconstrained i p Hi) as No.
  assert (Cov1 : Spec.covered at_ out1 p).
  { destruct (is_tri_In _ _ _ _ Hout) as (x & y & w & Hin & Eq). exists (x, y, w). split; auto.
    destruct Om as (O1 & O2 & O3). destruct Eq as [(-> & -> & ->)|[(-> & -> & ->)|(-> & -> & ->)]]; repeat split; lra. }
  assert (Covd : Spec.covered at_ dt p).
  { destruct (M_cover _ _ (I_mesh _ _ _ _ I0) (emb p)) as (k & Hk); [cbn; lra|].
    pose proof Hk as (x & y & w & k1 & k2 & k3 & Vk & Cp).
    assert (Fk : fin3 x y w).
    { apply (closed_fin (normalized vs) px py ts0 ts1 I1 (proj2 pair_alike) k i x y w a b c (emb p)); auto. exists k1, k2, k3. exact Vk. }
    destruct Fk as (Fx & Fy & Fw). pose proof (view_out _ _ _ _ _ _ _ _ Vk Fx Fy Fw) as Ho. rewrite <- (U_dt _ _ _ _ _ _ _ _ _ _ _ _ R1) in Ho.
    destruct (is_tri_In _ _ _ _ Ho) as (x' & y' & w' & Hin & Eq). exists (x', y', w'). split; auto.
    destruct Cp as (P1 & P2 & P3). unfold emb in P1, P2, P3. rewrite (det_orient_p px py) in P1, P2, P3 by auto.
    destruct Eq as [(-> & -> & ->)|[(-> & -> & ->)|(-> & -> & ->)]]; repeat split; lra. }
  assert (Cov2 : Spec.covered at_ out2 p).
  { apply (cdt_domain fuel bins vs px py X XC Hid Hq cs2 out2 dt p H2 H0 Nx2 Cb2 Covd).
    - intros K. apply No. exact (on_constraint_set at_ cs1 cs2 Same p K).
    - apply (in_domain_set at_ cs1 cs2 Same). now apply (cdt_domain fuel bins vs px py X XC Hid Hq cs1 out1 dt p H1 H0 Nx Cb Covd No). }
  destruct Cov2 as (((x, y), w) & Hin & P1 & P2 & P3).
  destruct (out_inv _ _ _ _ (U_out _ _ _ _ _ _ _ _ _ _ _ _ R2 _ Hin)) as (k & k1 & k2 & k3 & Vk & Fx & Fy & Fw).
  assert (Ck : inC pos ts2 k (emb p)).
  { apply (inC_view _ _ _ _ _ _ _ _ _ _ Vk). unfold emb. repeat split; rewrite (det_orient_p px py); auto. }
  assert (Oj : inT pos ts2 j (emb p)) by (apply (T_open px py _ _ _ _ _ _ Tj); exact Op).
  pose proof (open_closed_excl _ _ (I_mesh _ _ _ _ I2) j k _ Oj Ck) as <-.
  destruct Tj as (j1 & j2 & j3 & Vj). exact (view_tri _ _ _ _ _ _ _ _ _ _ _ _ _ _ _ Vj Vk Hin).
Qed.
End Pair.

(** The same constraints in another order give the same triangles. *)
Lemma cdt_order cs1 cs2 out1 out2 dt a b c :
  constrained_triangulation_from_2d_vertices fuel bins vs cs1 = Ret out1 ->
  constrained_triangulation_from_2d_vertices fuel bins vs cs2 = Ret out2 ->
  triangulation_from_2d_vertices fuel bins vs = Ret dt ->
  (forall e, In e cs1 <-> In e cs2) ->
  no_empty_quad_on_a_circle at_ (lenN vs) ->
  (forall a b c d, is_tri dt a b c -> is_tri dt b a d -> ~ circ a b c d) ->
  (forall e, In e cs1 -> proper at_ e -> covers_between at_ dt (efrom e) (eto e)) ->
  (forall r r', In r cs1 -> In r' cs1 -> ~ segments_cross (at_ (efrom r)) (at_ (eto r)) (at_ (efrom r')) (at_ (eto r'))) ->
  (forall e, In e cs1 -> crosses_at_most at_ dt 2 e) ->
  is_tri out1 a b c -> is_tri out2 a b c.
Proof.
  intros H1 H2 H0 Same Gq Lo Cb Nx Few Ho.
  assert (H3 : 3 <= lenN vs).
  { destruct (N.lt_ge_cases (lenN vs) 3) as [L|L]; [exfalso|exact L].
    unfold constrained_triangulation_from_2d_vertices in H1. rewrite (proj2 (N.ltb_lt _ _) L) in H1.
    apply Ret_inj in H1. subst out1. destruct Ho as [[]|[[]|[]]]. }
  destruct (run_of fuel bins vs px py X XC Hid Hf cs1 out1 dt H1 H0) as [Q|(ts0 & m & v2t & s1 & R1)].
  { subst out1. destruct Ho as [[]|[[]|[]]]. }
  assert (R2 : exists s2, Run cs2 out2 dt ts0 m v2t s2).
  { destruct (run_of2 fuel bins vs px py X XC Hid Hf cs2 out2 dt H3 H2 H0) as (ts0' & m' & v2t' & s2 & R2).
    destruct (run_fun fuel bins vs px py _ _ _ _ _ _ _ _ _ _ _ _ _ _ R1 R2) as (-> & -> & ->). eauto. }
  destruct R2 as (s2 & R2).
  assert (Same' : forall e, In e cs2 <-> In e cs1) by (intros e; symmetry; apply Same).
  assert (Sh2 : shares px py (c_ts s2) (c_ts s1)).
  { apply (pair_shares cs2 cs1 out2 out1 dt ts0 m v2t s2 s1 R2 R1 Same' Lo).
    - intros e He. apply Cb. now apply Same.
    - intros r r' Hr Hr'. apply Nx; now apply Same.
    - intros e He. apply Few. now apply Same. }
  exact (half cs1 cs2 out1 out2 dt ts0 m v2t s1 s2 R1 R2 H1 H2 H0 H3 Same Gq Lo Cb Nx Few Sh2 a b c Ho).
Qed.
End Api.
