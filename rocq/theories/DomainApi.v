(** * DomainApi: the area of the returned triangles is the one selected by the constraints. *)

From Coq Require Import NArith List Bool Lia QArith Lqa Permutation.
From Verif Require Import Base BaseFacts Arith Types Utils Infinite Triangulation Constrained Geom Mesh
  MeshOps Exact ExactC MeshVerts MeshEdge AnyDT SpecCdt AnyCDT Walk Insert DTExact Spec DTOut CSwap CCross CReg CPres
  CTerm CApply CTotal CdtApi CdtTotal Domain SpecDomain.
Import ListNotations.
Local Open Scope N_scope.

(** ** Points of the plane as homogeneous points *)
Definition emb (p : point) : pt3 := P3 (fst p) (snd p) 1.

Section Points.
Local Open Scope Q_scope.

Lemma emb_along p q s : peq (emb (along p q s)) (comb (emb p) (emb q) s).
Proof. unfold emb, along, comb. split; [|split]; cbn [fst snd padd pscale hx hy hw]; ring. Qed.

Lemma emb_same p q : same_place p q -> peq (emb p) (emb q).
Proof. intros (A & B). split; [|split]; cbn [emb hx hy hw]; auto. reflexivity. Qed.

Lemma along_flip p q s : same_place (along p q s) (along q p (1 - s)).
Proof. unfold along. split; cbn [fst snd]; ring. Qed.

Definition aff (p : pt3) : point := (hx p / hw p, hy p / hw p).

Lemma emb_aff p : 0 < hw p -> peq (emb (aff p)) (pscale (/ hw p) p).
Proof. intros H. unfold emb, aff. split; [|split]; cbn [fst snd pscale hx hy hw]; field; lra. Qed.

Lemma det_aff a b p : 0 < hw p -> exists l, 0 < l /\ det a b (emb (aff p)) == l * det a b p.
Proof.
  intros H. exists (/ hw p). split; [now apply Qinv_lt_0_compat|]. now rewrite (emb_aff p H), det_pscale.
Qed.

Lemma aff_scale p : 0 < hw p -> exists l, 0 < l /\ forall a b, det a b (emb (aff p)) == l * det a b p.
Proof.
  intros H. exists (/ hw p). split; [now apply Qinv_lt_0_compat|]. intros a b. now rewrite (emb_aff p H), det_pscale.
Qed.

Lemma neg_scale l x : 0 < l -> x < 0 -> l * x < 0.
Proof. intros. assert (0 < l * (- x)) by (apply Qmul_pos; lra). lra. Qed.
End Points.

(** ** The covered area does not shrink *)
Section Fold.
Context {E : Env}.
Variables (vs : list vertex) (px py : N -> Q).
Hypothesis X : Exact vs px py.
Hypothesis XC : ExactC vs px py.
Variable m : list N.
Notation none := (fun _ _ : N => False).

Lemma fold_cov fuel : forall l s s',
  CInv vs px py none s -> mapped m (c_ts s) -> (length (c_ts s) * length (c_ts s) + length (c_ts s) <= fuel)%nat ->
  (forall raw a b, In raw l -> map_edge m raw = Some (Edge a b) -> a <> b -> segcov px py a b (c_ts s)) ->
  foldM (apply_constraint fuel vs m) l s = Ret s' -> Covs px py (c_ts s) (c_ts s').
Proof.
  induction l as [|raw l IH]; intros s s' C Mp Hf Hl H; cbn [foldM] in H.
  { apply Ret_inj in H. subst s'. apply Covs_refl. }
  destruct (apply_constraint fuel vs m s raw) as [s1|e| |] eqn:H1; cbn [bind] in H; try discriminate.
  pose proof H1 as Hu. unfold apply_constraint in Hu.
  destruct (getN m (efrom raw)) as [a| | |] eqn:Ga; cbn [bind] in Hu; try discriminate.
  destruct (getN m (eto raw)) as [b| | |] eqn:Gb; cbn [bind] in Hu; try discriminate. clear Hu.
  pose proof Ga as Ha. apply getN_Ret in Ha. pose proof Gb as Hb. apply getN_Ret in Hb.
  assert (Hm : map_edge m raw = Some (Edge a b)) by (apply map_edge_inv; auto).
  destruct (Mp _ _ Ha) as (Ca & Fa). destruct (Mp _ _ Hb) as (Cb & Fb).
  destruct (N.eq_dec a b) as [Hab|Hab].
  { rewrite (apply_constraint_same vs m fuel s raw a b Ga Gb Hab) in H1. apply Ret_inj in H1. subst s1.
    apply IH; auto. intros r u v Hr. apply Hl. now right. }
  pose proof (apply_constraint_total vs px py X XC fuel m s raw a b (C_inv _ _ _ _ _ C) (C_vt _ _ _ _ _ C) Ga Gb Ca Cb Fa Fb Hf) as Ap.
  rewrite H1 in Ap. inversion Ap as [s1' Cv Q| |]. subst s1'.
  specialize (Cv (Hl raw a b (or_introl eq_refl) Hm Hab)).
  destruct (apply_constraint_sound vs px py X XC none fuel m s raw s1 a b C Ga Gb Ca Cb Fa Fb) as (C1 & _ & S1 & L1 & K1); auto.
  assert (L1' : length (c_ts s1) = length (c_ts s)) by (clear -L1; unfold lenN in L1; lia).
  apply (Covs_trans px py _ (c_ts s1)); auto. apply (IH s1 s'); auto.
  - intros x w Hx. destruct (Mp x w Hx) as (A & B). split; auto. now apply K1.
  - now rewrite L1'.
  - intros r u v Hr Hm' Huv s0 t0 Hs Ht. apply Cv. apply (Hl r u v); auto. now right.
Qed.
End Fold.

(** ** The kept triangles of a mesh *)
Section Kept.
Context {E : Env}.
Variables (px py : N -> Q).
Notation pos := (hpos px py).
Notation at_ := (place px py).
Variable ts : list tri.
Hypothesis M : Mesh pos ts.
Hypothesis J : PosInj px py ts.
Variables (cs cset : list edge).
Notation Cn u v := (In (Edge u v) cset).
Hypothesis Cn_edge : forall u v, Cn u v -> medge ts u v /\ is_finite u = true /\ is_finite v = true.
(** The constrained edges are the constraints. *)
Hypothesis Cn_cs : forall u v, Cn u v -> exists e, In e cs /\ proper at_ e /\
  same_place (at_ u) (at_ (efrom e)) /\ same_place (at_ v) (at_ (eto e)).
Hypothesis cs_Cn : forall e, In e cs -> proper at_ e -> exists u v, Cn u v /\
  same_place (at_ u) (at_ (efrom e)) /\ same_place (at_ v) (at_ (eto e)).

Notation onC := (onC px py (fun u v => Cn u v)).
Notation K := (kept ts cset).
Notation inTp i p := (inT pos ts i (emb p)).
Notation inCp i p := (inC pos ts i (emb p)).

Lemma K_step i u v n : he ts i u v n -> n <> NONE -> ~ Cn u v -> K i -> K n.
Proof.
  intros H Hn Hc Ki. apply he_inv in H. destruct H as (t & k & Ht & <- & <- & <-).
  apply (kept_step ts cset i t k); auto. intros Q. apply Hc. revert Q. destruct k; exact (fun x => x).
Qed.

Lemma onC_along p e s : In e cs -> proper at_ e -> (0 <= s <= 1)%Q ->
  same_place p (along (at_ (efrom e)) (at_ (eto e)) s) -> onC (emb p).
Proof.
  intros He Hp Hs (P1 & P2). destruct (cs_Cn e He Hp) as (u & v & Hc & (U1 & U2) & (V1 & V2)).
  destruct (Cn_edge u v Hc) as (_ & Fu & Fv).
  exists u, v, (1 - s)%Q, s. split; auto. split; [lra|]. split; [lra|]. split; [lra|].
  unfold CCross.onseg. rewrite (hpos_fin px py u Fu), (hpos_fin px py v Fv).
  unfold along, place in *. cbn [fst snd] in *.
  split; [|split]; cbn [emb padd pscale hx hy hw]; rewrite ?P1, ?P2, ?U1, ?U2, ?V1, ?V2; ring.
Qed.

Lemma onC_iff p : onC (emb p) <-> on_constraint at_ cs p.
Proof.
  split.
  - intros (u & v & s & t & Hc & Hs & Ht & Hst & (P1 & P2 & P3)).
    destruct (Cn_edge u v Hc) as (_ & Fu & Fv). destruct (Cn_cs u v Hc) as (e & He & Hp & (U1 & U2) & (V1 & V2)).
    unfold CCross.onseg in *. rewrite (hpos_fin px py u Fu), (hpos_fin px py v Fv) in *.
    unfold place in *. cbn [emb padd pscale hx hy hw fst snd] in *.
    assert (Q : (s == 1 - t)%Q) by lra.
    exists e, t. split; auto. split; auto. split; [lra|]. unfold along, place.
    split; cbn [fst snd]; [rewrite P1|rewrite P2]; rewrite Q, <- ?U1, <- ?U2, <- ?V1, <- ?V2; ring.
  - intros (e & s & He & Hp & Hs & Sp). exact (onC_along p e s He Hp Hs Sp).
Qed.

Lemma onC_peq p q : peq p q -> onC p -> onC q.
Proof.
  intros Hpq (u & v & s & t & Hc & Hs & Ht & Hst & Pq). exists u, v, s, t.
  split; auto. split; auto. split; auto. split; auto. exact (peq_trans _ _ _ (peq_sym _ _ Hpq) Pq).
Qed.

Lemma on_same p q : same_place p q -> on_constraint at_ cs p -> on_constraint at_ cs q.
Proof. rewrite <- !onC_iff. intros H. apply onC_peq, emb_same, H. Qed.

Lemma apart_sym p q : apart at_ cs p q -> apart at_ cs q p.
Proof.
  intros H s Hs Q. apply (H (1 - s)%Q); [lra|]. apply (on_same (along q p s)); auto. apply along_flip.
Qed.

Lemma apart_comb p q s : apart at_ cs p q -> (0 <= s <= 1)%Q -> ~ onC (comb (emb p) (emb q) s).
Proof.
  intros H Hs Q. apply (H s Hs). apply onC_iff. apply (onC_peq _ _ (peq_sym _ _ (emb_along p q s)) Q).
Qed.

Lemma inC_peq i p q : peq p q -> inC pos ts i p -> inC pos ts i q.
Proof.
  intros Hpq (a & b & c & x & y & z & V & C1 & C2 & C3). exists a, b, c, x, y, z. split; auto.
  split; [|split]; rewrite <- Hpq; auto.
Qed.

(** All triangles around p are kept. *)
Definition all_kept (p : point) : Prop := forall i, inCp i p -> K i.

Lemma apart_kept p q : apart at_ cs p q -> all_kept p -> all_kept q.
Proof.
  intros H Kp j Hj. destruct (M_cover _ _ M (emb p)) as (i & Hi); [cbn; lra|].
  apply (constant px py ts M J K (fun u v => Cn u v) K_step (emb p) (emb q) i j); auto; try (cbn; lra).
  intros s Hs. apply apart_comb; auto.
Qed.

Lemma linked_kept p q : linked at_ cs p q -> all_kept q -> all_kept p.
Proof.
  induction 1 as [|q r _ IH Ha]; auto. intros Kr. apply IH. now apply (apart_kept r q), Kr; apply apart_sym.
Qed.

Lemma det_place u v p : is_finite u = true -> is_finite v = true ->
  (det (pos u) (pos v) (emb p) == orient (at_ u) (at_ v) p)%Q.
Proof. intros. now apply det_orient_p. Qed.

(** The triangle on the right of a constrained edge is kept. *)
Lemma he_kept i u v n : he ts i u v n -> Cn u v -> K i.
Proof.
  intros H Hc. apply he_inv in H. destruct H as (t & k & Ht & <- & <- & _).
  apply (kept_seed ts cset i t k Ht). destruct k; exact Hc.
Qed.

Lemma sees_kept p : sees_right at_ cs p -> all_kept p.
Proof.
  intros (e & s & He & Hs & Or & Free) j Hj.
  assert (Hp : proper at_ e).
  { intros (S1 & S2). unfold orient in Or. rewrite S1, S2 in Or. lra. }
  destruct (cs_Cn e He Hp) as (u & v & Hc & Su & Sv). destruct (Cn_edge u v Hc) as (Hm & Fu & Fv).
  destruct (medge_both px py u v Fu Fv ts M Hm) as ((i & n & Hi) & _).
  pose proof (he_kept i u v n Hi Hc) as Ki. destruct Hi as (c & y & z & V).
  set (mid := along (at_ (efrom e)) (at_ (eto e)) s) in *.
  assert (Pm : peq (emb mid) (CCross.onseg px py u v (1 - s) s)).
  { unfold mid, CCross.onseg. rewrite (hpos_fin px py u Fu), (hpos_fin px py v Fv).
    destruct Su as (U1 & U2). destruct Sv as (V1 & V2). unfold along, place in *. cbn [fst snd] in *.
    split; [|split]; cbn [emb fst snd padd pscale hx hy hw]; rewrite ?U1, ?U2, ?V1, ?V2; ring. }
  destruct (edge_tri px py u v ts i c n y z (1 - s) s M V) as (Z1 & Z2 & Z3); [lra|lra|].
  rewrite <- Pm in Z1, Z2, Z3.
  assert (Dp : (det (pos u) (pos v) (emb p) < 0)%Q).
  { rewrite det_place by auto. rewrite (orient_same _ _ _ _ _ p Su Sv); auto. split; reflexivity. }
  destruct (small_neg [(det (pos v) (pos c) (emb mid), det (pos v) (pos c) (emb p) - det (pos v) (pos c) (emb mid))%Q;
                       (det (pos c) (pos u) (emb mid), det (pos c) (pos u) (emb p) - det (pos c) (pos u) (emb mid))%Q;
                       (-1, 1)%Q]) as (d & Hd & Sm).
  pose proof (Sm _ (or_introl eq_refl)) as S1. pose proof (Sm _ (or_intror (or_introl eq_refl))) as S2.
  pose proof (Sm _ (or_intror (or_intror (or_introl eq_refl)))) as S3. cbn [fst snd] in S1, S2, S3.
  specialize (S1 Z2). specialize (S2 Z3). specialize (S3 ltac:(lra)).
  set (z0 := along mid p d).
  assert (Hz : inCp i z0).
  { apply (inC_view _ _ _ _ _ _ _ _ _ _ V). unfold z0. split; [|split]; rewrite emb_along, det_comb.
    - rewrite Z1. assert (0 < d * (- det (pos u) (pos v) (emb p)))%Q by (apply Qmul_pos; lra). lra.
    - lra.
    - lra. }
  apply (constant px py ts M J K (fun u v => Cn u v) K_step (emb z0) (emb p) i j); auto; try (cbn; lra).
  intros r Hr Q. apply (Free (d + r * (1 - d))%Q).
  - assert (0 <= r * (1 - d))%Q by (apply Qmult_le_0_compat; lra).
    assert (0 <= (1 - r) * (1 - d))%Q by (apply Qmult_le_0_compat; lra). lra.
  - apply onC_iff. refine (onC_peq _ _ _ Q). unfold z0.
    split; [|split]; cbn [comb padd pscale emb along fst snd hx hy hw]; ring.
Qed.

(** ** The converse *)
Lemma open_seg i p q s : inTp i p -> inCp i q -> (0 <= s < 1)%Q -> inT pos ts i (comb (emb p) (emb q) s).
Proof.
  intros (a & b & c & x & y & z & V & T1 & T2 & T3) Hq Hs. apply (inC_view _ _ _ _ _ _ _ _ _ _ V) in Hq.
  destruct Hq as (C1 & C2 & C3). apply (inT_view _ _ _ _ _ _ _ _ _ _ V).
  assert (F : forall u v, (det u v (emb p) < 0)%Q -> (det u v (emb q) <= 0)%Q -> (det u v (comb (emb p) (emb q) s) < 0)%Q).
  { intros u v A B. rewrite det_comb.
    assert (0 < (1 - s) * (- det u v (emb p)))%Q by (apply Qmul_pos; lra).
    assert (0 <= s * (- det u v (emb q)))%Q by (apply Qmult_le_0_compat; lra). lra. }
  split; [|split]; apply F; auto.
Qed.

Lemma open_apart i p q : inTp i p -> inCp i q -> ~ onC (emb q) -> apart at_ cs p q.
Proof.
  intros Hp Hq No s Hs Q. apply onC_iff in Q. apply (onC_peq _ _ (emb_along p q s)) in Q.
  destruct (Qlt_le_dec s 1) as [L|L].
  - revert Q. apply (open_free px py ts M (fun u v => Cn u v) Cn_edge i). apply open_seg; auto. lra.
  - apply No. revert Q. apply onC_peq. assert (Es : (s == 1)%Q) by lra.
    split; [|split]; cbn [comb padd pscale emb hx hy hw]; rewrite Es; ring.
Qed.

Lemma linked_first p q r : apart at_ cs p q -> linked at_ cs q r -> linked at_ cs p r.
Proof.
  intros H. induction 1 as [|r' r Hl IH Ha].
  - apply (linked_next _ _ _ p); auto. constructor.
  - exact (linked_next _ _ _ r' r IH Ha).
Qed.

Lemma domain_first p q : apart at_ cs p q -> in_domain at_ cs q -> in_domain at_ cs p.
Proof. intros H (r & Hl & Hs). exists r. split; auto. now apply (linked_first p q). Qed.

Lemma seed_domain i u v n p : he ts i u v n -> Cn u v -> inTp i p -> in_domain at_ cs p.
Proof.
  intros (c & y & z & V) Hc Hp. exists p. split; [constructor|].
  destruct (Cn_cs u v Hc) as (e & He & Hpr & Su & Sv). destruct (Cn_edge u v Hc) as (_ & Fu & Fv).
  set (mid := along (at_ (efrom e)) (at_ (eto e)) (1 # 2)).
  assert (Pm : peq (emb mid) (CCross.onseg px py u v (1 # 2) (1 # 2))).
  { unfold mid, CCross.onseg. rewrite (hpos_fin px py u Fu), (hpos_fin px py v Fv).
    destruct Su as (U1 & U2). destruct Sv as (V1 & V2). unfold along, place in *. cbn [fst snd] in *.
    split; [|split]; cbn [emb fst snd padd pscale hx hy hw]; rewrite ?U1, ?U2, ?V1, ?V2; ring. }
  destruct (edge_tri px py u v ts i c n y z (1 # 2) (1 # 2) M V) as (Z1 & Z2 & Z3); [lra|lra|].
  rewrite <- Pm in Z1, Z2, Z3.
  assert (Cm : inCp i mid) by (apply (inC_view _ _ _ _ _ _ _ _ _ _ V); repeat split; lra).
  exists e, (1 # 2)%Q. split; auto. split; [lra|]. split.
  - apply (inT_view _ _ _ _ _ _ _ _ _ _ V) in Hp. destruct Hp as (T1 & _). rewrite det_place in T1 by auto.
    rewrite (orient_same _ _ _ _ _ p Su Sv) in T1; auto. split; reflexivity.
  - intros t Ht Q. fold mid in Q. apply (on_same _ _ (along_flip mid p t)) in Q.
    apply onC_iff in Q. apply (onC_peq _ _ (emb_along p mid (1 - t))) in Q. revert Q.
    apply (open_free px py ts M (fun u v => Cn u v) Cn_edge i). apply open_seg; auto. lra.
Qed.

Lemma hw_tri a b c : (det (pos a) (pos b) (pos c) < 0)%Q -> (0 < hw (pos a) + (hw (pos b) + hw (pos c)))%Q.
Proof.
  intros C. pose proof (three_inf px py a b c) as T.
  destruct (hw_cases px py a) as [(Fa & Ha)|(Fa & Ha)], (hw_cases px py b) as [(Fb & Hb)|(Fb & Hb)],
    (hw_cases px py c) as [(Fc & Hc)|(Fc & Hc)]; rewrite Ha, Hb, Hc; try lra.
  exfalso. specialize (T Fa Fb Fc). lra.
Qed.

Lemma open_point i a b c x y z : view ts i a b c x y z -> exists p, inTp i p.
Proof.
  intros V. pose proof (M_cw _ _ M _ _ _ _ _ _ _ V) as C. pose proof (det_rot3 (pos a) (pos b) (pos c)) as (R1 & R2).
  set (g := padd (pos a) (padd (pos b) (pos c))).
  assert (Hg : (0 < hw g)%Q) by (unfold g; cbn [padd hw]; now apply hw_tri).
  destruct (aff_scale g Hg) as (l & Hl & Dl). exists (aff g). apply (inT_view _ _ _ _ _ _ _ _ _ _ V).
  split; [|split]; rewrite Dl; apply neg_scale; auto; unfold g; rewrite !det_padd;
    rewrite ?det_aba, ?det_baa; lra.
Qed.

(** An edge with two neighbors has a point of the plane between its ends. *)
Lemma edge_point i u v c n y z : view ts i u v c n y z -> n <> NONE ->
  exists p, (det (pos u) (pos v) (emb p) == 0)%Q /\ (det (pos v) (pos c) (emb p) < 0)%Q /\ (det (pos c) (pos u) (emb p) < 0)%Q.
Proof.
  intros V Hn. pose proof (M_cw _ _ M _ _ _ _ _ _ _ V) as C. pose proof (det_rot3 (pos u) (pos v) (pos c)) as (R1 & R2).
  destruct (view_he _ _ _ _ _ _ _ _ V) as (He & _). pose proof (glue_some _ _ M _ _ _ _ He Hn) as (d & y' & z' & V').
  pose proof (M_cw _ _ M _ _ _ _ _ _ _ V') as C'.
  set (g := padd (pos u) (pos v)).
  assert (Hg : (0 < hw g)%Q).
  { unfold g; cbn [padd hw].
    destruct (hw_cases px py u) as [(Fu & Hu)|(Fu & Hu)], (hw_cases px py v) as [(Fv & Hv)|(Fv & Hv)]; rewrite Hu, Hv; try lra.
    exfalso. unfold det in C, C'. rewrite (hw_inf px py u Fu), (hw_inf px py v Fv) in C, C'.
    set (k := (hx (pos u) * hy (pos v) - hy (pos u) * hx (pos v))%Q) in *.
    assert (K1 : (k * hw (pos c) < 0)%Q) by (unfold k; lra). assert (K2 : (0 < k * hw (pos d))%Q) by (unfold k; lra).
    pose proof (hw_nonneg px py c). pose proof (hw_nonneg px py d).
    destruct (Qlt_le_dec k 0).
    - assert (0 <= (- k) * hw (pos d))%Q by (apply Qmult_le_0_compat; lra). lra.
    - assert (0 <= k * hw (pos c))%Q by (apply Qmult_le_0_compat; lra). lra. }
  destruct (aff_scale g Hg) as (l & Hl & Dl). exists (aff g). rewrite !Dl. unfold g. rewrite !det_padd.
  rewrite !det_aba, !det_baa, R1, R2. split; [lra|]. split.
  - assert (0 < l * (- det (pos u) (pos v) (pos c)))%Q by (apply Qmul_pos; lra). lra.
  - assert (0 < l * (- det (pos u) (pos v) (pos c)))%Q by (apply Qmul_pos; lra). lra.
Qed.

Lemma kept_domain i : K i -> forall p, inTp i p -> in_domain at_ cs p.
Proof.
  induction 1 as [i t k Ht Hc|i t k Ki IH Ht Hc Hn]; intros p Hp.
  - apply (seed_domain i (tv t k) (tv t (next_cw k)) (tn t k) p); auto; [now apply he_at|]. destruct k; exact Hc.
  - pose proof (he_at _ _ _ k Ht) as He. set (u := tv t k) in *. set (v := tv t (next_cw k)) in *. set (n := tn t k) in *.
    assert (Hc' : ~ Cn u v) by (intros Q; apply Hc; destruct k; exact Q).
    pose proof (glue_some _ _ M _ _ _ _ He Hn) as He'.
    destruct (in_dec (fun x y => match edge_eqb x y as b return edge_eqb x y = b -> {x = y} + {x <> y} with
        | true => fun Q => left (proj1 (edge_eqb_eq x y) Q)
        | false => fun Q => right (fun Q' => eq_true_false_abs _ (proj2 (edge_eqb_eq x y) Q') Q) end eq_refl) (Edge v u) cset) as [Hv|Hv].
    + exact (seed_domain n v u i p He' Hv Hp).
    + destruct He as (c & y & z & V). destruct He' as (d & y' & z' & V').
      destruct (edge_point i u v c n y z V Hn) as (q & Z1 & Z2 & Z3).
      destruct (open_point i u v c n y z V) as (r & Hr).
      assert (No : ~ onC (emb q)).
      { apply (edge_free px py ts M (fun u v => Cn u v) Cn_edge i u v c n y z); auto; [cbn; lra|]. split; auto. }
      assert (Ci : inCp i q) by (apply (inC_view _ _ _ _ _ _ _ _ _ _ V); repeat split; lra).
      assert (Cq : inCp n q).
      { apply (inC_view _ _ _ _ _ _ _ _ _ _ V').
        destruct (split2_other _ _ _ _ (M_cw _ _ M _ _ _ _ _ _ _ V) Z1 Z2 Z3 _ (M_cw _ _ M _ _ _ _ _ _ _ V')) as (Y1 & Y2).
        split; [|split]; [rewrite det_swap; lra|lra|lra]. }
      apply (domain_first p q); [exact (open_apart n p q Hp Cq No)|].
      apply (domain_first q r); [apply apart_sym; exact (open_apart i r q Hr Ci No)|]. now apply IH.
Qed.

Lemma closed_domain i p : K i -> inCp i p -> ~ on_constraint at_ cs p -> in_domain at_ cs p.
Proof.
  intros Ki Hp No. pose proof Hp as (a & b & c & x & y & z & V & _).
  destruct (open_point i a b c x y z V) as (r & Hr).
  apply (domain_first p r); [|now apply (kept_domain i)]. apply apart_sym. apply (open_apart i); auto.
  intros Q. now apply No, onC_iff.
Qed.

End Kept.

(** ** The entry point *)
Section Api.
Context {E : Env}.
Variables (fuel : nat) (bins : N) (vs : list vertex).
Variables px py : N -> Q.
Hypothesis X : Exact (normalized vs) px py.
Hypothesis XC : ExactC (normalized vs) px py.
Hypothesis Hid : 2 * lenN vs + 2 <= idmax.
Notation pos := (hpos px py).
Notation at_ := (place px py).

(** Constraints which do not cross each other are edges of the mesh. *)
Lemma run_edges cs out m ts cset :
  CdtRun fuel bins vs px py cs out m ts cset ->
  (forall r r', In r cs -> In r' cs -> ~ segments_cross (at_ (efrom r)) (at_ (eto r)) (at_ (efrom r')) (at_ (eto r'))) ->
  (forall u v, In (Edge u v) cset -> medge ts u v /\ is_finite u = true /\ is_finite v = true) /\
  (forall u v, In (Edge u v) cset -> exists e, In e cs /\ proper at_ e /\
     same_place (at_ u) (at_ (efrom e)) /\ same_place (at_ v) (at_ (eto e))) /\
  (forall e, In e cs -> proper at_ e -> exists u v, In (Edge u v) cset /\
     same_place (at_ u) (at_ (efrom e)) /\ same_place (at_ v) (at_ (eto e))).
Proof.
  intros R Hx. pose proof R as [R1 R2 R3 R4 R5 R6 R7 _ _].
  assert (Gm : forall v w, nthN m v = Some w -> hascorner ts w /\ is_finite w = true /\ samepos px py w v).
  { intros v w Hv. destruct (R2 v) as (w' & Q & K); [rewrite <- R3; now apply nthN_lt in Hv|].
    rewrite Hv in Q. injection Q as <-. exact K. }
  split; [|split].
  - intros u v Hc. apply R7 in Hc. destruct Hc as (Hne & c & Hc & Hm). cbn [efrom eto] in Hne.
    pose proof Hm as Hm'. apply map_edge_inv in Hm'. destruct Hm' as (Ha & Hb).
    destruct (Gm _ _ Ha) as (_ & Fu & Sa). destruct (Gm _ _ Hb) as (_ & Fv & Sb).
    split; auto.
    destruct (first_such (fun r => match map_edge m r with Some e => edge_eqb e (Edge u v) | None => false end) cs c Hc)
      as (l1 & raw & l2 & Ec & Hr & Hf1).
    { rewrite Hm. now apply edge_eqb_eq. }
    destruct (map_edge m raw) as [e|] eqn:He; [|discriminate]. apply edge_eqb_eq in Hr. subst e.
    apply (R6 l1 raw l2 u v Ec); auto.
    + intros r Hr Q. specialize (Hf1 r Hr). rewrite Q in Hf1.
      rewrite (proj2 (edge_eqb_eq _ _) eq_refl) in Hf1. discriminate.
    + intros r x y Hr Q Hcr. apply map_edge_inv in Q. destruct Q as (Qa & Qb).
      destruct (Gm _ _ Qa) as (_ & Fx & S1). destruct (Gm _ _ Qb) as (_ & Fy & S2).
      apply (Hx r c); auto.
      * rewrite Ec. apply in_or_app. right. now right.
      * apply (crosses_places px py) in Hcr; auto.
        eapply segments_cross_same; [| | | |exact Hcr]; auto.
  - intros u v Hc. apply R7 in Hc. destruct Hc as (Hne & c & Hc & Hm). cbn [efrom eto] in Hne.
    apply map_edge_inv in Hm. destruct Hm as (Ha & Hb).
    destruct (Gm _ _ Ha) as ((i & Cu) & Fu & Sa). destruct (Gm _ _ Hb) as ((j & Cv) & Fv & Sb).
    exists c. split; auto. split; [|auto]. intros (S1 & S2). apply Hne.
    apply (I_inj _ _ _ _ R1 i j u v Cu Cv Fu Fv). destruct Sa as (A1 & A2). destruct Sb as (B1 & B2).
    cbn [place fst snd] in S1, S2. split; rewrite ?A1, ?A2, ?B1, ?B2; auto.
  - intros e He Hp. destruct (R5 e He) as (Lf & Lt).
    destruct (R2 _ Lf) as (a & Ha & _ & Fa & Sa). destruct (R2 _ Lt) as (b & Hb & _ & Fb & Sb).
    exists a, b. split; [|split; [exact Sa|exact Sb]]. apply R7. cbn [efrom eto]. split.
    + intros Q. apply Hp. rewrite <- Q in Sb. apply (same_place_trans _ (at_ a)); [now apply same_place_sym|exact Sb].
    + exists e. split; auto. apply map_edge_inv. auto.
Qed.

Lemma out_kept ts ids a b c p : In (a, b, c) (emitted ts ids) -> inside_or_on (at_ a) (at_ b) (at_ c) p ->
  exists i, In i ids /\ inC pos ts i (emb p).
Proof.
  intros H (P1 & P2 & P3). destruct (emitted_In _ _ _ _ _ H) as (i & t & Hi & Ht & Ft & Q).
  exists i. split; auto. pose proof (view_exists _ _ _ Ht) as V. apply tri_fin_parts in Ft. destruct Ft as (F1 & F2 & F3).
  unfold tverts in Q. injection Q as <- <- <-.
  apply (inC_view _ _ _ _ _ _ _ _ _ _ V). split; [|split]; unfold emb; rewrite (det_orient_p px py); auto.
Qed.

(** Every returned triangle is in a domain. *)
Lemma cdt_inside cs out p : (4 * length vs + 12 <= fuel)%nat ->
  constrained_triangulation_from_2d_vertices fuel bins vs cs = Ret out ->
  (forall r r', In r cs -> In r' cs -> ~ segments_cross (at_ (efrom r)) (at_ (eto r)) (at_ (efrom r')) (at_ (eto r'))) ->
  ~ on_constraint at_ cs p -> Spec.covered at_ out p -> in_domain at_ cs p.
Proof.
  intros Hf H Hx No (((a, b), c) & Ht & In').
  destruct (N.ltb_spec (lenN vs) 3) as [L|H3].
  { unfold constrained_triangulation_from_2d_vertices in H. rewrite (proj2 (N.ltb_lt _ _) L) in H.
    apply Ret_inj in H. subst out. destruct Ht. }
  destruct (cdt_run fuel bins vs px py X XC Hid Hf cs out H3 H) as (m & ts & cset & R).
  destruct (run_edges cs out m ts cset R Hx) as (C1 & C2 & C3).
  pose proof R as [M0 _ _ _ _ _ _ (ids & _ & Hk & _ & Eo) _]. subst out.
  destruct (out_kept ts ids a b c p Ht In') as (i & Hi & Ci).
  apply (closed_domain px py ts (I_mesh _ _ _ _ M0) cs cset C1 C2 C3 i p); auto. now apply Hk.
Qed.

Hypothesis Hf2 : ((2 * length vs + 4) * (2 * length vs + 4) <= fuel)%nat.

(** What the unconstrained triangulation covers is covered by the final mesh. *)
Lemma cdt_covs cs out dt : 3 <= lenN vs ->
  constrained_triangulation_from_2d_vertices fuel bins vs cs = Ret out ->
  triangulation_from_2d_vertices fuel bins vs = Ret dt ->
  (forall e, In e cs -> proper at_ e -> covers_between at_ dt (efrom e) (eto e)) ->
  exists m ts cset, CdtRun fuel bins vs px py cs out m ts cset /\
    forall p, Spec.covered at_ dt p -> Cov px py ts (emb p).
Proof.
  intros H3 H H0 Hcv.
  assert (Hf : (4 * length vs + 12 <= fuel)%nat) by nia.
  apply dt_inv in H0. destruct H0 as [(L & ->)|(_ & nvs & c1 & c2 & c3 & s0 & NV & _ & W0 & E0)]; [lia|].
  assert (EN : nvs = normalized vs) by (unfold normalized; now rewrite NV). rewrite EN in *. clear EN NV.
  destruct (cdt_run fuel bins vs px py X XC Hid Hf cs out H3 H) as (m & ts & cset & R).
  pose proof R as [M0 _ _ _ R5 _ _ (ids & _ & Hk & _ & Eo) (s & W & SM & AC)].
  pose proof (wrap_erased fuel bins (normalized vs) (Some (rangeN 0 (length vs)))) as Er.
  rewrite W in Er. cbn [erased] in Er. rewrite W0 in Er. apply Ret_inj in Er. subst s0. cbn [erase s_ts] in E0.
  assert (Hb : exists order, bin_sort bins (normalized vs) = Ret order).
  { unfold wrap_and_triangulate in W. destruct (bin_sort bins (normalized vs)); try discriminate. eauto. }
  destruct Hb as (order & Hb).
  destruct (base_total fuel bins vs px py X Hid Hf2 order H3 Hb) as [(s1 & m1 & v2t & B)|(v & _ & W1)]; [|congruence].
  pose proof (B_wrap _ _ _ _ _ _ _ _ B) as W1. rewrite W in W1. apply Ret_inj in W1. subst s1.
  pose proof (B_map _ _ _ _ _ _ _ _ B) as SM1. rewrite SM in SM1. injection SM1 as <-.
  unfold apply_constraints in AC. rewrite (B_index _ _ _ _ _ _ _ _ B) in AC. cbn [bind] in AC.
  destruct (foldM (apply_constraint fuel (normalized vs) m) cs (CSt (s_ts s) v2t [])) as [s'| | |] eqn:Fo;
    cbn [bind] in AC; try discriminate.
  apply Ret_inj in AC. injection AC as Et Ec.
  assert (Sz : (length (s_ts s) * length (s_ts s) + length (s_ts s) <= fuel)%nat).
  { pose proof (B_size _ _ _ _ _ _ _ _ B). nia. }
  assert (Cv : Covs px py (s_ts s) ts).
  { rewrite <- Et. apply (fold_cov (normalized vs) px py X XC m fuel cs (CSt (s_ts s) v2t []) s' (B_inv _ _ _ _ _ _ _ _ B)
      (B_mapped _ _ _ _ _ _ _ _ B) Sz); auto.
    intros raw a b Hr Hm Hne. cbn [c_ts].
    apply (covered_segcov fuel bins vs px py s m v2t raw a b B Hm). rewrite <- E0. apply Hcv; auto.
    intros (S1 & S2). apply Hne. apply map_edge_inv in Hm. destruct Hm as (Ha & Hb').
    destruct (B_mapped _ _ _ _ _ _ _ _ B _ _ Ha) as ((ia & Ca) & Fa). destruct (B_mapped _ _ _ _ _ _ _ _ B _ _ Hb') as ((ib & Cb) & Fb).
    pose proof (I_inj _ _ _ _ (C_inv _ _ _ _ _ (B_inv _ _ _ _ _ _ _ _ B))) as Ij. cbn [c_ts] in Ij.
    apply (Ij ia ib a b); auto.
    destruct (B_same _ _ _ _ _ _ _ _ B _ _ Ha) as (A1 & A2). destruct (B_same _ _ _ _ _ _ _ _ B _ _ Hb') as (B1 & B2).
    cbn [fst snd place] in S1, S2. split; rewrite ?A1, ?A2, ?B1, ?B2; auto. }
  exists m, ts, cset. split; [exact R|].
  intros p (((a, b), c) & Ht & P1 & P2 & P3). rewrite E0 in Ht.
  destruct (out_inv _ _ _ _ Ht) as (i & n1 & n2 & n3 & V & Fa & Fb & Fc).
  apply Cv. exists i, a, b, c, n1, n2, n3. split; auto. split; auto. split; auto. split; auto.
  split; [|split]; unfold emb; rewrite (det_orient_p px py); auto.
Qed.

Lemma cdt_domain cs out dt p :
  constrained_triangulation_from_2d_vertices fuel bins vs cs = Ret out ->
  triangulation_from_2d_vertices fuel bins vs = Ret dt ->
  (forall r r', In r cs -> In r' cs -> ~ segments_cross (at_ (efrom r)) (at_ (eto r)) (at_ (efrom r')) (at_ (eto r'))) ->
  (forall e, In e cs -> proper at_ e -> covers_between at_ dt (efrom e) (eto e)) ->
  Spec.covered at_ dt p -> ~ on_constraint at_ cs p ->
  (Spec.covered at_ out p <-> in_domain at_ cs p).
Proof.
  intros H H0 Hx Hcv Hp No.
  assert (Hf : (4 * length vs + 12 <= fuel)%nat) by nia.
  split; [exact (cdt_inside cs out p Hf H Hx No)|]. intros (q & Hl & Hs).
  destruct (N.ltb_spec (lenN vs) 3) as [L|H3].
  { apply dt_inv in H0. destruct H0 as [(_ & ->)|(H3 & _)]; [|lia]. destruct Hp as (t & [] & _). }
  destruct (cdt_covs cs out dt H3 H H0 Hcv) as (m & ts & cset & R & Cv).
  destruct (run_edges cs out m ts cset R Hx) as (C1 & C2 & C3).
  pose proof R as [M0 _ _ _ R5 _ _ (ids & _ & Hk & _ & Eo) _].
  assert (Ak : all_kept px py ts cset p).
  { apply (linked_kept px py ts (I_mesh _ _ _ _ M0) (I_inj _ _ _ _ M0) cs cset C1 C2 C3 p q Hl).
    exact (sees_kept px py ts (I_mesh _ _ _ _ M0) (I_inj _ _ _ _ M0) cs cset C1 C2 C3 q Hs). }
  destruct (Cv p Hp) as (j & x & y & z & k1 & k2 & k3 & V' & Fx & Fy & Fz & Cj).
  assert (Kj : kept ts cset j).
  { apply Ak. apply (inC_view _ _ _ _ _ _ _ _ _ _ V'). exact Cj. }
  apply Hk in Kj. subst out. pose proof V' as (t & k & Ht' & Er').
  assert (Cp : forall u v, is_finite u = true -> is_finite v = true -> (det (pos u) (pos v) (emb p) <= 0)%Q -> (orient (at_ u) (at_ v) p <= 0)%Q).
  { intros u v Fu Fv Q. unfold emb in Q. now rewrite (det_orient_p px py) in Q. }
  destruct Cj as (Q1 & Q2 & Q3). apply Cp in Q1, Q2, Q3; auto.
  exists (tverts t). split.
  - unfold emitted. apply in_flat_map. exists j. split; auto. rewrite Ht'.
    assert (Ft : tri_is_finite t = true).
    { unfold rot in Er'. unfold tri_is_finite. destruct t, k; cbn in Er' |- *; injection Er' as <- <- <- _ _ _; now rewrite Fx, Fy, Fz. }
    rewrite Ft. now left.
  - unfold tri_inside_or_on, inside_or_on, tverts. destruct t, k; cbn in Er' |- *; injection Er' as <- <- <- _ _ _; auto.
Qed.
End Api.
