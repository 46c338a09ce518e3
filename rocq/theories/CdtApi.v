(** * CdtApi: the constrained edges in the output of the constrained triangulation. *)

From Coq Require Import NArith List Bool Lia QArith Lqa Permutation.
From Verif Require Import Base BaseFacts Arith Types Utils Infinite Triangulation Constrained Geom Mesh
  MeshOps Exact ExactC MeshVerts AnyDT SpecCdt AnyCDT Walk Insert DTExact Spec DTOut CSwap CCross CReg CPres CApply.
Import ListNotations.
Local Open Scope N_scope.

Section Points.
Local Open Scope Q_scope.

Lemma same_place_sym p q : same_place p q -> same_place q p.
Proof. intros (A & B). split; now symmetry. Qed.

Lemma same_place_trans p q r : same_place p q -> same_place q r -> same_place p r.
Proof. intros (A & B) (C & F). split; etransitivity; eauto. Qed.

Lemma orient_same a b c a' b' c' : same_place a a' -> same_place b b' -> same_place c c' ->
  orient a b c == orient a' b' c'.
Proof. intros (A1 & A2) (B1 & B2) (C1 & C2). unfold orient. rewrite A1, A2, B1, B2, C1, C2. reflexivity. Qed.

Lemma orient_along a b f g s :
  orient a b (along f g s) == (1 - s) * orient a b f + s * orient a b g.
Proof. unfold orient, along; simpl. ring. Qed.

Lemma segments_cross_same a b c d a' b' c' d' : same_place a a' -> same_place b b' -> same_place c c' ->
  same_place d d' -> segments_cross a b c d -> segments_cross a' b' c' d'.
Proof.
  intros A B C F (H1 & H2). split.
  - now rewrite <- (orient_same a b c a' b' c'), <- (orient_same a b d a' b' d') by auto.
  - now rewrite <- (orient_same c d a c' d' a'), <- (orient_same c d b c' d' b') by auto.
Qed.
End Points.

Lemma first_such {A} (f : A -> bool) : forall l x, In x l -> f x = true ->
  exists l1 y l2, l = l1 ++ y :: l2 /\ f y = true /\ forall z, In z l1 -> f z = false.
Proof.
  induction l as [|y l IH]; intros x Hx Fx; [destruct Hx|].
  destruct (f y) eqn:Fy.
  - exists [], y, l. repeat split; auto. intros z [].
  - destruct Hx as [->|Hx]; [congruence|]. destruct (IH x Hx Fx) as (l1 & z & l2 & -> & Fz & H).
    exists (y :: l1), z, l2. repeat split; auto. intros w [<-|Hw]; auto.
Qed.

Section Edges.
Context {E : Env}.
Variables (vs : list vertex) (px py : N -> Q).
Hypothesis X : Exact vs px py.

Notation pos := (hpos px py).
Notation D a b c := (det (pos a) (pos b) (pos c)).
Notation at_ := (place px py).

Lemma crosses_places a b c d : is_finite a = true -> is_finite b = true -> is_finite c = true -> is_finite d = true ->
  crosses px py a b c d <-> segments_cross (at_ a) (at_ b) (at_ c) (at_ d).
Proof.
  intros A B C F. unfold crosses, segments_cross.
  rewrite !(det_orient px py) by auto. tauto.
Qed.

(** An edge of the mesh between the copies of f and g. *)
Lemma respects_of_edge n ts ids a b f g : MInv vs px py ts -> medge ts a b ->
  is_finite a = true -> is_finite b = true -> samepos px py a f -> samepos px py b g -> a <> b ->
  (forall v, v < n -> exists w, hascorner ts w /\ is_finite w = true /\ samepos px py w v) ->
  respects at_ n (emitted ts ids) f g.
Proof.
  intros [M I J O] Hm Fa Fb Sa Sb Hne Hrep.
  assert (Sa' : same_place (at_ a) (at_ f)) by exact Sa.
  assert (Sb' : same_place (at_ b) (at_ g)) by exact Sb.
  assert (R0 : forall p, same_place p p) by (intros p; split; reflexivity).
  assert (Seg : forall u v s, is_finite u = true -> is_finite v = true ->
     (det (pos u) (pos v) (onseg px py a b (1 - s) s) == orient (at_ u) (at_ v) (along (at_ f) (at_ g) s))%Q).
  { intros u v s Fu Fv. rewrite (det_onseg px py), orient_along, !(det_orient px py) by auto.
    rewrite (orient_same (at_ u) (at_ v) (at_ a) (at_ u) (at_ v) (at_ f)) by auto.
    rewrite (orient_same (at_ u) (at_ v) (at_ b) (at_ u) (at_ v) (at_ g)) by auto. reflexivity. }
  constructor.
  - intros t u v Ht Huv Hc. apply emitted_filter in Ht. destruct t as ((x, y), z).
    destruct (out_inv _ _ _ _ Ht) as (i & n1 & n2 & n3 & V & Fx & Fy & Fz).
    destruct (view_he _ _ _ _ _ _ _ _ V) as (H1 & H2 & H3).
    assert (K : medge ts u v /\ is_finite u = true /\ is_finite v = true).
    { simpl in Huv. destruct Huv as [Q|[Q|[Q|[]]]]; injection Q as <- <-; (split; [left; eauto|auto]). }
    destruct K as (K & Fu & Fv).
    apply (edge_uncrossed vs px py X a b Fa Fb ts u v M I Hm K).
    apply crosses_places; auto. eapply segments_cross_same; [| | | |exact Hc]; auto using same_place_sym.
  - intros t s Ht Hs Hin. apply emitted_filter in Ht. destruct t as ((x, y), z).
    destruct (out_inv _ _ _ _ Ht) as (i & n1 & n2 & n3 & V & Fx & Fy & Fz). destruct Hin as (G1 & G2 & G3).
    destruct (edge_holder px py a b Fa Fb ts i (1 - s) s M Hm) as (Ca & Cb); [lra|lra| |].
    { apply (inC_view _ _ _ _ _ _ _ _ _ _ V). repeat split; rewrite Seg; auto. }
    exists a, b. split; [exact (corner_cases px py _ _ _ _ _ _ _ _ _ V Ca)|].
    split; [exact (corner_cases px py _ _ _ _ _ _ _ _ _ V Cb)|]. auto.
  - intros w s Hw Hs Sp. destruct (Hrep w Hw) as (w' & (j & Cw) & Fw & Sw).
    destruct (medge_both px py a b Fa Fb ts M Hm) as ((i & k & He) & _).
    destruct He as (c & y & z & V).
    destruct (edge_tri px py a b ts i c k y z (1 - s) s M V) as (Z1 & Z2 & Z3); [lra|lra|].
    assert (Pq : peq (pos w') (onseg px py a b (1 - s) s)).
    { destruct Sp as (P1 & P2). destruct Sw as (W1 & W2). destruct Sa as (A1 & A2). destruct Sb as (B1 & B2).
      unfold along in P1, P2. cbn [fst snd DTOut.place] in P1, P2.
      rewrite (hpos_fin px py w' Fw). unfold onseg. rewrite (hpos_fin px py a Fa), (hpos_fin px py b Fb).
      split; [|split]; cbn [hx hy hw padd pscale].
      - rewrite W1, P1, A1, B1. ring.
      - rewrite W2, P2, A2, B2. ring.
      - ring. }
    destruct (vertex_in_closed px py ts i a b c k y z j w' M V Cw Fw) as (u & Hu & Fu & Su).
    { split; [|split]; rewrite Pq; lra. }
    assert (Pu : peq (pos u) (onseg px py a b (1 - s) s)).
    { rewrite <- Pq. rewrite (hpos_fin px py u Fu), (hpos_fin px py w' Fw). destruct Su as (S1 & S2).
      split; [|split]; cbn [hx hy hw]; auto. reflexivity. }
    rewrite <- Pu in Z2, Z3.
    destruct (det_zero (pos b) (pos c)) as (_ & Q1 & _). destruct (det_zero (pos c) (pos a)) as (_ & _ & Q2).
    destruct (det_zero (pos c) (pos b)) as (_ & _ & Q3). destruct (det_zero (pos a) (pos c)) as (_ & _ & Q4).
    destruct Hu as [-> |[-> | ->]]; lra.
Qed.
End Edges.

(** ** The entry point *)
Section Api.
Context {E : Env}.
Variables (fuel : nat) (bins : N) (vs : list vertex).
Variables px py : N -> Q.
Hypothesis X : Exact (normalized vs) px py.
Hypothesis XC : ExactC (normalized vs) px py.
Hypothesis Hid : 2 * lenN vs + 2 <= idmax.
Hypothesis Hf : (4 * length vs + 12 <= fuel)%nat.

Notation at_ := (place px py).

(** A constraint which is not a repetition and which no later constraint crosses. *)
Lemma cdt_survives l1 c l2 out :
  ~ same_place (at_ (efrom c)) (at_ (eto c)) ->
  (forall r, In r l1 -> ~ (same_place (at_ (efrom r)) (at_ (efrom c)) /\ same_place (at_ (eto r)) (at_ (eto c)))) ->
  (forall r, In r l2 -> ~ segments_cross (at_ (efrom r)) (at_ (eto r)) (at_ (efrom c)) (at_ (eto c))) ->
  3 <= lenN vs ->
  constrained_triangulation_from_2d_vertices fuel bins vs (l1 ++ c :: l2) = Ret out ->
  exists m ts cset a b, CdtRun fuel bins vs px py (l1 ++ c :: l2) out m ts cset /\
    nthN m (efrom c) = Some a /\ nthN m (eto c) = Some b /\ medge ts a b /\
    respects at_ (lenN vs) out (efrom c) (eto c).
Proof.
  intros Hne H1 H2 H3 H. destruct (cdt_run fuel bins vs px py X XC Hid Hf _ _ H3 H) as (m & ts & cset & R).
  exists m, ts, cset. pose proof R as [R1 R2 R3 R4 R5 R6 _ (ids & _ & _ & _ & Eo) _].
  assert (Gm : forall v w, nthN m v = Some w -> hascorner ts w /\ is_finite w = true /\ samepos px py w v).
  { intros v w Hv. destruct (R2 v) as (w' & Q & K); [rewrite <- R3; now apply nthN_lt in Hv|].
    rewrite Hv in Q. injection Q as <-. exact K. }
  destruct (R5 c) as (Lf & Lt); [apply in_or_app; right; now left|].
  destruct (R2 _ Lf) as (a & Ha & Ca & Fa & Sa). destruct (R2 _ Lt) as (b & Hb & Cb & Fb & Sb).
  assert (Hab : a <> b).
  { intros Q. apply Hne. rewrite <- Q in Sb. apply (same_place_trans _ (at_ a)); [now apply same_place_sym|exact Sb]. }
  exists a, b. split; auto. split; auto. split; auto.
  assert (Hm : medge ts a b).
  { apply (R6 l1 c l2 a b eq_refl); auto.
    - apply map_edge_inv. auto.
    - intros r Hr Q. apply map_edge_inv in Q. destruct Q as (Qa & Qb).
      destruct (Gm _ _ Qa) as (_ & _ & S1). destruct (Gm _ _ Qb) as (_ & _ & S2).
      apply (H1 r Hr). split.
      + exact (same_place_trans (at_ (efrom r)) (at_ a) _ (same_place_sym (at_ a) (at_ (efrom r)) S1) (Sa : same_place (at_ a) (at_ (efrom c)))).
      + exact (same_place_trans (at_ (eto r)) (at_ b) _ (same_place_sym (at_ b) (at_ (eto r)) S2) (Sb : same_place (at_ b) (at_ (eto c)))).
    - intros r u v Hr Q Hc. apply map_edge_inv in Q. destruct Q as (Qa & Qb).
      destruct (Gm _ _ Qa) as (_ & Fu & S1). destruct (Gm _ _ Qb) as (_ & Fv & S2).
      apply (H2 r Hr). apply (crosses_places px py) in Hc; auto.
      eapply segments_cross_same; [| | | |exact Hc]; auto. }
  split; auto. rewrite Eo. apply (respects_of_edge (normalized vs) px py X (lenN vs) ts ids a b); auto.
  intros v Hv. destruct (R2 v Hv) as (w & _ & Q). eauto.
Qed.

(** Constraints which do not cross each other. *)
Lemma cdt_edges cs c out :
  (forall r r', In r cs -> In r' cs -> ~ segments_cross (at_ (efrom r)) (at_ (eto r)) (at_ (efrom r')) (at_ (eto r'))) ->
  In c cs -> ~ same_place (at_ (efrom c)) (at_ (eto c)) ->
  3 <= lenN vs ->
  constrained_triangulation_from_2d_vertices fuel bins vs cs = Ret out ->
  exists m ts cset a b, CdtRun fuel bins vs px py cs out m ts cset /\
    nthN m (efrom c) = Some a /\ nthN m (eto c) = Some b /\ medge ts a b /\
    respects at_ (lenN vs) out (efrom c) (eto c).
Proof.
  intros Hx Hc Hne H3 H.
  destruct (cdt_run fuel bins vs px py X XC Hid Hf _ _ H3 H) as (m & ts & cset & R).
  exists m, ts, cset. pose proof R as [R1 R2 R3 R4 R5 R6 _ (ids & _ & _ & _ & Eo) _].
  assert (Gm : forall v w, nthN m v = Some w -> hascorner ts w /\ is_finite w = true /\ samepos px py w v).
  { intros v w Hv. destruct (R2 v) as (w' & Q & K); [rewrite <- R3; now apply nthN_lt in Hv|].
    rewrite Hv in Q. injection Q as <-. exact K. }
  destruct (R5 c Hc) as (Lf & Lt).
  destruct (R2 _ Lf) as (a & Ha & Ca & Fa & Sa). destruct (R2 _ Lt) as (b & Hb & Cb & Fb & Sb).
  assert (Hab : a <> b).
  { intros Q. apply Hne. rewrite <- Q in Sb. apply (same_place_trans _ (at_ a)); [now apply same_place_sym|exact Sb]. }
  exists a, b. split; auto. split; auto. split; auto.
  assert (Hm : medge ts a b).
  { destruct (first_such (fun r => match map_edge m r with Some e => edge_eqb e (Edge a b) | None => false end) cs c Hc)
      as (l1 & raw & l2 & Ec & Hr & Hf1).
    { rewrite (proj2 (map_edge_inv m c a b) (conj Ha Hb)). now apply edge_eqb_eq. }
    destruct (map_edge m raw) as [e|] eqn:He; [|discriminate]. apply edge_eqb_eq in Hr. subst e.
    apply (R6 l1 raw l2 a b Ec); auto.
    - intros r Hr Q. specialize (Hf1 r Hr). rewrite Q in Hf1.
      rewrite (proj2 (edge_eqb_eq _ _) eq_refl) in Hf1. discriminate.
    - intros r u v Hr Q Hcr. apply map_edge_inv in Q. destruct Q as (Qa & Qb).
      destruct (Gm _ _ Qa) as (_ & Fu & S1). destruct (Gm _ _ Qb) as (_ & Fv & S2).
      apply (Hx r c); auto.
      + rewrite Ec. apply in_or_app. right. now right.
      + apply (crosses_places px py) in Hcr; auto.
        eapply segments_cross_same; [| | | |exact Hcr]; auto. }
  split; auto. rewrite Eo. apply (respects_of_edge (normalized vs) px py X (lenN vs) ts ids a b); auto.
  intros v Hv. destruct (R2 v Hv) as (w & _ & Q). eauto.
Qed.

(** The triangle on the clockwise side of a constrained edge is returned, unless it reaches
    infinity. *)
Lemma run_edge cs out m ts cset c a b :
  CdtRun fuel bins vs px py cs out m ts cset -> In c cs -> a <> b ->
  nthN m (efrom c) = Some a -> nthN m (eto c) = Some b -> medge ts a b ->
  In (b, a) (directed_edges (map tverts ts)) /\
  exists t, In t ts /\ In (a, b) (tri_edges (tverts t)) /\ (tri_is_finite t = true -> In (tverts t) out).
Proof.
  intros R Hc Hne Ha Hb Hm. pose proof R as [[M I J O] R2 R3 R4 R5 R6 R7 (ids & Nd & Hk & Hl & Eo) _].
  assert (Fa : is_finite a = true).
  { destruct (R2 (efrom c)) as (a' & Q & _ & F & _); [rewrite <- R3; now apply nthN_lt in Ha|]. congruence. }
  assert (Fb : is_finite b = true).
  { destruct (R2 (eto c)) as (b' & Q & _ & F & _); [rewrite <- R3; now apply nthN_lt in Hb|]. congruence. }
  destruct (medge_both px py a b Fa Fb ts M Hm) as ((i & n & H1) & (j & n' & H2)).
  assert (K : forall i u v n, he ts i u v n -> exists t k, nthN ts i = Some t /\ tedge t k = Edge u v /\
            In (u, v) (tri_edges (tverts t))).
  { clear. intros i u v n H. apply he_inv in H. destruct H as (t & k & Ht & <- & <- & _).
    exists t, k. split; auto. split; destruct k; simpl; auto. }
  split.
  - destruct (K _ _ _ _ H2) as (t & k & Ht & _ & Q). apply in_flat_map. exists (tverts t). split; auto.
    apply in_map. eapply nthN_In; eauto.
  - destruct (K _ _ _ _ H1) as (t & k & Ht & Ek & Q). exists t. split; [eapply nthN_In; eauto|]. split; auto.
    intros Ft. rewrite Eo. unfold emitted. apply in_flat_map. exists i. split.
    + apply Hk. apply (kept_seed ts cset i t k Ht). rewrite Ek. apply R7. cbn [efrom eto]. split; auto.
      exists c. split; auto. apply map_edge_inv. auto.
    + rewrite Ht, Ft. now left.
Qed.

End Api.
