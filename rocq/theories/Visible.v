(** * Visible: a locally constrained Delaunay triangulation is constrained Delaunay: no vertex
    seen from a triangle is inside its circumcircle. *)

From Coq Require Import NArith List Bool Lia QArith Lqa Permutation.
From Verif Require Import Base BaseFacts Arith Types Utils Infinite Triangulation Constrained Geom Mesh
  MeshOps Exact ExactC MeshVerts MeshEdge AnyDT SpecCdt AnyCDT Walk Insert DTExact Spec DTOut CSwap CCross CReg CPres
  CTerm CApply CTotal CdtApi CdtTotal Domain SpecDomain SpecVisible DomainApi Lifted Lawson Empty.
Import ListNotations.
Local Open Scope N_scope.

(** ** A segment that touches another one *)
Section Touch.
Local Open Scope Q_scope.

(** The way from p' to v meets the segment from u to w; p has the same place as p' with respect
    to the lines through u, v and w, or is on them: the way from p meets it too. *)
Lemma touch (v u w p p' : point) t s : 0 <= t < 1 -> 0 <= s <= 1 -> same_place (along p' v t) (along u w s) ->
  ~ (orient v u p' == 0 /\ orient v w p' == 0) ->
  (orient v u p < 0 -> orient v u p' < 0) -> (0 < orient v u p -> 0 < orient v u p') ->
  (orient v w p < 0 -> orient v w p' < 0) -> (0 < orient v w p -> 0 < orient v w p') ->
  (orient u w p < 0 -> orient u w p' < 0) -> (0 < orient u w p -> 0 < orient u w p') ->
  exists t0 s0, 0 <= t0 < 1 /\ 0 <= s0 <= 1 /\ same_place (along p v t0) (along u w s0).
Proof.
  intros Ht Hs (X & Y) Nz A1 A2 B1 B2 C1 C2.
  set (d := orient u w v).
  assert (E1 : (1 - t) * orient v u p' == s * d).
  { transitivity (orient v u (along p' v t)); [unfold orient, along; cbn [fst snd]; ring|].
    transitivity (orient v u (along u w s)); [|unfold d, orient, along; cbn [fst snd]; ring].
    unfold orient. now rewrite X, Y. }
  assert (E2 : (1 - t) * orient v w p' == - ((1 - s) * d)).
  { transitivity (orient v w (along p' v t)); [unfold orient, along; cbn [fst snd]; ring|].
    transitivity (orient v w (along u w s)); [|unfold d, orient, along; cbn [fst snd]; ring].
    unfold orient. now rewrite X, Y. }
  assert (E3 : (1 - t) * orient u w p' == - (t * d)).
  { transitivity (orient u w (along p' v t) - t * d); [unfold d, orient, along; cbn [fst snd]; ring|].
    transitivity (orient u w (along u w s) - t * d); [|unfold d, orient, along; cbn [fst snd]; ring].
    unfold orient. now rewrite X, Y. }
  assert (Sum : orient v u p - orient v w p + orient u w p == d) by (unfold d, orient; ring).
  assert (Cx : d * fst p == orient v u p * fst w - orient v w p * fst u + orient u w p * fst v) by (unfold d, orient; ring).
  assert (Cy : d * snd p == orient v u p * snd w - orient v w p * snd u + orient u w p * snd v) by (unfold d, orient; ring).
  clearbody d.
  set (a := orient v u p) in *. set (b := orient v w p) in *. set (c := orient u w p) in *.
  set (a' := orient v u p') in *. set (b' := orient v w p') in *. set (c' := orient u w p') in *.
  assert (Nd : ~ d == 0).
  { intros Z. apply Nz. rewrite Z in E1, E2. split.
    - assert (K : (1 - t) * a' == 0) by lra. apply Qmult_integral in K. destruct K; lra.
    - assert (K : (1 - t) * b' == 0) by lra. apply Qmult_integral in K. destruct K; lra. }
  assert (Sg : (0 < d /\ 0 <= a /\ b <= 0 /\ c <= 0) \/ (d < 0 /\ a <= 0 /\ 0 <= b /\ 0 <= c)).
  { destruct (Qlt_le_dec d 0) as [K|K]; [right|left; assert (0 < d) by (destruct (Qlt_le_dec 0 d); auto; exfalso; apply Nd; lra)];
      (split; [auto|]); repeat split; apply Qnot_lt_le; intros L;
      try (specialize (A1 L)); try (specialize (A2 L)); try (specialize (B1 L)); try (specialize (B2 L));
      try (specialize (C1 L)); try (specialize (C2 L)); nra. }
  clear Nz A1 A2 B1 B2 C1 C2 E1 E2 E3 X Y.
  assert (Np : ~ a - b == 0) by (intros Z; destruct Sg; lra).
  set (k := / (a - b)). assert (Hk : k * (a - b) == 1) by (unfold k; field; auto).
  exists (- c * k), (a * k).
  assert (Rg : 0 <= - c * k /\ - c * k < 1 /\ 0 <= a * k /\ a * k <= 1).
  { assert (K1 : - c * k == 1 - d * k) by (rewrite <- Hk; rewrite <- Sum; ring).
    assert (K2 : a * k == 1 - (- b) * k) by (rewrite <- Hk; ring).
    destruct Sg as [(D0 & A0 & B0 & C0)|(D0 & A0 & B0 & C0)].
    - assert (Pk : 0 < k) by (unfold k; apply Qinv_lt_0_compat; lra).
      assert (0 <= - c * k) by (apply Qmult_le_0_compat; lra). assert (0 <= a * k) by (apply Qmult_le_0_compat; lra).
      assert (0 < d * k) by (apply Qmul_pos; lra). assert (0 <= - b * k) by (apply Qmult_le_0_compat; lra).
      repeat split; lra.
    - assert (Pk : 0 < - k).
      { assert (Z : - k == / (b - a)) by (unfold k; field; split; lra). rewrite Z. apply Qinv_lt_0_compat. lra. }
      assert (0 <= c * - k) by (apply Qmult_le_0_compat; lra). assert (0 <= - a * - k) by (apply Qmult_le_0_compat; lra).
      assert (0 < - d * - k) by (apply Qmul_pos; lra). assert (0 <= b * - k) by (apply Qmult_le_0_compat; lra).
      repeat split; lra. }
  split; [lra|]. split; [lra|].
  assert (Fin : forall x y z x0 : Q, d * x == a * y - b * z + c * x0 -> x + (- c * k) * (x0 - x) == z + (a * k) * (y - z)).
  { intros x y z x0 Q.
    assert (K : x == x * (k * (a - b))) by (rewrite Hk; ring).
    assert (K' : z == z * (k * (a - b))) by (rewrite Hk; ring).
    transitivity (k * (d * x) - c * k * x0); [rewrite K at 1; rewrite <- Sum; ring|].
    rewrite Q. rewrite K' at 2. ring. }
  split; cbn [fst snd along]; now apply Fin.
Qed.
End Touch.

Section Api.
Context {E : Env}.
Variables (fuel : nat) (bins : N) (vs : list vertex).
Variables px py : N -> Q.
Notation pos := (hpos px py).
Notation at_ := (place px py).
Notation fin v := (is_finite v = true).

(** ** A point in general position with respect to v, near another one *)
Lemma near_point ts p v : fin v -> hascorner ts v ->
  exists p', (forall x y, hascorner ts x -> hascorner ts y -> fin x -> fin y ->
      (orient (at_ x) (at_ y) p < 0 -> orient (at_ x) (at_ y) p' < 0) /\
      (0 < orient (at_ x) (at_ y) p -> 0 < orient (at_ x) (at_ y) p'))%Q /\
    forall w, hascorner ts w -> fin w -> ~ samepos px py w v -> ~ (orient (at_ v) (at_ w) p' == 0)%Q.
Proof.
  intros Fv Cv.
  set (neg := fun uw : N * N => if Qlt_le_dec (det (pos (fst uw)) (pos (snd uw)) (emb p)) 0 then true else false).
  destruct (generic_near px py (fst p) (snd p) (filter neg (list_prod (corners ts) (corners ts))) v (corners ts) Fv)
    as (x & y & H & Gen).
  { intros u w Hw. apply filter_In in Hw. destruct Hw as (Hw & Hn). apply in_prod_iff in Hw. destruct Hw as (Hu & Hw).
    split; [exact (corners_fin ts u Hu)|]. split; [exact (corners_fin ts w Hw)|].
    unfold neg in Hn. cbn [fst snd] in Hn. destruct (Qlt_le_dec (det (pos u) (pos w) (emb p)) 0); [auto|discriminate]. }
  { intros w. apply corners_fin. }
  exists (x, y).
  assert (Neg : forall u w, hascorner ts u -> hascorner ts w -> fin u -> fin w ->
     (orient (at_ u) (at_ w) p < 0 -> orient (at_ u) (at_ w) (x, y) < 0)%Q).
  { intros u w Cu Cw Fu Fw K. rewrite <- (det_place px py) in K |- * by auto. apply (H u w). apply filter_In.
    split; [apply in_prod; now apply corners_in|]. unfold neg. cbn [fst snd].
    destruct (Qlt_le_dec (det (pos u) (pos w) (emb p)) 0); auto. lra. }
  split.
  - intros u w Cu Cw Fu Fw. split; [now apply Neg|]. intros K.
    assert (Fl : forall q, (orient (at_ w) (at_ u) q == - orient (at_ u) (at_ w) q)%Q) by (intros q; unfold orient; ring).
    pose proof (Neg w u Cw Cu Fw Fu) as K'. rewrite !Fl in K'. lra.
  - intros w Cw Fw Ns. rewrite <- (det_place px py) by auto. apply Gen; auto. now apply corners_in.
Qed.

Lemma circle_same a b c d d' : same_place d d' -> in_circumcircle a b c d -> in_circumcircle a b c d'.
Proof.
  intros (Q1 & Q2) (o & H1 & H2 & H3). exists o. split; auto. split; auto.
  unfold sqdist in *. now rewrite <- Q1, <- Q2.
Qed.

Lemma kept_out ts ids i a b c n1 n2 n3 : view ts i a b c n1 n2 n3 -> In i ids -> fin a -> fin b -> fin c ->
  is_tri (emitted ts ids) a b c.
Proof.
  intros (t & k & Ht & Er) Hi Fa Fb Fc.
  assert (K : In (tverts t) (emitted ts ids)).
  { unfold emitted. apply in_flat_map. exists i. split; auto. rewrite Ht.
    assert (Ft : tri_is_finite t = true).
    { unfold rot in Er. unfold tri_is_finite. destruct t, k; cbn in Er |- *; injection Er as <- <- <- _ _ _; now rewrite Fa, Fb, Fc. }
    rewrite Ft. now left. }
  unfold is_tri, tverts, rot in *. destruct t, k; cbn in Er, K |- *; injection Er as <- <- <- _ _ _; auto.
Qed.

Hypothesis X : Exact (normalized vs) px py.
Hypothesis XC : ExactC (normalized vs) px py.
Hypothesis Hid : 2 * lenN vs + 2 <= idmax.
Hypothesis Hf2 : ((2 * length vs + 4) * (2 * length vs + 4) <= fuel)%nat.

(** The three corners of a triangle of the list covered by a convex area: the triangle is. *)
Lemma convex_tri dt a b c p : convex_area at_ dt ->
  Spec.covered at_ dt (at_ a) -> Spec.covered at_ dt (at_ b) -> Spec.covered at_ dt (at_ c) ->
  strictly_inside (at_ a) (at_ b) (at_ c) p -> Spec.covered at_ dt p.
Proof.
  intros Cx Ka Kb Kc (P1 & P2 & P3).
  set (d1 := orient (at_ a) (at_ b) p) in *. set (d2 := orient (at_ b) (at_ c) p) in *. set (d3 := orient (at_ c) (at_ a) p) in *.
  set (s := (d3 / (d2 + d3))%Q). set (r := (d1 / (d1 + d2 + d3))%Q).
  assert (N1 : (~ d2 + d3 == 0)%Q) by lra. assert (N2 : (~ d1 + d2 + d3 == 0)%Q) by lra.
  assert (Frac : forall x y, (x < 0)%Q -> (y < 0)%Q -> (0 <= x / (x + y) <= 1)%Q).
  { intros x y Hx Hy. assert (Q : (x / (x + y) == (- x) * / (- x + - y))%Q) by (field; lra).
    assert (Pk : (0 < / (- x + - y))%Q) by (apply Qinv_lt_0_compat; lra). rewrite Q.
    assert (K : (/ (- x + - y) * (- x + - y) == 1)%Q) by (field; lra). set (k := (/ (- x + - y))%Q) in *.
    assert (0 <= - x * k)%Q by (apply Qmult_le_0_compat; lra). assert (0 <= - y * k)%Q by (apply Qmult_le_0_compat; lra). lra. }
  assert (Hs : (0 <= s <= 1)%Q).
  { unfold s. assert (Q : (d3 / (d2 + d3) == d3 / (d3 + d2))%Q) by (field; lra). rewrite Q. apply Frac; auto. }
  assert (Hr : (0 <= r <= 1)%Q).
  { unfold r. assert (Q : (d1 / (d1 + d2 + d3) == d1 / (d1 + (d2 + d3)))%Q) by (field; lra). rewrite Q. apply Frac; lra. }
  pose proof (Cx _ _ r (Cx _ _ s Ka Kb Hs) Kc Hr) as K.
  assert (Sm : same_place (along (along (at_ a) (at_ b) s) (at_ c) r) p).
  { assert (S : (d1 + d2 + d3 == orient (at_ a) (at_ b) (at_ c))%Q) by (unfold d1, d2, d3, orient; ring).
    assert (Cd : forall f, ((d1 + d2 + d3) * f == f * orient (at_ a) (at_ b) (at_ c))%Q) by (intros; rewrite S; ring).
    assert (Ex : ((d1 + d2 + d3) * fst p == d2 * fst (at_ a) + d3 * fst (at_ b) + d1 * fst (at_ c))%Q)
      by (unfold d1, d2, d3, orient; ring).
    assert (Ey : ((d1 + d2 + d3) * snd p == d2 * snd (at_ a) + d3 * snd (at_ b) + d1 * snd (at_ c))%Q)
      by (unfold d1, d2, d3, orient; ring).
    clear S Cd K. split; unfold along; cbn [fst snd].
    - assert (Q : (fst p == (d2 * fst (at_ a) + d3 * fst (at_ b) + d1 * fst (at_ c)) / (d1 + d2 + d3))%Q) by (rewrite <- Ex; field; auto).
      rewrite Q. unfold r, s. field. auto.
    - assert (Q : (snd p == (d2 * snd (at_ a) + d3 * snd (at_ b) + d1 * snd (at_ c)) / (d1 + d2 + d3))%Q) by (rewrite <- Ey; field; auto).
      rewrite Q. unfold r, s. field. auto. }
  destruct K as (t & Ht & Kt). exists t. split; auto. destruct t as ((x, y), z), Sm as (S1 & S2).
  unfold tri_inside_or_on, inside_or_on, orient in *. now rewrite S1, S2 in Kt.
Qed.

Theorem cdt_visible cs out dt :
  constrained_triangulation_from_2d_vertices fuel bins vs cs = Ret out ->
  triangulation_from_2d_vertices fuel bins vs = Ret dt ->
  (forall r r', In r cs -> In r' cs -> ~ segments_cross (at_ (efrom r)) (at_ (eto r)) (at_ (efrom r')) (at_ (eto r'))) ->
  (forall e, In e cs -> proper at_ e -> covers_between at_ dt (efrom e) (eto e)) ->
  convex_area at_ dt -> (forall v, v < lenN vs -> Spec.covered at_ dt (at_ v)) ->
  constrained_delaunay at_ cs out -> visibly_delaunay at_ cs (lenN vs) out.
Proof.
  intros H H0 Hx Hcv Cx Ac Cd a b c p v0 Ht Hin Hv See Circ.
  destruct (N.ltb_spec (lenN vs) 3) as [L|H3].
  { unfold constrained_triangulation_from_2d_vertices in H. rewrite (proj2 (N.ltb_lt _ _) L) in H.
    apply Ret_inj in H. subst out. destruct Ht. }
  destruct (cdt_covs fuel bins vs px py X XC Hid Hf2 cs out dt H3 H H0 Hcv) as (m & ts & cset & R & Cv).
  destruct (run_edges fuel bins vs px py cs out m ts cset R Hx) as (C1 & C2 & C3).
  pose proof R as [M0 Rm _ Rc R5 _ _ (ids & _ & Hk & _ & Eo) _].
  pose proof M0 as [M _ J _].
  destruct (Rm v0 Hv) as (v & _ & Cw & Fv & Sv). clear Rm.
  assert (Sv' : same_place (at_ v0) (at_ v)) by (apply same_place_sym; exact Sv).
  apply (circle_same _ _ _ _ _ Sv') in Circ.
  assert (See' : sees at_ cs p (at_ v)).
  { intros s Hs K. apply (See s Hs). revert K. apply (on_same px py ts cs cset C1 C2 C3).
    destruct Sv' as (S1 & S2). unfold along. split; cbn [fst snd]; rewrite ?S1, ?S2; reflexivity. }
  assert (Lv : v < lenN vs) by (apply Rc; auto).
  pose proof Ht as Ht'. rewrite Eo in Ht'. destruct (emitted_In _ _ _ _ _ Ht') as (i & t & Hi & Hti & Fti & Qt).
  pose proof (view_exists _ _ _ Hti) as V. apply tri_fin_parts in Fti. destruct Fti as (Fa & Fb & Fc).
  unfold tverts in Qt. injection Qt as Qa Qb Qc. rewrite Qa, Qb, Qc in *.
  set (n1 := tn t I1) in *. set (n2 := tn t I2) in *. set (n3 := tn t I3) in *.
  destruct (near_point ts p v Fv Cw) as (p' & Near & Gen).
  assert (Ka : hascorner ts a /\ hascorner ts b /\ hascorner ts c).
  { destruct (view_he _ _ _ _ _ _ _ _ V) as (G1 & G2 & G3). split; [|split]; exists i; eexists; eexists; eauto. }
  destruct Ka as (Ka & Kb & Kc).
  assert (Hin' : strictly_inside (at_ a) (at_ b) (at_ c) p').
  { destruct Hin as (P1 & P2 & P3). split; [|split]; [apply (Near a b)|apply (Near b c)|apply (Near c a)]; auto. }
  assert (Clear : forall s, (0 <= s < 1)%Q -> ~ on_constraint at_ cs (along p' (at_ v) s)).
  { intros s Hs (e & k & He & Hp & Hkk & Sm). destruct (C3 e He Hp) as (u & w & Hc & Su & Sw).
    destruct (C1 u w Hc) as (Hm & Fu & Fw). destruct (medge_both px py u w Fu Fw ts M Hm) as ((j & n & Hj) & (j' & n' & Hj')).
    assert (Cu : hascorner ts u) by (exists j; eexists; eexists; eauto).
    assert (Cww : hascorner ts w) by (exists j'; eexists; eexists; eauto).
    destruct (touch (at_ v) (at_ u) (at_ w) p p' s k) as (t0 & s0 & T0 & S0 & Sm0); auto; try (now apply Near).
    - destruct Sm as (S1 & S2), Su as (U1 & U2), Sw as (W1 & W2). unfold along in *. cbn [fst snd] in *.
      split; cbn [fst snd]; rewrite ?U1, ?U2, ?W1, ?W2; auto.
    - intros (Z1 & Z2). apply Hp.
      assert (Same : forall w, hascorner ts w -> fin w -> (orient (at_ v) (at_ w) p' == 0)%Q -> samepos px py w v).
      { intros y Cy Fy Z. destruct (Qeq_dec (px y) (px v)) as [X1|X1]; [destruct (Qeq_dec (py y) (py v)) as [X2|X2]|];
          [split; auto| |]; exfalso; apply (Gen y Cy Fy); auto; intros (Y1 & Y2); auto. }
      destruct (Same u Cu Fu Z1) as (U1 & U2). destruct (Same w Cww Fw Z2) as (W1 & W2).
      apply (same_place_trans _ (at_ u)); [now apply same_place_sym|]. apply (same_place_trans _ (at_ w)); [|auto].
      split; cbn [place fst snd]; rewrite ?U1, ?U2, ?W1, ?W2; reflexivity.
    - apply (See' t0 T0). exists e, s0. split; auto. split; auto. split; auto.
      apply (same_place_trans _ (along (at_ u) (at_ w) s0)); auto.
      destruct Su as (U1 & U2), Sw as (W1 & W2). unfold along. split; cbn [fst snd]; rewrite ?U1, ?U2, ?W1, ?W2; reflexivity. }
  assert (Ow : forall s, peq (onway px py v (fst p') (snd p') s) (emb (along p' (at_ v) s))).
  { intros s. unfold onway, along, emb. split; [|split]; cbn [fst snd hx hy hw place]; reflexivity. }
  assert (Cp' : Spec.covered at_ dt p').
  { apply (convex_tri dt a b c p'); auto; apply Ac; apply Rc; auto. }
  assert (Hkp : forall s j, (0 <= s < 1)%Q -> inC pos ts j (emb (along p' (at_ v) s)) -> kept ts cset j).
  { intros s j Hs Hj.
    apply (constant px py ts M J (kept ts cset) (fun u v => In (Edge u v) cset) (K_step ts cset) (emb p') (emb (along p' (at_ v) s)) i j); auto;
      try (cbn; lra).
    - intros r Hr K. apply (Clear (r * s)%Q).
      + split; [apply Qmult_le_0_compat; lra|]. assert (0 <= (1 - r) * s)%Q by (apply Qmult_le_0_compat; lra). lra.
      + apply (onC_iff px py ts cs cset C1 C2 C3). revert K. apply onC_peq.
        unfold comb, along, emb. split; [|split]; cbn [fst snd padd pscale hx hy hw]; ring.
    - apply (inC_view _ _ _ _ _ _ _ _ _ _ V). destruct Hin' as (P1 & P2 & P3).
      split; [|split]; rewrite (det_place px py); auto; lra.
    - now apply Hk. }
  assert (Ld : ldel px py a b c v).
  { apply (seen_empty (normalized vs) px py ts v (fst p') (snd p') i a b c M0 Fv Cw); auto.
    - intros w Cw' Fw Ns K. apply (Gen w Cw' Fw Ns). rewrite <- (det_place px py) by auto. exact K.
    - intros i' j' a' b' c' d' s S0 S1 (k1 & k2 & k3 & Vi) (k4 & k5 & k6 & Vj) Fa' Fb' Fc' Fd' Z1 Z2 Z3.
      rewrite (Ow s) in Z1, Z2, Z3.
      pose proof (M_cw _ _ M _ _ _ _ _ _ _ Vi) as Ci. pose proof (M_cw _ _ M _ _ _ _ _ _ _ Vj) as Cj.
      destruct (split2_other _ _ _ _ Ci Z1 Z2 Z3 _ Cj) as (Y1 & Y2).
      assert (Ki : kept ts cset i').
      { apply (Hkp s); [lra|]. apply (inC_view _ _ _ _ _ _ _ _ _ _ Vi). repeat split; lra. }
      assert (Kj : kept ts cset j').
      { apply (Hkp s); [lra|]. apply (inC_view _ _ _ _ _ _ _ _ _ _ Vj).
        split; [|split]; [rewrite det_swap; lra|lra|lra]. }
      apply (ldel_circle px py). intros K.
      destruct (Cd a' b' c' d') as (e & He & Se); auto.
      + rewrite Eo. apply (kept_out ts ids i' a' b' c' _ _ _ Vi); auto. now apply Hk.
      + rewrite Eo. apply (kept_out ts ids j' b' a' d' _ _ _ Vj); auto. now apply Hk.
      + apply (Clear s); [lra|].
        rewrite (det_place px py) in Z1, Z2, Z3 by auto.
        set (r := along p' (at_ v) s) in *.
        (* r is on the segment a'b' *)
        assert (Ci' : (orient (at_ a') (at_ b') (at_ c') < 0)%Q) by (rewrite <- (det_orient px py) by auto; exact Ci).
        assert (Sum : (orient (at_ b') (at_ c') r + orient (at_ c') (at_ a') r == orient (at_ a') (at_ b') (at_ c'))%Q).
        { assert (Q : (orient (at_ a') (at_ b') r + orient (at_ b') (at_ c') r + orient (at_ c') (at_ a') r == orient (at_ a') (at_ b') (at_ c'))%Q)
            by (unfold orient; ring). lra. }
        assert (Ex : (orient (at_ a') (at_ b') (at_ c') * fst r ==
           orient (at_ b') (at_ c') r * fst (at_ a') + orient (at_ c') (at_ a') r * fst (at_ b') + orient (at_ a') (at_ b') r * fst (at_ c'))%Q)
          by (unfold orient; ring).
        assert (Ey : (orient (at_ a') (at_ b') (at_ c') * snd r ==
           orient (at_ b') (at_ c') r * snd (at_ a') + orient (at_ c') (at_ a') r * snd (at_ b') + orient (at_ a') (at_ b') r * snd (at_ c'))%Q)
          by (unfold orient; ring).
        rewrite Z1 in Ex, Ey. rewrite <- Sum in Ex, Ey, Ci'.
        set (e2 := orient (at_ b') (at_ c') r) in *. set (e3 := orient (at_ c') (at_ a') r) in *.
        set (k := (/ (- (e2 + e3)))%Q).
        assert (Pk : (0 < k)%Q) by (unfold k; apply Qinv_lt_0_compat; lra).
        assert (Hk1 : (k * - (e2 + e3) == 1)%Q) by (unfold k; field; lra).
        assert (R2 : (0 <= - e2 * k)%Q) by (apply Qmult_le_0_compat; lra).
        assert (R3 : (0 <= - e3 * k)%Q) by (apply Qmult_le_0_compat; lra).
        assert (Er : same_place r (along (at_ a') (at_ b') (- e3 * k))).
        { assert (W : forall x y z : Q, ((e2 + e3) * x == e2 * y + e3 * z + 0 * 0)%Q -> (x == y + (- e3 * k) * (z - y))%Q).
          { intros x y z Q. transitivity (x * (k * - (e2 + e3)))%Q; [rewrite Hk1; ring|].
            transitivity (- k * ((e2 + e3) * x))%Q; [ring|]. rewrite Q.
            transitivity (y * (k * - (e2 + e3)) + (- e3 * k) * (z - y))%Q; [ring|]. rewrite Hk1. ring. }
          unfold along. split; cbn [fst snd]; apply W; lra. }
        assert (Np : ~ same_place (at_ a') (at_ b')).
        { intros (S2 & S3). assert (K' : (orient (at_ a') (at_ b') (at_ c') == 0)%Q) by (unfold orient; rewrite S2, S3; ring). lra. }
        destruct Se as [(Sa & Sb)|(Sa & Sb)].
        * exists e, (- e3 * k)%Q. split; auto. split.
          { intros Q. apply Np. apply (same_place_trans _ (at_ (efrom e))); [now apply same_place_sym|].
            apply (same_place_trans _ (at_ (eto e))); auto. }
          split; [lra|]. apply (same_place_trans _ _ _ Er).
          destruct Sa as (U1 & U2), Sb as (W1 & W2). unfold along. split; cbn [fst snd]; rewrite ?U1, ?U2, ?W1, ?W2; reflexivity.
        * exists e, (1 - (- e3 * k))%Q. split; auto. split.
          { intros Q. apply Np. apply (same_place_trans _ (at_ (eto e))); [now apply same_place_sym|].
            apply (same_place_trans _ (at_ (efrom e))); auto. now apply same_place_sym. }
          split; [lra|]. apply (same_place_trans _ _ _ Er).
          destruct Sa as (U1 & U2), Sb as (W1 & W2). unfold along. split; cbn [fst snd]; rewrite ?U1, ?U2, ?W1, ?W2; ring.
    - intros s j x y z S0 S1 Hj (k1 & k2 & k3 & Vj).
      assert (K : Spec.covered at_ dt (along p' (at_ v) s)) by (apply Cx; auto; lra).
      destruct (Cv _ K) as (l & u1 & u2 & u3 & m1 & m2 & m3 & Vl & F1 & F2 & F3 & Hc).
      assert (j = l).
      { apply (open_closed_excl _ _ M j l (onway px py v (fst p') (snd p') s)); auto.
        apply (inC_peq px py ts l _ _ (peq_sym _ _ (Ow s))). now apply (inC_view _ _ _ _ _ _ _ _ _ _ Vl). }
      subst l. destruct (view_fun _ _ _ _ _ _ _ _ _ _ _ _ _ _ Vj Vl) as [Q|[Q|Q]]; destruct Q as (-> & -> & -> & _); auto.
    - exists n1, n2, n3. exact V.
    - destruct Hin' as (P1 & P2 & P3). split; [|split]; [rewrite <- (det_place px py) in P1|rewrite <- (det_place px py) in P2|rewrite <- (det_place px py) in P3]; auto. }
  apply (ldel_circle px py) in Ld. exact (Ld Circ).
Qed.
End Api.
