(** * CCharact: the result of a constrained triangulation as the set of the triangles in the
    domains whose circumcircle contains no vertex seen from the triangle. *)

From Coq Require Import ZArith NArith List Bool Lia QArith Lqa Permutation.
From Verif Require Import Base BaseFacts Arith Types Utils Infinite Triangulation Constrained Geom Mesh
  MeshOps Exact ExactC MeshVerts MeshEdge AnyDT SpecCdt AnyCDT Walk Insert DTExact Spec DTOut CSwap CCross CReg CPres
  CTerm CApply CTotal CdtApi CdtTotal Domain SpecDomain SpecVisible DomainApi Visible
  GridSpec InputSpec GridApi GridCdt SpecBox BoxGrid DomainGrid CDelApi CDelGrid VisibleGrid SpecUnique Unique Charact.
Import ListNotations.
Local Open Scope N_scope.

(** ** Triangles *)
Section Tri.
Local Open Scope Q_scope.

Lemma inside_along a b c p q s : strictly_inside a b c p -> inside_or_on a b c q -> 0 <= s < 1 ->
  strictly_inside a b c (along p q s).
Proof.
  intros (P1 & P2 & P3) (C1 & C2 & C3) Hs.
  assert (F : forall u v, orient u v p < 0 -> orient u v q <= 0 -> orient u v (along p q s) < 0).
  { intros u v A B. assert (E : orient u v (along p q s) == (1 - s) * orient u v p + s * orient u v q)
      by (unfold orient, along; cbn [fst snd]; ring). rewrite E.
    assert (0 < (1 - s) * (- orient u v p)) by (apply Qmul_pos; lra).
    assert (0 <= s * (- orient u v q)) by (apply Qmult_le_0_compat; lra). lra. }
  split; [|split]; now apply F.
Qed.

Lemma corner_on a b c v : clockwise a b c -> v = a \/ v = b \/ v = c -> inside_or_on a b c v.
Proof.
  unfold clockwise, inside_or_on, orient. intros C [->|[->| ->]]; repeat split; lra.
Qed.

(** Two triangles, one of which contains a point inside the other one, have common inside points. *)
Lemma common_inside a b c x y z m : clockwise a b c -> inside_or_on a b c m -> strictly_inside x y z m ->
  exists p, strictly_inside a b c p /\ strictly_inside x y z p.
Proof.
  intros C (M1 & M2 & M3) (X1 & X2 & X3).
  set (g := ((fst a + fst b + fst c) / 3, (snd a + snd b + snd c) / 3)).
  assert (Hg : strictly_inside a b c g).
  { unfold clockwise in C. unfold strictly_inside, g, orient in *. cbn [fst snd].
    assert (T : forall k : Q, k / 3 == (1 # 3) * k) by (intros; field). rewrite !T. repeat split; lra. }
  destruct (small_neg [(orient x y m, orient x y g - orient x y m); (orient y z m, orient y z g - orient y z m);
                       (orient z x m, orient z x g - orient z x m); (-1, 1)]) as (d & Hd & Sm).
  pose proof (Sm _ (or_introl eq_refl)) as S1. pose proof (Sm _ (or_intror (or_introl eq_refl))) as S2.
  pose proof (Sm _ (or_intror (or_intror (or_introl eq_refl)))) as S3.
  pose proof (Sm _ (or_intror (or_intror (or_intror (or_introl eq_refl))))) as S4. cbn [fst snd] in S1, S2, S3, S4.
  specialize (S1 X1). specialize (S2 X2). specialize (S3 X3). specialize (S4 ltac:(lra)).
  assert (E : forall u v, orient u v (along m g d) == orient u v m + d * (orient u v g - orient u v m))
    by (intros; unfold orient, along; cbn [fst snd]; ring).
  exists (along m g d). split; [|split; [|split]; rewrite E; auto].
  destruct Hg as (G1 & G2 & G3).
  assert (F : forall u v, orient u v m <= 0 -> orient u v g < 0 -> orient u v (along m g d) < 0).
  { intros u v A B. rewrite E. assert (0 < d * (- orient u v g)) by (apply Qmul_pos; lra).
    assert (0 <= (1 - d) * (- orient u v m)) by (apply Qmult_le_0_compat; lra). lra. }
  split; [|split]; now apply F.
Qed.

Lemma inside_same a b c x y z p : same_place a x -> same_place b y -> same_place c z ->
  strictly_inside x y z p -> strictly_inside a b c p.
Proof.
  intros A B C (P1 & P2 & P3). pose proof (same_refl p) as S.
  split; [|split]; [rewrite (orient_same _ _ _ _ _ _ A B S)|rewrite (orient_same _ _ _ _ _ _ B C S)|rewrite (orient_same _ _ _ _ _ _ C A S)]; auto.
Qed.

Lemma inside_rotate a b c p : strictly_inside a b c p -> strictly_inside b c a p.
Proof. intros (P1 & P2 & P3). repeat split; auto. Qed.

Lemma circle_rotate a b c v : in_circumcircle a b c v -> in_circumcircle b c a v.
Proof. intros (o & A & B & C). exists o. repeat split; lra. Qed.
End Tri.

(** ** Lists of triangles *)
Section Charact.
Variables (at_ : N -> point) (cs : list edge) (n : N) (out : list (N * N * N)).
Hypothesis Ids : forall a b c, In (a, b, c) out -> a < n /\ b < n /\ c < n.
Hypothesis Cw : forall a b c, In (a, b, c) out -> clockwise (at_ a) (at_ b) (at_ c).
Hypothesis Free : forall a b c p, In (a, b, c) out -> strictly_inside (at_ a) (at_ b) (at_ c) p ->
  in_domain at_ cs p /\ ~ on_constraint at_ cs p.
Hypothesis Vis : visibly_delaunay at_ cs n out.

Lemma free_sees a b c p v : clockwise (at_ a) (at_ b) (at_ c) ->
  (forall p, strictly_inside (at_ a) (at_ b) (at_ c) p -> ~ on_constraint at_ cs p) ->
  strictly_inside (at_ a) (at_ b) (at_ c) p -> v = a \/ v = b \/ v = c -> sees at_ cs p (at_ v).
Proof.
  intros C Fr Hp Hv s Hs. apply Fr. apply inside_along; auto. apply corner_on; auto.
  destruct Hv as [->|[->| ->]]; auto.
Qed.

Lemma listed_constrained x y z : triangle_at at_ out x y z -> constrained_triangle at_ cs n x y z.
Proof.
  intros (((a, b), c) & Ht & Sm) p Hp.
  assert (K : forall u v w, In (u, v, w) out \/ In (v, w, u) out \/ In (w, u, v) out ->
    strictly_inside (at_ u) (at_ v) (at_ w) p -> in_domain at_ cs p /\ ~ on_constraint at_ cs p /\
    forall i, i < n -> sees at_ cs p (at_ i) -> ~ in_circumcircle (at_ u) (at_ v) (at_ w) (at_ i)).
  { intros u v w [H|[H|H]] I.
    - destruct (Free _ _ _ p H I) as (F1 & F2). split; auto. split; auto. intros i Hi Si. exact (Vis _ _ _ p i H I Hi Si).
    - apply inside_rotate in I. destruct (Free _ _ _ p H I) as (F1 & F2). split; auto. split; auto.
      intros i Hi Si C. exact (Vis _ _ _ p i H I Hi Si (circle_rotate _ _ _ _ C)).
    - do 2 apply inside_rotate in I. destruct (Free _ _ _ p H I) as (F1 & F2). split; auto. split; auto.
      intros i Hi Si C. exact (Vis _ _ _ p i H I Hi Si (circle_rotate _ _ _ _ (circle_rotate _ _ _ _ C))). }
  assert (L : forall u v w, same_place (at_ x) (at_ u) -> same_place (at_ y) (at_ v) -> same_place (at_ z) (at_ w) ->
    In (u, v, w) out \/ In (v, w, u) out \/ In (w, u, v) out ->
    in_domain at_ cs p /\ ~ on_constraint at_ cs p /\
    forall i, i < n -> sees at_ cs p (at_ i) -> ~ in_circumcircle (at_ x) (at_ y) (at_ z) (at_ i)).
  { intros u v w Sx Sy Sz H. destruct (K u v w H) as (K1 & K2 & K3).
    { apply (inside_same _ _ _ (at_ x) (at_ y) (at_ z)); auto using same_place_sym. }
    split; auto. split; auto. intros i Hi Si C. apply (K3 i Hi Si).
    exact (circle_same_all _ _ _ _ _ _ _ _ Sx Sy Sz (same_refl _) C). }
  cbn [same_triangle] in Sm. destruct Sm as [(S1 & S2 & S3)|[(S1 & S2 & S3)|(S1 & S2 & S3)]].
  - apply (L a b c); auto.
  - apply (L b c a); auto.
  - apply (L c a b); auto.
Qed.

Hypothesis Gp : no_seen_circle_of_four at_ cs n.

Lemma constrained_listed x y z : x < n -> y < n -> z < n -> clockwise (at_ x) (at_ y) (at_ z) ->
  covered at_ out (mid at_ (x, y, z)) -> constrained_triangle at_ cs n x y z -> triangle_at at_ out x y z.
Proof.
  intros Lx Ly Lz C (((a, b), c) & Ht & Hm) Ct. cbn [tri_inside_or_on] in Hm.
  pose proof (mid_inside at_ (x, y, z) C) as Mi. cbn [tri_inside] in Mi.
  destruct (common_inside _ _ _ _ _ _ _ (Cw _ _ _ Ht) Hm Mi) as (p & Pa & Px).
  destruct (Ids _ _ _ Ht) as (La & Lb & Lc).
  assert (Sx : forall v, v = x \/ v = y \/ v = z -> sees at_ cs p (at_ v)).
  { intros v Hv. apply (free_sees x y z); auto. intros q Hq. apply (Ct q Hq). }
  assert (Sa : forall v, v = a \/ v = b \/ v = c -> sees at_ cs p (at_ v)).
  { intros v Hv. apply (free_sees a b c); auto. intros q Hq. apply (Free _ _ _ q Ht Hq). }
  assert (Vx : forall v, v < n -> v = x \/ v = y \/ v = z -> ~ in_circumcircle (at_ a) (at_ b) (at_ c) (at_ v)).
  { intros v Lv Hv. exact (Vis _ _ _ p v Ht Pa Lv (Sx v Hv)). }
  destruct (Ct p Px) as (_ & _ & Em).
  assert (Va : forall v, v < n -> v = a \/ v = b \/ v = c -> ~ in_circumcircle (at_ x) (at_ y) (at_ z) (at_ v)).
  { intros v Lv Hv. exact (Em v Lv (Sa v Hv)). }
  destruct (overlap_circle (at_ a) (at_ b) (at_ c) (at_ x) (at_ y) (at_ z) p (Cw _ _ _ Ht) C Pa) as (Oa & Ob & Oc); auto.
  { destruct Px as (P1 & P2 & P3). repeat split; lra. }
  assert (At : forall v, v < n -> sees at_ cs p (at_ v) -> on_circumcircle (at_ x) (at_ y) (at_ z) (at_ v) ->
    same_place (at_ v) (at_ x) \/ same_place (at_ v) (at_ y) \/ same_place (at_ v) (at_ z)).
  { intros v Lv Sv Ov. destruct (same_place_dec (at_ v) (at_ x)) as [|N1]; auto.
    destruct (same_place_dec (at_ v) (at_ y)) as [|N2]; auto. destruct (same_place_dec (at_ v) (at_ z)) as [|N3]; auto.
    exfalso. destruct (Gp x y z v p Lx Ly Lz Lv C Px N1 N2 N3 Ov Sv) as (w & q & Lw & Hq & Sw & Cw').
    destruct (Ct q Hq) as (_ & _ & K). exact (K w Lw Sw Cw'). }
  exists (a, b, c). split; auto. cbn [same_triangle].
  destruct (corners_rotate _ _ _ _ _ _ (Cw _ _ _ Ht) C (At a La (Sa a (or_introl eq_refl)) Oa)
    (At b Lb (Sa b (or_intror (or_introl eq_refl))) Ob) (At c Lc (Sa c (or_intror (or_intror eq_refl))) Oc))
    as [(A & B & K)|[(A & B & K)|(A & B & K)]]; apply same_place_sym in A, B, K; auto.
Qed.
End Charact.

(** ** The entry point *)
Section Api.
Context {E : Env}.
Variables (fuel : nat) (bins : N) (vs : list vertex).
Variables px py : N -> Q.
Notation pos := (hpos px py).
Notation at_ := (place px py).
Hypothesis X : Exact (normalized vs) px py.
Hypothesis XC : ExactC (normalized vs) px py.
Hypothesis Hid : 2 * lenN vs + 2 <= idmax.
Hypothesis Hf : (4 * length vs + 12 <= fuel)%nat.

Lemma cdt_free cs out a b c : constrained_triangulation_from_2d_vertices fuel bins vs cs = Ret out ->
  (forall r r', In r cs -> In r' cs -> ~ segments_cross (at_ (efrom r)) (at_ (eto r)) (at_ (efrom r')) (at_ (eto r'))) ->
  In (a, b, c) out -> (a < lenN vs /\ b < lenN vs /\ c < lenN vs) /\
    forall p, strictly_inside (at_ a) (at_ b) (at_ c) p -> in_domain at_ cs p /\ ~ on_constraint at_ cs p.
Proof.
  intros H Hx Ht.
  destruct (N.ltb_spec (lenN vs) 3) as [L|H3].
  { unfold constrained_triangulation_from_2d_vertices in H. rewrite (proj2 (N.ltb_lt _ _) L) in H.
    apply Ret_inj in H. subst out. destruct Ht. }
  destruct (cdt_run fuel bins vs px py X XC Hid Hf cs out H3 H) as (m & ts & cset & R).
  destruct (run_edges fuel bins vs px py cs out m ts cset R Hx) as (C1 & C2 & C3).
  pose proof R as [M0 _ _ Rc _ _ _ (ids & _ & Hk & _ & Eo) _].
  pose proof Ht as Ht'. rewrite Eo in Ht'. destruct (emitted_In _ _ _ _ _ Ht') as (i & t & Hi & Hti & Fti & Qt).
  pose proof (view_exists _ _ _ Hti) as V. apply tri_fin_parts in Fti. destruct Fti as (Fa & Fb & Fc).
  unfold tverts in Qt. injection Qt as Qa Qb Qc. rewrite Qa, Qb, Qc in *.
  split.
  { destruct (view_he _ _ _ _ _ _ _ _ V) as (G1 & G2 & G3). split; [|split]; apply Rc; auto; exists i; eexists; eexists; eauto. }
  intros p Hp.
  assert (No : ~ on_constraint at_ cs p).
  { intros K. apply (onC_iff px py ts cs cset C1 C2 C3) in K. revert K.
    apply (open_free px py ts (I_mesh _ _ _ _ M0) (fun u v => In (Edge u v) cset) C1 i).
    apply (inT_view _ _ _ _ _ _ _ _ _ _ V). destruct Hp as (P1 & P2 & P3).
    split; [|split]; rewrite (det_place px py); auto. }
  split; auto. apply (cdt_inside fuel bins vs px py X XC Hid cs out p Hf H Hx No).
  exists (a, b, c). split; auto. destruct Hp as (P1 & P2 & P3). cbn. repeat split; lra.
Qed.
End Api.

(** ** The inputs of [InputSpec.v] *)
Section Grid.
Context {E : Env}.
Variables (vs : list vertex) (px py : N -> Q) (bound : Z).
Notation at_ := (pair_at px py).
Hypothesis G : exact_input vs at_ bound.
Hypothesis Hid : 2 * lenN vs + 2 <= idmax.
Variables (fuel : nat) (bins : N).
Hypothesis Hq : ((2 * length vs + 4) * (2 * length vs + 4) <= fuel)%nat.

Lemma grid_cexactly cs out dt :
  constrained_triangulation_from_2d_vertices fuel bins vs cs = Ret out ->
  triangulation_from_2d_vertices fuel bins vs = Ret dt ->
  noncrossing at_ cs ->
  (forall e, In e cs -> proper at_ e -> covers_between at_ dt (efrom e) (eto e)) ->
  convex_area at_ dt -> (forall v, v < lenN vs -> covered at_ dt (at_ v)) ->
  constrained_delaunay at_ cs out -> no_seen_circle_of_four at_ cs (lenN vs) ->
  forall x y z, x < lenN vs -> y < lenN vs -> z < lenN vs -> clockwise (at_ x) (at_ y) (at_ z) ->
    (triangle_at at_ out x y z <-> constrained_triangle at_ cs (lenN vs) x y z).
Proof.
  intros H H0 Nx Hcv Cx Cv Cd Gp x y z Lx Ly Lz C.
  assert (Hf : (4 * length vs + 12 <= fuel)%nat) by nia.
  pose proof (grid_visible vs px py bound G Hid fuel bins Hq cs out dt H H0 Nx Hcv Cx Cv Cd) as Vi.
  destruct (input_api vs px py bound G Hid) as (X & XC & _).
  pose proof (cdt_free fuel bins vs _ _ X XC Hid Hf cs out) as Fr.
  split.
  - apply listed_constrained; auto. intros a b c p Ht. exact (proj2 (Fr a b c H Nx Ht) p).
  - intros Ct. apply (constrained_listed at_ cs (lenN vs)); auto.
    + intros a b c Ht. exact (proj1 (Fr a b c H Nx Ht)).
    + intros a b c Ht. exact (vm_clockwise _ _ _ (grid_cdt_valid vs px py bound G Hid fuel bins Hf cs out H) _ Ht).
    + intros a b c p Ht. exact (proj2 (Fr a b c H Nx Ht) p).
    + destruct (Ct _ (mid_inside at_ (x, y, z) C)) as (K1 & K2 & _).
      apply (grid_domain vs px py bound G Hid fuel Hq bins cs out dt); auto.
      now apply (mid_covered at_ (lenN vs)).
Qed.

(** In a box. *)
Lemma grid_box_cexactly n a b c d cs out dt : (1 <= bound)%Z -> lenN vs = n + 4 ->
  Permutation [a; b; c; d] [n; n + 1; n + 2; n + 3] -> box_corners (at_ a) (at_ b) (at_ c) (at_ d) ->
  (forall v, v < n -> in_box (at_ a) (at_ c) (at_ v)) -> bins = 1 ->
  constrained_triangulation_from_2d_vertices fuel bins vs cs = Ret out ->
  triangulation_from_2d_vertices fuel bins vs = Ret dt ->
  noncrossing at_ cs ->
  (forall e, In e cs -> crosses_at_most at_ dt 2 e) -> no_seen_circle_of_four at_ cs (lenN vs) ->
  forall x y z, x < lenN vs -> y < lenN vs -> z < lenN vs -> clockwise (at_ x) (at_ y) (at_ z) ->
    (triangle_at at_ out x y z <-> constrained_triangle at_ cs (lenN vs) x y z).
Proof.
  intros Hb Hn Pm Bx Hin Hb1 H H0 Nx Few.
  assert (Hf : (4 * length vs + 12 <= fuel)%nat) by nia.
  destruct (grid_box_last vs px py bound G Hid fuel n a b c d Hf Hb Hn Pm Bx Hin) as (dt' & H0' & Cv & _).
  rewrite <- Hb1 in H0'. rewrite H0 in H0'. injection H0' as <-.
  destruct (grid_box_dt vs px py bound G Hid fuel bins Hq n a b c d dt Hb Hn Pm Bx Hin Hb1 H0) as (_ & Cb).
  destruct (input_api vs px py bound G Hid) as (X & XC & _).
  assert (H3 : 3 <= lenN vs) by lia.
  apply (grid_cexactly cs out dt); auto.
  - intros e He _. destruct (cdt_in_range fuel bins vs _ _ X XC Hid Hf cs out e H3 H He) as (K1 & K2). now apply Cb.
  - intros p q s Hp Hq' Hs. apply Cv. apply in_box_convex; auto; now apply Cv.
  - intros v Hv. apply Cv. destruct (N.ltb_spec v n) as [|Hge]; auto.
    assert (K : In v [a; b; c; d]).
    { apply (Permutation_in _ (Permutation_sym Pm)). simpl. lia. }
    destruct Bx as (B1 & B2 & B3 & B4 & B5 & B6). unfold in_box.
    destruct K as [<-|[<-|[<-|[<-|[]]]]]; repeat split; lra.
  - exact (grid_box_few vs px py bound G Hid fuel bins Hq n a b c d cs out dt Hb Hn Pm Bx Hin Hb1 H H0 Nx Few).
Qed.
End Grid.
