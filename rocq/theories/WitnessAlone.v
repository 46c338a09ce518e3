(** * WitnessAlone: the polygons of [WitnessTiles] with another corner, so that the quadrilateral has no circle. *)

From Coq Require Import ZArith NArith List Bool QArith SpecFloat Lia Lqa Permutation.
From Verif Require Import Base Arith Types Utils Infinite Triangulation Constrained F64 Exact Spec DTOut GridSpec GridNum InputSpec GridApi GridCdt
  ApiProps Refuted Witness SpecBox SpecDomain SpecWinding SpecFilling SpecTiles Winding Inside WitnessWinding WitnessPolygon
  SpecUnique SpecVisible SpecAlone SpecTilesArea WitnessUnique WitnessOrder WitnessCExact WitnessLawson Charact BoxGrid WitnessTiles.
Import ListNotations.
Local Open Scope N_scope.

Definition lalone : list (Z * Z) := [(3,2); (2,8); (8,8); (8,2); (12,5); (14,10); (14,2); (0,0); (16,0); (16,16); (0,16)]%Z.

Lemma lalone_grid64 : on_grid (E := env64) (pts lalone) lalone (2 ^ 40).
Proof.
  exists (sf_is 53 1024), (2 ^ 4)%Z, 0%Z, 0%Z.
  split; [apply (Grid_f64 u32_max 4); lia|]. split; [|split].
  - apply f2_map. intros p Hp. simpl in Hp.
    decompose [or] Hp; try contradiction; subst; vm_compute; repeat split; reflexivity.
  - unfold fits, lalone. repeat split.
    1-4: simpl in H; intuition (subst; simpl; lia).
    + exists (0, 0)%Z. simpl. auto 16.
    + exists (0, 0)%Z. simpl. auto 16.
    + exists (16, 16)%Z. simpl. auto 16.
  - intros p Hp. simpl in Hp. decompose [or] Hp; try contradiction; subst; vm_compute; split; discriminate.
Qed.

Lemma lalone_ids : 2 * lenN (pts lalone) + 2 <= @idmax env64.
Proof. vm_compute. discriminate. Qed.
Lemma lalone_fuel : (700 >= (2 * length (pts lalone) + 4) * (2 * length (pts lalone) + 4))%nat.
Proof. apply Nat.leb_le. reflexivity. Qed.

Lemma lalone_points :
  zpoint lalone 0 = (3, 2)%Q /\ zpoint lalone 1 = (2, 8)%Q /\ zpoint lalone 2 = (8, 8)%Q /\ zpoint lalone 3 = (8, 2)%Q /\ zpoint lalone 4 = (12, 5)%Q /\ zpoint lalone 5 = (14, 10)%Q /\ zpoint lalone 6 = (14, 2)%Q /\ zpoint lalone 7 = (0, 0)%Q /\ zpoint lalone 8 = (16, 0)%Q /\ zpoint lalone 9 = (16, 16)%Q /\ zpoint lalone 10 = (0, 16)%Q.
Proof. repeat split. Qed.

Lemma lalone_corners : Permutation [7; 8; 9; 10] [7; 7 + 1; 7 + 2; 7 + 3] /\
  box_corners (zpoint lalone 7) (zpoint lalone 8) (zpoint lalone 9) (zpoint lalone 10) /\
  forall v, v < 7 -> in_box (zpoint lalone 7) (zpoint lalone 9) (zpoint lalone v).
Proof.
  split; [apply Permutation_refl|]. split; [vm_compute; repeat split; try reflexivity; discriminate|].
  intros v H. assert (K : v = 0 \/ v = 1 \/ v = 2 \/ v = 3 \/ v = 4 \/ v = 5 \/ v = 6) by lia.
  destruct lalone_points as (P0 & P1 & P2 & P3 & P4 & P5 & P6 & P7 & P8 & P9 & P10).
  decompose [or] K; subst v; rewrite ?P0, ?P1, ?P2, ?P3, ?P4, ?P5, ?P6, ?P7, ?P8, ?P9, ?P10; unfold in_box; cbn [fst snd]; split; split; lra.
Qed.

Lemma lalone_clear e : In e (concat tiles_three) -> efrom e < 11 /\ eto e < 11 /\ clear_between (zpoint lalone) 11 (efrom e) (eto e).
Proof.
  destruct lalone_points as (P0 & P1 & P2 & P3 & P4 & P5 & P6 & P7 & P8 & P9 & P10).
  intros He. cbn [concat tiles_three tile0 tile1 tile2 app In] in He.
  decompose [or] He; try contradiction; subst e; cbn [efrom eto]; (split; [lia|]; split; [lia|]).
  all: intros v s Hv Hs;
    assert (Hv' : v = 0 \/ v = 1 \/ v = 2 \/ v = 3 \/ v = 4 \/ v = 5 \/ v = 6 \/ v = 7 \/ v = 8 \/ v = 9 \/ v = 10) by lia;
    decompose [or] Hv'; subst v; rewrite ?P0, ?P1, ?P2, ?P3, ?P4, ?P5, ?P6, ?P7, ?P8, ?P9, ?P10;
    intros (Q1 & Q2); unfold along in Q1, Q2; cbn [fst snd] in Q1, Q2; lra.
Qed.

Lemma alone0_polygon : simple_polygon (zpoint lalone) tile0.
Proof.
  destruct lalone_points as (P0 & P1 & P2 & P3 & P4 & P5 & P6 & P7 & P8 & P9 & P10). split.
  - constructor.
    + unfold tile0. repeat constructor; cbn [In]; intuition discriminate.
    + intros e I (K1 & K2). cbn [tile0 In] in I. decompose [or] I; try contradiction; subst e; vm_compute in K1, K2; first [discriminate K1|discriminate K2].
    + intros e I. cbn [tile0 In] in I. decompose [or] I; try contradiction; subst e; let l := eval unfold tile0 in tile0 in pick l.
    + intros e I. cbn [tile0 In] in I. decompose [or] I; try contradiction; subst e; let l := eval unfold tile0 in tile0 in pick l.
    + intros e f I J (K1 & K2). cbn [tile0 In] in I, J. decompose [or] I; try contradiction; subst e; decompose [or] J; try contradiction; subst f;
        first [reflexivity|vm_compute in K1, K2; first [discriminate K1|discriminate K2]].
    + intros e f I J (K1 & K2). cbn [tile0 In] in I, J. decompose [or] I; try contradiction; subst e; decompose [or] J; try contradiction; subst f;
        first [reflexivity|vm_compute in K1, K2; first [discriminate K1|discriminate K2]].
    + intros e f s r I J S R (K1 & K2). cbn [tile0 In] in I, J.
      decompose [or] I; try contradiction; subst e; decompose [or] J; try contradiction; subst f; cbn [efrom eto] in K1, K2;
        rewrite ?P0, ?P1, ?P2, ?P3, ?P4, ?P5, ?P6, ?P7, ?P8, ?P9, ?P10 in K1, K2; unfold along in K1, K2; cbn [fst snd] in K1, K2; ends_meet.
  - assert (N : forall f g, In f tile0 -> In g tile0 -> same_place (zpoint lalone (eto f)) (zpoint lalone (efrom g)) ->
      forall e, same_loop (zpoint lalone) tile0 e f -> same_loop (zpoint lalone) tile0 e g).
    { intros f g _ J V e L. exact (loop_next _ _ _ _ _ L J V). }
    pose proof (N (Edge 0 1) (Edge 1 2) ltac:(cbn; tauto) ltac:(cbn; tauto) ltac:(split; reflexivity)) as N0.
    pose proof (N (Edge 1 2) (Edge 2 3) ltac:(cbn; tauto) ltac:(cbn; tauto) ltac:(split; reflexivity)) as N1.
    pose proof (N (Edge 2 3) (Edge 3 0) ltac:(cbn; tauto) ltac:(cbn; tauto) ltac:(split; reflexivity)) as N2.
    pose proof (N (Edge 3 0) (Edge 0 1) ltac:(cbn; tauto) ltac:(cbn; tauto) ltac:(split; reflexivity)) as N3.
    intros e f I J. cbn [tile0 In] in I, J.
    decompose [or] I; try contradiction; subst e; decompose [or] J; try contradiction; subst f; auto 8 using loop_here.
Qed.

Lemma alone1_polygon : simple_polygon (zpoint lalone) tile1.
Proof.
  destruct lalone_points as (P0 & P1 & P2 & P3 & P4 & P5 & P6 & P7 & P8 & P9 & P10). split.
  - constructor.
    + unfold tile1. repeat constructor; cbn [In]; intuition discriminate.
    + intros e I (K1 & K2). cbn [tile1 In] in I. decompose [or] I; try contradiction; subst e; vm_compute in K1, K2; first [discriminate K1|discriminate K2].
    + intros e I. cbn [tile1 In] in I. decompose [or] I; try contradiction; subst e; let l := eval unfold tile1 in tile1 in pick l.
    + intros e I. cbn [tile1 In] in I. decompose [or] I; try contradiction; subst e; let l := eval unfold tile1 in tile1 in pick l.
    + intros e f I J (K1 & K2). cbn [tile1 In] in I, J. decompose [or] I; try contradiction; subst e; decompose [or] J; try contradiction; subst f;
        first [reflexivity|vm_compute in K1, K2; first [discriminate K1|discriminate K2]].
    + intros e f I J (K1 & K2). cbn [tile1 In] in I, J. decompose [or] I; try contradiction; subst e; decompose [or] J; try contradiction; subst f;
        first [reflexivity|vm_compute in K1, K2; first [discriminate K1|discriminate K2]].
    + intros e f s r I J S R (K1 & K2). cbn [tile1 In] in I, J.
      decompose [or] I; try contradiction; subst e; decompose [or] J; try contradiction; subst f; cbn [efrom eto] in K1, K2;
        rewrite ?P0, ?P1, ?P2, ?P3, ?P4, ?P5, ?P6, ?P7, ?P8, ?P9, ?P10 in K1, K2; unfold along in K1, K2; cbn [fst snd] in K1, K2; ends_meet.
  - assert (N : forall f g, In f tile1 -> In g tile1 -> same_place (zpoint lalone (eto f)) (zpoint lalone (efrom g)) ->
      forall e, same_loop (zpoint lalone) tile1 e f -> same_loop (zpoint lalone) tile1 e g).
    { intros f g _ J V e L. exact (loop_next _ _ _ _ _ L J V). }
    pose proof (N (Edge 3 2) (Edge 2 4) ltac:(cbn; tauto) ltac:(cbn; tauto) ltac:(split; reflexivity)) as N0.
    pose proof (N (Edge 2 4) (Edge 4 3) ltac:(cbn; tauto) ltac:(cbn; tauto) ltac:(split; reflexivity)) as N1.
    pose proof (N (Edge 4 3) (Edge 3 2) ltac:(cbn; tauto) ltac:(cbn; tauto) ltac:(split; reflexivity)) as N2.
    intros e f I J. cbn [tile1 In] in I, J.
    decompose [or] I; try contradiction; subst e; decompose [or] J; try contradiction; subst f; auto 8 using loop_here.
Qed.

Lemma alone2_polygon : simple_polygon (zpoint lalone) tile2.
Proof.
  destruct lalone_points as (P0 & P1 & P2 & P3 & P4 & P5 & P6 & P7 & P8 & P9 & P10). split.
  - constructor.
    + unfold tile2. repeat constructor; cbn [In]; intuition discriminate.
    + intros e I (K1 & K2). cbn [tile2 In] in I. decompose [or] I; try contradiction; subst e; vm_compute in K1, K2; first [discriminate K1|discriminate K2].
    + intros e I. cbn [tile2 In] in I. decompose [or] I; try contradiction; subst e; let l := eval unfold tile2 in tile2 in pick l.
    + intros e I. cbn [tile2 In] in I. decompose [or] I; try contradiction; subst e; let l := eval unfold tile2 in tile2 in pick l.
    + intros e f I J (K1 & K2). cbn [tile2 In] in I, J. decompose [or] I; try contradiction; subst e; decompose [or] J; try contradiction; subst f;
        first [reflexivity|vm_compute in K1, K2; first [discriminate K1|discriminate K2]].
    + intros e f I J (K1 & K2). cbn [tile2 In] in I, J. decompose [or] I; try contradiction; subst e; decompose [or] J; try contradiction; subst f;
        first [reflexivity|vm_compute in K1, K2; first [discriminate K1|discriminate K2]].
    + intros e f s r I J S R (K1 & K2). cbn [tile2 In] in I, J.
      decompose [or] I; try contradiction; subst e; decompose [or] J; try contradiction; subst f; cbn [efrom eto] in K1, K2;
        rewrite ?P0, ?P1, ?P2, ?P3, ?P4, ?P5, ?P6, ?P7, ?P8, ?P9, ?P10 in K1, K2; unfold along in K1, K2; cbn [fst snd] in K1, K2; ends_meet.
  - assert (N : forall f g, In f tile2 -> In g tile2 -> same_place (zpoint lalone (eto f)) (zpoint lalone (efrom g)) ->
      forall e, same_loop (zpoint lalone) tile2 e f -> same_loop (zpoint lalone) tile2 e g).
    { intros f g _ J V e L. exact (loop_next _ _ _ _ _ L J V). }
    pose proof (N (Edge 4 5) (Edge 5 6) ltac:(cbn; tauto) ltac:(cbn; tauto) ltac:(split; reflexivity)) as N0.
    pose proof (N (Edge 5 6) (Edge 6 4) ltac:(cbn; tauto) ltac:(cbn; tauto) ltac:(split; reflexivity)) as N1.
    pose proof (N (Edge 6 4) (Edge 4 5) ltac:(cbn; tauto) ltac:(cbn; tauto) ltac:(split; reflexivity)) as N2.
    intros e f I J. cbn [tile2 In] in I, J.
    decompose [or] I; try contradiction; subst e; decompose [or] J; try contradiction; subst f; auto 8 using loop_here.
Qed.

Lemma alone0_strip p : winding (zpoint lalone) tile0 p = 1%Z -> (2 <= fst p < 8)%Q.
Proof.
  apply strip. intros e I. cbn [tile0 In] in I. decompose [or] I; try contradiction; subst e; vm_compute; repeat split; discriminate.
Qed.
Lemma alone1_strip p : winding (zpoint lalone) tile1 p = 1%Z -> (8 <= fst p < 12)%Q.
Proof.
  apply strip. intros e I. cbn [tile1 In] in I. decompose [or] I; try contradiction; subst e; vm_compute; repeat split; discriminate.
Qed.
Lemma alone2_strip p : winding (zpoint lalone) tile2 p = 1%Z -> (12 <= fst p < 14)%Q.
Proof.
  apply strip. intros e I. cbn [tile2 In] in I. decompose [or] I; try contradiction; subst e; vm_compute; repeat split; discriminate.
Qed.

Lemma alone_points p : In p [(4, 4); (9, 5); (13, 5); (12, 9)]%Q -> ~ on_constraint (zpoint lalone) (concat tiles_three) p.
Proof.
  destruct lalone_points as (P0 & P1 & P2 & P3 & P4 & P5 & P6 & P7 & P8 & P9 & P10).
  intros Hp (e & s & I & _ & S & K1 & K2). cbn [In] in Hp. cbn [concat tiles_three tile0 tile1 tile2 app In] in I.
  decompose [or] I; try contradiction; subst e; cbn [efrom eto] in K1, K2; rewrite ?P0, ?P1, ?P2, ?P3, ?P4, ?P5, ?P6, ?P7, ?P8, ?P9, ?P10 in K1, K2; unfold along in K1, K2;
    decompose [or] Hp; try contradiction; subst p; cbn [fst snd] in K1, K2; lra.
Qed.

Lemma alone_part P p : In P tiles_three -> ~ on_constraint (zpoint lalone) (concat tiles_three) p -> ~ on_constraint (zpoint lalone) P p.
Proof. intros I N (e & s & J & K). apply N. exists e, s. split; [apply in_concat; exists P; auto|exact K]. Qed.

Lemma alone_ok : tiles (zpoint lalone) tiles_three.
Proof.
  destruct lalone_points as (P0 & P1 & P2 & P3 & P4 & P5 & P6 & P7 & P8 & P9 & P10). constructor.
  - intros P [<- |[<- |[<- |[]]]]; [exact alone0_polygon|exact alone1_polygon|exact alone2_polygon].
  - intros P [<- |[<- |[<- |[]]]]; [exists (4, 4)%Q|exists (9, 5)%Q|exists (13, 5)%Q]; (split; [|vm_compute; reflexivity]);
      apply alone_part; try (cbn; tauto); apply alone_points; cbn; tauto.
  - intros i j P Q e f s r Hi Hj D Ie If S R (K1 & K2).
    destruct i as [|[|[|i]]]; cbn in Hi; [| | |destruct i; discriminate Hi]; injection Hi as <-;
    (destruct j as [|[|[|j]]]; cbn in Hj; [| | |destruct j; discriminate Hj]); try (destruct (D eq_refl)); injection Hj as <-;
    cbn [tile0 tile1 tile2 In] in Ie, If; decompose [or] Ie; try contradiction; subst e; decompose [or] If; try contradiction; subst f;
    first [split; split; reflexivity|exfalso; cbn [efrom eto] in K1, K2; rewrite ?P0, ?P1, ?P2, ?P3, ?P4, ?P5, ?P6, ?P7, ?P8, ?P9, ?P10 in K1, K2; unfold along in K1, K2; cbn [fst snd] in K1, K2; lra].
  - intros i j P Q p Hi Hj D _ _ (W1 & W2).
    destruct i as [|[|[|i]]]; cbn in Hi; [| | |destruct i; discriminate Hi]; injection Hi as <-;
    (destruct j as [|[|[|j]]]; cbn in Hj; [| | |destruct j; discriminate Hj]); try (destruct (D eq_refl)); injection Hj as <-;
    repeat match goal with
    | W : winding _ tile0 _ = _ |- _ => apply alone0_strip in W
    | W : winding _ tile1 _ = _ |- _ => apply alone1_strip in W
    | W : winding _ tile2 _ = _ |- _ => apply alone2_strip in W
    end; lra.
Qed.


(** The unconstrained result with one bin: its edges cross no side. *)
Definition dt_alone : list (N * N * N) :=
  [(5, 9, 8); (2, 5, 4); (3, 8, 7); (5, 8, 6); (2, 9, 5); (2, 4, 3); (1, 10, 2); (4, 5, 6);
   (3, 6, 8); (3, 4, 6); (2, 10, 9); (0, 7, 1); (1, 7, 10); (0, 2, 3); (0, 3, 7); (0, 1, 2)].
Lemma lalone_dt : triangulation_from_2d_vertices (E := env64) 700 1 (pts lalone) = Ret dt_alone.
Proof. vm_compute. reflexivity. Qed.

Lemma lalone_sides e : In e (concat tiles_three) -> efrom e < 11 /\ eto e < 11 /\ clear_between (zpoint lalone) 11 (efrom e) (eto e) /\
  crosses_at_most (zpoint lalone) dt_alone 2 e.
Proof.
  intros He. destruct (lalone_clear e He) as (x & y & z). split; [exact x|]. split; [exact y|]. split; [exact z|].
  clear x y z. exists []. split; [cbn; lia|]. intros a b c T X.
  assert (K : forallb (fun t => let '(a, b, c) := t in forallb (fun e => forallb (fun ab => let '(a, b) := ab in
    Qle_bool 0 (orient (zpoint lalone a) (zpoint lalone b) (zpoint lalone (efrom e)) * orient (zpoint lalone a) (zpoint lalone b) (zpoint lalone (eto e))) ||
    Qle_bool 0 (orient (zpoint lalone (efrom e)) (zpoint lalone (eto e)) (zpoint lalone a) * orient (zpoint lalone (efrom e)) (zpoint lalone (eto e)) (zpoint lalone b)))
    [(a, b); (b, c); (c, a)]) (concat tiles_three)) dt_alone = true) by (vm_compute; reflexivity).
  rewrite forallb_forall in K.
  assert (Y : exists t, In t dt_alone /\ let '(x, y, z) := t in In (a, b) [(x, y); (y, z); (z, x)])
    by (destruct T as [T|[T|T]]; eexists; (split; [exact T|cbn; auto])).
  destruct Y as (((x, y), z) & I & J). specialize (K _ I). cbn beta iota in K. rewrite forallb_forall in K. specialize (K e He).
  rewrite forallb_forall in K. specialize (K _ J). cbn beta iota in K. apply orb_true_iff in K. rewrite !Qle_bool_iff in K.
  unfold segments_cross in X. exfalso. lra.
Qed.

(** Some points inside a triangle. *)
Definition sample (a b c : point) (u v : Q) : point :=
  (fst a + u * (fst b - fst a) + v * (fst c - fst a), snd a + u * (snd b - snd a) + v * (snd c - snd a))%Q.
Definition samples : list (Q * Q) :=
  [((1#3), (1#3)); ((1#10), (1#10)); ((8#10), (1#10)); ((1#10), (8#10)); ((48#100), (4#100)); ((4#100), (48#100)); ((48#100), (48#100))]%Q.

Lemma sample_inside a b c u v : clockwise a b c -> (0 < u)%Q -> (0 < v)%Q -> (u + v < 1)%Q -> strictly_inside a b c (sample a b c u v).
Proof.
  unfold clockwise. intros C U W S.
  assert (E1 : (orient a b (sample a b c u v) == v * orient a b c)%Q) by (unfold orient, sample; cbn [fst snd]; ring).
  assert (E2 : (orient b c (sample a b c u v) == (1 - u - v) * orient a b c)%Q) by (unfold orient, sample; cbn [fst snd]; ring).
  assert (E3 : (orient c a (sample a b c u v) == u * orient a b c)%Q) by (unfold orient, sample; cbn [fst snd]; ring).
  unfold strictly_inside. rewrite E1, E2, E3. repeat split; nra.
Qed.

Definition circle_b (at_ : N -> point) (P : list edge) (ids : list N) : bool :=
  forallb (fun a => forallb (fun b => forallb (fun c => negb (cw_b (at_ a) (at_ b) (at_ c)) ||
    existsb (fun uv => negb (Z.eqb (winding at_ P (sample (at_ a) (at_ b) (at_ c) (fst uv) (snd uv))) 1)) samples ||
    forallb (fun d => sp_b (at_ d) (at_ a) || sp_b (at_ d) (at_ b) || sp_b (at_ d) (at_ c) ||
      negb (Qeq_bool (qincircle (at_ a) (at_ b) (at_ c) (at_ d)) 0)) ids) ids) ids) ids.

Lemma circle_ok at_ P n ids : (forall v, v < n -> In v ids) -> circle_b at_ P ids = true -> no_circle_within at_ P n.
Proof.
  intros I H a b c d p La Lb Lc Ld C Wi Hp N1 N2 N3 (o & O1 & O2 & O3) _. exfalso.
  unfold circle_b in H. rewrite forallb_forall in H. specialize (H a (I a La)).
  rewrite forallb_forall in H. specialize (H b (I b Lb)). rewrite forallb_forall in H. specialize (H c (I c Lc)).
  rewrite (cw_b_ok _ _ _ C) in H. cbn [negb orb] in H. apply orb_true_iff in H. destruct H as [H|H].
  - apply existsb_exists in H. destruct H as ((u, v) & J & K). apply negb_true_iff, Z.eqb_neq in K. apply K. cbn [fst snd].
    apply Wi. apply sample_inside; [exact C|..]; cbn [samples In] in J; decompose [or] J; try contradiction;
      match goal with E : (_, _) = (_, _) |- _ => injection E as <- <- end; reflexivity.
  - rewrite forallb_forall in H. specialize (H d (I d Ld)).
    assert (Ns : forall x y, ~ same_place x y -> sp_b x y = false).
    { intros x y K. destruct (sp_b x y) eqn:Q; auto. exfalso. apply K. unfold sp_b in Q.
      rewrite andb_true_iff, !Qeq_bool_iff in Q. exact Q. }
    rewrite (Ns _ _ N1), (Ns _ _ N2), (Ns _ _ N3) in H. cbn [orb] in H. apply negb_true_iff in H.
    assert (T : Qeq_bool (qincircle (at_ a) (at_ b) (at_ c) (at_ d)) 0 = true); [|congruence].
    apply Qeq_bool_iff. rewrite (incircle_power _ _ _ (at_ d) o O1 O2), O3. ring.
Qed.

Lemma alone_circles P : In P tiles_three -> no_circle_within (zpoint lalone) P 11.
Proof.
  intros I. apply (circle_ok _ _ _ [0; 1; 2; 3; 4; 5; 6; 7; 8; 9; 10]); [intros v V; cbn [In]; lia|].
  destruct I as [<- |[<- |[<- |[]]]]; vm_compute; reflexivity.
Qed.

Lemma lalone_convex : locally_delaunay (zpoint lalone) dt_alone /\ convex_area (zpoint lalone) dt_alone /\
  forall v, v < 11 -> covered (zpoint lalone) dt_alone (zpoint lalone v).
Proof.
  destruct lalone_corners as (P & B & Hin).
  assert (Cv : forall p, covered (zpoint lalone) dt_alone p <-> in_box (zpoint lalone 7) (zpoint lalone 9) p).
  { pose proof (Input_grid _ _ _ lalone_grid64) as G. pose proof lalone_dt as D. pose proof lalone_ids as I. 
    assert (F : (4 * length (pts lalone) + 12 <= 700)%nat) by (apply Nat.leb_le; reflexivity).
    set (at_ := zpoint lalone) in *. clearbody at_.
    revert B Hin. pair_input G. intros B Hin.
    destruct (grid_box_last (pts lalone) px py _ G I 700 7 7 8 9 10 F ltac:(discriminate) eq_refl P B Hin) as (out & R & C & _).
    assert (K : out = dt_alone) by congruence. subst out. exact C. }
  split; [apply ldelb_sound; vm_compute; reflexivity|]. split.
  - intros x y s Hx Hy Hs. apply Cv in Hx, Hy. apply Cv. now apply in_box_convex.
  - intros v V. apply Cv. destruct (N.lt_ge_cases v 7) as [L|L]; [exact (Hin v L)|].
    assert (K : v = 7 \/ v = 8 \/ v = 9 \/ v = 10) by lia. decompose [or] K; subst v; vm_compute; repeat split; discriminate.
Qed.

(** The order of the polygons does not matter. *)
Lemma tiles_permuted at_ polys polys' : Permutation polys polys' -> tiles at_ polys -> tiles at_ polys'.
Proof.
  intros Pm TI. pose proof (fun P => Permutation_in P (Permutation_sym Pm)) as I.
  apply Permutation_nth_error in Pm. destruct Pm as (_ & f & Inj & F).
  assert (N : forall i j, i <> j -> f i <> f j) by (intros i j D K; exact (D (Inj i j K))). constructor.
  - intros P J. exact (ti_polygon _ _ TI P (I P J)).
  - intros P J. exact (ti_clockwise _ _ TI P (I P J)).
  - intros i j P Q e g s r Hi Hj D. rewrite F in Hi, Hj. exact (ti_sides _ _ TI _ _ P Q e g s r Hi Hj (N i j D)).
  - intros i j P Q p Hi Hj D. rewrite F in Hi, Hj. exact (ti_apart _ _ TI _ _ P Q p Hi Hj (N i j D)).
Qed.
