(** * WitnessTiles: a square, a triangle that has one side in common with it, and another triangle that touches the
    first one at a corner; in a box, in binary64. *)

From Coq Require Import ZArith NArith List Bool QArith SpecFloat Lia Lqa Permutation.
From Verif Require Import Base Arith Types Utils Infinite Triangulation Constrained F64 Exact Spec DTOut GridSpec GridNum InputSpec GridApi GridCdt
  ApiProps Refuted Witness SpecBox SpecDomain SpecWinding SpecFilling SpecTiles Winding Inside WitnessWinding WitnessPolygon.
Import ListNotations.
Local Open Scope N_scope.

Definition ltile : list (Z * Z) := [(2,2); (2,8); (8,8); (8,2); (12,5); (14,10); (14,2); (0,0); (16,0); (16,16); (0,16)]%Z.
Definition tile0 : list edge := [Edge 0 1; Edge 1 2; Edge 2 3; Edge 3 0].
Definition tile1 : list edge := [Edge 3 2; Edge 2 4; Edge 4 3].
Definition tile2 : list edge := [Edge 4 5; Edge 5 6; Edge 6 4].
Definition tiles_three : list (list edge) := [tile0; tile1; tile2].

Lemma ltile_grid64 : on_grid (E := env64) (pts ltile) ltile (2 ^ 40).
Proof.
  exists (sf_is 53 1024), (2 ^ 4)%Z, 0%Z, 0%Z.
  split; [apply (Grid_f64 u32_max 4); lia|]. split; [|split].
  - apply f2_map. intros p Hp. simpl in Hp.
    decompose [or] Hp; try contradiction; subst; vm_compute; repeat split; reflexivity.
  - unfold fits, ltile. repeat split.
    1-4: simpl in H; intuition (subst; simpl; lia).
    + exists (0, 0)%Z. simpl. auto 16.
    + exists (0, 0)%Z. simpl. auto 16.
    + exists (16, 16)%Z. simpl. auto 16.
  - intros p Hp. simpl in Hp. decompose [or] Hp; try contradiction; subst; vm_compute; split; discriminate.
Qed.

Lemma ltile_ids : 2 * lenN (pts ltile) + 2 <= @idmax env64.
Proof. vm_compute. discriminate. Qed.
Lemma ltile_fuel : (700 >= (2 * length (pts ltile) + 4) * (2 * length (pts ltile) + 4))%nat.
Proof. apply Nat.leb_le. reflexivity. Qed.

Lemma ltile_points :
  zpoint ltile 0 = (2, 2)%Q /\ zpoint ltile 1 = (2, 8)%Q /\ zpoint ltile 2 = (8, 8)%Q /\ zpoint ltile 3 = (8, 2)%Q /\ zpoint ltile 4 = (12, 5)%Q /\ zpoint ltile 5 = (14, 10)%Q /\ zpoint ltile 6 = (14, 2)%Q /\ zpoint ltile 7 = (0, 0)%Q /\ zpoint ltile 8 = (16, 0)%Q /\ zpoint ltile 9 = (16, 16)%Q /\ zpoint ltile 10 = (0, 16)%Q.
Proof. repeat split. Qed.

Lemma ltile_corners : Permutation [7; 8; 9; 10] [7; 7 + 1; 7 + 2; 7 + 3] /\
  box_corners (zpoint ltile 7) (zpoint ltile 8) (zpoint ltile 9) (zpoint ltile 10) /\
  forall v, v < 7 -> in_box (zpoint ltile 7) (zpoint ltile 9) (zpoint ltile v).
Proof.
  split; [apply Permutation_refl|]. split; [vm_compute; repeat split; try reflexivity; discriminate|].
  intros v H. assert (K : v = 0 \/ v = 1 \/ v = 2 \/ v = 3 \/ v = 4 \/ v = 5 \/ v = 6) by lia.
  destruct ltile_points as (P0 & P1 & P2 & P3 & P4 & P5 & P6 & P7 & P8 & P9 & P10).
  decompose [or] K; subst v; rewrite ?P0, ?P1, ?P2, ?P3, ?P4, ?P5, ?P6, ?P7, ?P8, ?P9, ?P10; unfold in_box; cbn [fst snd]; split; split; lra.
Qed.

Lemma ltile_clear e : In e (concat tiles_three) -> efrom e < 11 /\ eto e < 11 /\ clear_between (zpoint ltile) 11 (efrom e) (eto e).
Proof.
  destruct ltile_points as (P0 & P1 & P2 & P3 & P4 & P5 & P6 & P7 & P8 & P9 & P10).
  intros He. cbn [concat tiles_three tile0 tile1 tile2 app In] in He.
  decompose [or] He; try contradiction; subst e; cbn [efrom eto]; (split; [lia|]; split; [lia|]).
  all: intros v s Hv Hs;
    assert (Hv' : v = 0 \/ v = 1 \/ v = 2 \/ v = 3 \/ v = 4 \/ v = 5 \/ v = 6 \/ v = 7 \/ v = 8 \/ v = 9 \/ v = 10) by lia;
    decompose [or] Hv'; subst v; rewrite ?P0, ?P1, ?P2, ?P3, ?P4, ?P5, ?P6, ?P7, ?P8, ?P9, ?P10;
    intros (Q1 & Q2); unfold along in Q1, Q2; cbn [fst snd] in Q1, Q2; lra.
Qed.

Lemma tile0_polygon : simple_polygon (zpoint ltile) tile0.
Proof.
  destruct ltile_points as (P0 & P1 & P2 & P3 & P4 & P5 & P6 & P7 & P8 & P9 & P10). split.
  - constructor.
    + unfold tile0. repeat constructor; cbn [In]; intuition discriminate.
    + intros e I (K1 & K2). cbn [tile0 In] in I. decompose [or] I; try contradiction; subst e; vm_compute in K1, K2; first [discriminate K1|discriminate K2].
    + intros e I. cbn [tile0 In] in I. decompose [or] I; try contradiction; subst e; let l := eval unfold tile0 in tile0 in pick l.
    + intros e I. cbn [tile0 In] in I. decompose [or] I; try contradiction; subst e; let l := eval unfold tile0 in tile0 in pick l.
    + intros e f I J (K1 & K2). cbn [tile0 In] in I, J. decompose [or] I; try contradiction; subst e; decompose [or] J; try contradiction; subst f;
        first [reflexivity|vm_compute in K1, K2; first [discriminate K1|discriminate K2]].
    + intros e f I J (K1 & K2). cbn [tile0 In] in I, J. decompose [or] I; try contradiction; subst e; decompose [or] J; try contradiction; subst f;
        first [reflexivity|vm_compute in K1, K2; first [discriminate K1|discriminate K2]].
    + intros e f s r I J S R (K1 & K2). cbn [tile0 In] in I, J.
      decompose [or] I; try contradiction; subst e; decompose [or] J; try contradiction; subst f; cbn [efrom eto] in K1, K2;
        rewrite ?P0, ?P1, ?P2, ?P3, ?P4, ?P5, ?P6, ?P7, ?P8, ?P9, ?P10 in K1, K2; unfold along in K1, K2; cbn [fst snd] in K1, K2; ends_meet.
  - assert (N : forall f g, In f tile0 -> In g tile0 -> same_place (zpoint ltile (eto f)) (zpoint ltile (efrom g)) ->
      forall e, same_loop (zpoint ltile) tile0 e f -> same_loop (zpoint ltile) tile0 e g).
    { intros f g _ J V e L. exact (loop_next _ _ _ _ _ L J V). }
    pose proof (N (Edge 0 1) (Edge 1 2) ltac:(cbn; tauto) ltac:(cbn; tauto) ltac:(split; reflexivity)) as N0.
    pose proof (N (Edge 1 2) (Edge 2 3) ltac:(cbn; tauto) ltac:(cbn; tauto) ltac:(split; reflexivity)) as N1.
    pose proof (N (Edge 2 3) (Edge 3 0) ltac:(cbn; tauto) ltac:(cbn; tauto) ltac:(split; reflexivity)) as N2.
    pose proof (N (Edge 3 0) (Edge 0 1) ltac:(cbn; tauto) ltac:(cbn; tauto) ltac:(split; reflexivity)) as N3.
    intros e f I J. cbn [tile0 In] in I, J.
    decompose [or] I; try contradiction; subst e; decompose [or] J; try contradiction; subst f; auto 8 using loop_here.
Qed.

Lemma tile1_polygon : simple_polygon (zpoint ltile) tile1.
Proof.
  destruct ltile_points as (P0 & P1 & P2 & P3 & P4 & P5 & P6 & P7 & P8 & P9 & P10). split.
  - constructor.
    + unfold tile1. repeat constructor; cbn [In]; intuition discriminate.
    + intros e I (K1 & K2). cbn [tile1 In] in I. decompose [or] I; try contradiction; subst e; vm_compute in K1, K2; first [discriminate K1|discriminate K2].
    + intros e I. cbn [tile1 In] in I. decompose [or] I; try contradiction; subst e; let l := eval unfold tile1 in tile1 in pick l.
    + intros e I. cbn [tile1 In] in I. decompose [or] I; try contradiction; subst e; let l := eval unfold tile1 in tile1 in pick l.
    + intros e f I J (K1 & K2). cbn [tile1 In] in I, J. decompose [or] I; try contradiction; subst e; decompose [or] J; try contradiction; subst f;
        first [reflexivity|vm_compute in K1, K2; first [discriminate K1|discriminate K2]].
    + intros e f I J (K1 & K2). cbn [tile1 In] in I, J. decompose [or] I; try contradiction; subst e; decompose [or] J; try contradiction; subst f;
        first [reflexivity|vm_compute in K1, K2; first [discriminate K1|discriminate K2]].
    + intros e f s r I J S R (K1 & K2). cbn [tile1 In] in I, J.
      decompose [or] I; try contradiction; subst e; decompose [or] J; try contradiction; subst f; cbn [efrom eto] in K1, K2;
        rewrite ?P0, ?P1, ?P2, ?P3, ?P4, ?P5, ?P6, ?P7, ?P8, ?P9, ?P10 in K1, K2; unfold along in K1, K2; cbn [fst snd] in K1, K2; ends_meet.
  - assert (N : forall f g, In f tile1 -> In g tile1 -> same_place (zpoint ltile (eto f)) (zpoint ltile (efrom g)) ->
      forall e, same_loop (zpoint ltile) tile1 e f -> same_loop (zpoint ltile) tile1 e g).
    { intros f g _ J V e L. exact (loop_next _ _ _ _ _ L J V). }
    pose proof (N (Edge 3 2) (Edge 2 4) ltac:(cbn; tauto) ltac:(cbn; tauto) ltac:(split; reflexivity)) as N0.
    pose proof (N (Edge 2 4) (Edge 4 3) ltac:(cbn; tauto) ltac:(cbn; tauto) ltac:(split; reflexivity)) as N1.
    pose proof (N (Edge 4 3) (Edge 3 2) ltac:(cbn; tauto) ltac:(cbn; tauto) ltac:(split; reflexivity)) as N2.
    intros e f I J. cbn [tile1 In] in I, J.
    decompose [or] I; try contradiction; subst e; decompose [or] J; try contradiction; subst f; auto 8 using loop_here.
Qed.

Lemma tile2_polygon : simple_polygon (zpoint ltile) tile2.
Proof.
  destruct ltile_points as (P0 & P1 & P2 & P3 & P4 & P5 & P6 & P7 & P8 & P9 & P10). split.
  - constructor.
    + unfold tile2. repeat constructor; cbn [In]; intuition discriminate.
    + intros e I (K1 & K2). cbn [tile2 In] in I. decompose [or] I; try contradiction; subst e; vm_compute in K1, K2; first [discriminate K1|discriminate K2].
    + intros e I. cbn [tile2 In] in I. decompose [or] I; try contradiction; subst e; let l := eval unfold tile2 in tile2 in pick l.
    + intros e I. cbn [tile2 In] in I. decompose [or] I; try contradiction; subst e; let l := eval unfold tile2 in tile2 in pick l.
    + intros e f I J (K1 & K2). cbn [tile2 In] in I, J. decompose [or] I; try contradiction; subst e; decompose [or] J; try contradiction; subst f;
        first [reflexivity|vm_compute in K1, K2; first [discriminate K1|discriminate K2]].
    + intros e f I J (K1 & K2). cbn [tile2 In] in I, J. decompose [or] I; try contradiction; subst e; decompose [or] J; try contradiction; subst f;
        first [reflexivity|vm_compute in K1, K2; first [discriminate K1|discriminate K2]].
    + intros e f s r I J S R (K1 & K2). cbn [tile2 In] in I, J.
      decompose [or] I; try contradiction; subst e; decompose [or] J; try contradiction; subst f; cbn [efrom eto] in K1, K2;
        rewrite ?P0, ?P1, ?P2, ?P3, ?P4, ?P5, ?P6, ?P7, ?P8, ?P9, ?P10 in K1, K2; unfold along in K1, K2; cbn [fst snd] in K1, K2; ends_meet.
  - assert (N : forall f g, In f tile2 -> In g tile2 -> same_place (zpoint ltile (eto f)) (zpoint ltile (efrom g)) ->
      forall e, same_loop (zpoint ltile) tile2 e f -> same_loop (zpoint ltile) tile2 e g).
    { intros f g _ J V e L. exact (loop_next _ _ _ _ _ L J V). }
    pose proof (N (Edge 4 5) (Edge 5 6) ltac:(cbn; tauto) ltac:(cbn; tauto) ltac:(split; reflexivity)) as N0.
    pose proof (N (Edge 5 6) (Edge 6 4) ltac:(cbn; tauto) ltac:(cbn; tauto) ltac:(split; reflexivity)) as N1.
    pose proof (N (Edge 6 4) (Edge 4 5) ltac:(cbn; tauto) ltac:(cbn; tauto) ltac:(split; reflexivity)) as N2.
    intros e f I J. cbn [tile2 In] in I, J.
    decompose [or] I; try contradiction; subst e; decompose [or] J; try contradiction; subst f; auto 8 using loop_here.
Qed.

(** Points turned around by a polygon are not left or right of it. *)
Lemma strip at_ P lo hi p : (forall e, In e P -> lo <= fst (at_ (efrom e)) <= hi /\ lo <= fst (at_ (eto e)) <= hi)%Q ->
  winding at_ P p = 1%Z -> (lo <= fst p < hi)%Q.
Proof.
  intros B W. destruct (some_crossing at_ P p) as (e & I & C); [rewrite W; discriminate|]. destruct (B e I) as ((A1 & A2) & A3 & A4).
  destruct (crossing_not _ _ _ C) as [((L1 & L2) & _)|((L1 & L2) & _)]; split; lra.
Qed.

Lemma tile0_strip p : winding (zpoint ltile) tile0 p = 1%Z -> (2 <= fst p < 8)%Q.
Proof.
  apply strip. intros e I. cbn [tile0 In] in I. decompose [or] I; try contradiction; subst e; vm_compute; repeat split; discriminate.
Qed.
Lemma tile1_strip p : winding (zpoint ltile) tile1 p = 1%Z -> (8 <= fst p < 12)%Q.
Proof.
  apply strip. intros e I. cbn [tile1 In] in I. decompose [or] I; try contradiction; subst e; vm_compute; repeat split; discriminate.
Qed.
Lemma tile2_strip p : winding (zpoint ltile) tile2 p = 1%Z -> (12 <= fst p < 14)%Q.
Proof.
  apply strip. intros e I. cbn [tile2 In] in I. decompose [or] I; try contradiction; subst e; vm_compute; repeat split; discriminate.
Qed.

Lemma tile_points p : In p [(4, 4); (9, 5); (13, 5); (12, 9)]%Q -> ~ on_constraint (zpoint ltile) (concat tiles_three) p.
Proof.
  destruct ltile_points as (P0 & P1 & P2 & P3 & P4 & P5 & P6 & P7 & P8 & P9 & P10).
  intros Hp (e & s & I & _ & S & K1 & K2). cbn [In] in Hp. cbn [concat tiles_three tile0 tile1 tile2 app In] in I.
  decompose [or] I; try contradiction; subst e; cbn [efrom eto] in K1, K2; rewrite ?P0, ?P1, ?P2, ?P3, ?P4, ?P5, ?P6, ?P7, ?P8, ?P9, ?P10 in K1, K2; unfold along in K1, K2;
    decompose [or] Hp; try contradiction; subst p; cbn [fst snd] in K1, K2; lra.
Qed.

Lemma tile_part P p : In P tiles_three -> ~ on_constraint (zpoint ltile) (concat tiles_three) p -> ~ on_constraint (zpoint ltile) P p.
Proof. intros I N (e & s & J & K). apply N. exists e, s. split; [apply in_concat; exists P; auto|exact K]. Qed.

Lemma tiles_three_ok : tiles (zpoint ltile) tiles_three.
Proof.
  destruct ltile_points as (P0 & P1 & P2 & P3 & P4 & P5 & P6 & P7 & P8 & P9 & P10). constructor.
  - intros P [<- |[<- |[<- |[]]]]; [exact tile0_polygon|exact tile1_polygon|exact tile2_polygon].
  - intros P [<- |[<- |[<- |[]]]]; [exists (4, 4)%Q|exists (9, 5)%Q|exists (13, 5)%Q]; (split; [|vm_compute; reflexivity]);
      apply tile_part; try (cbn; tauto); apply tile_points; cbn; tauto.
  - intros i j P Q e f s r Hi Hj D Ie If S R (K1 & K2).
    destruct i as [|[|[|i]]]; cbn in Hi; [| | |destruct i; discriminate Hi]; injection Hi as <-;
    (destruct j as [|[|[|j]]]; cbn in Hj; [| | |destruct j; discriminate Hj]); try (destruct (D eq_refl)); injection Hj as <-;
    cbn [tile0 tile1 tile2 In] in Ie, If; decompose [or] Ie; try contradiction; subst e; decompose [or] If; try contradiction; subst f;
    first [split; split; reflexivity|exfalso; cbn [efrom eto] in K1, K2; rewrite ?P0, ?P1, ?P2, ?P3, ?P4, ?P5, ?P6, ?P7, ?P8, ?P9, ?P10 in K1, K2; unfold along in K1, K2; cbn [fst snd] in K1, K2; lra].
  - intros i j P Q p Hi Hj D _ _ (W1 & W2).
    destruct i as [|[|[|i]]]; cbn in Hi; [| | |destruct i; discriminate Hi]; injection Hi as <-;
    (destruct j as [|[|[|j]]]; cbn in Hj; [| | |destruct j; discriminate Hj]); try (destruct (D eq_refl)); injection Hj as <-;
    repeat match goal with
    | W : winding _ tile0 _ = _ |- _ => apply tile0_strip in W
    | W : winding _ tile1 _ = _ |- _ => apply tile1_strip in W
    | W : winding _ tile2 _ = _ |- _ => apply tile2_strip in W
    end; lra.
Qed.

(** No vertex is strictly inside one of the three polygons. *)
Lemma tiles_no_vertex : Forall2 (inside_vertices (zpoint ltile) 11) tiles_three [[]; []; []].
Proof.
  assert (K : forall P, In P tiles_three -> (forall v, v < 11 -> (exists e, In e P /\ efrom e = v) \/ winding (zpoint ltile) P (zpoint ltile v) <> 1%Z) ->
    inside_vertices (zpoint ltile) 11 P []).
  { intros P I H. constructor; [intros u []|constructor|]. intros v V Nv W. exfalso. destruct (H v V) as [(e & J & <-)|Z]; [|contradiction].
    apply Nv. exists e, 0%Q. split; [exact J|]. split; [exact (sl_proper _ _ (proj1 (ti_polygon _ _ tiles_three_ok P I)) e J)|]. split; [split; discriminate|].
    unfold along; split; cbn [fst snd]; ring. }
  assert (V : forall v, v < 11 -> v = 0 \/ v = 1 \/ v = 2 \/ v = 3 \/ v = 4 \/ v = 5 \/ v = 6 \/ v = 7 \/ v = 8 \/ v = 9 \/ v = 10) by (intros; lia).
  unfold tiles_three. apply Forall2_cons; [|apply Forall2_cons; [|apply Forall2_cons; [|apply Forall2_nil]]].
  all: apply K; [cbn; tauto|]; intros v L; apply V in L; decompose [or] L; subst v.
  all: first [right; vm_compute; discriminate|left;
    first [exists (Edge 0 1); (split; [cbn; tauto|reflexivity])|exists (Edge 1 2); (split; [cbn; tauto|reflexivity])|
      exists (Edge 2 3); (split; [cbn; tauto|reflexivity])|exists (Edge 3 0); (split; [cbn; tauto|reflexivity])|
      exists (Edge 3 2); (split; [cbn; tauto|reflexivity])|exists (Edge 2 4); (split; [cbn; tauto|reflexivity])|
      exists (Edge 4 3); (split; [cbn; tauto|reflexivity])|exists (Edge 4 5); (split; [cbn; tauto|reflexivity])|
      exists (Edge 5 6); (split; [cbn; tauto|reflexivity])|exists (Edge 6 4); (split; [cbn; tauto|reflexivity])]].
Qed.

(** The unconstrained result with two bins, which covers the sides. *)
Definition dt_tile : list (N * N * N) :=
  [(4, 3, 2); (10, 9, 2); (0, 7, 1); (5, 8, 6); (10, 1, 7); (1, 2, 3); (0, 3, 7); (0, 1, 3);
   (8, 7, 3); (6, 8, 3); (5, 4, 2); (5, 2, 9); (4, 6, 3); (10, 2, 1); (5, 6, 4); (5, 9, 8)].
Lemma ltile_dt : triangulation_from_2d_vertices (E := env64) 700 2 (pts ltile) = Ret dt_tile.
Proof. vm_compute. reflexivity. Qed.

Lemma ltile_sides e : In e (concat tiles_three) -> efrom e < 11 /\ eto e < 11 /\ clear_between (zpoint ltile) 11 (efrom e) (eto e) /\
  covers_between (zpoint ltile) dt_tile (efrom e) (eto e).
Proof.
  intros He. destruct (ltile_clear e He) as (x & y & z). split; [exact x|]. split; [exact y|]. split; [exact z|].
  clear x y z. destruct ltile_points as (P0 & P1 & P2 & P3 & P4 & P5 & P6 & P7 & P8 & P9 & P10).
  assert (K : forall a b c f g s, (orient (zpoint ltile a) (zpoint ltile b) (along (zpoint ltile f) (zpoint ltile g) s) <= 0)%Q ->
    (orient (zpoint ltile b) (zpoint ltile c) (along (zpoint ltile f) (zpoint ltile g) s) <= 0)%Q ->
    (orient (zpoint ltile c) (zpoint ltile a) (along (zpoint ltile f) (zpoint ltile g) s) <= 0)%Q ->
    tri_inside_or_on (zpoint ltile) (a, b, c) (along (zpoint ltile f) (zpoint ltile g) s)) by (repeat split; auto).
  intros s Hs. cbn [concat tiles_three tile0 tile1 tile2 app In] in He. decompose [or] He; try contradiction; subst e; cbn [efrom eto].
  1, 4: exists (0, 1, 3)%N. 3, 4, 5: exists (1, 2, 3)%N. 6: exists (5, 4, 2)%N. 7: exists (4, 3, 2)%N. 8, 9, 10: exists (5, 6, 4)%N.
  all: (split; [cbn; auto 20|]; apply K; rewrite ?P0, ?P1, ?P2, ?P3, ?P4, ?P5, ?P6, ?P7, ?P8, ?P9, ?P10; unfold orient, along; cbn [fst snd]; lra).
Qed.
