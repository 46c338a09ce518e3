(** * WitnessAnywhere: a clockwise simple polygon without a box around it, with a vertex inside, a vertex in
    its notch and a side that the unconstrained triangles cross. *)

From Coq Require Import ZArith NArith List Bool QArith SpecFloat Lia Lqa Permutation.
From Verif Require Import Base Arith Types Utils Infinite Triangulation Constrained F64 Exact Spec DTOut GridSpec GridNum InputSpec GridApi GridCdt
  ApiProps Refuted Witness SpecBox SpecDomain SpecWinding SpecFilling Winding WitnessWinding WitnessHole WitnessPolygon.
Import ListNotations.
Local Open Scope N_scope.

Definition lfree : list (Z * Z) := [(0,0); (2,16); (6,8); (16,14); (10,0); (11,10); (9,11)]%Z.
Definition cs_free : list edge := [Edge 2 3; Edge 4 0; Edge 0 1; Edge 3 4; Edge 1 2].
Definition dt_free : list (N * N * N) := [(5, 4, 2); (4, 0, 2); (5, 2, 6); (1, 6, 2); (3, 4, 5); (3, 5, 6); (1, 3, 6); (1, 2, 0)].

Lemma lfree_grid64 : on_grid (E := env64) (pts lfree) lfree (2 ^ 40).
Proof.
  exists (sf_is 53 1024), (2 ^ 4)%Z, 0%Z, 0%Z.
  split; [apply (Grid_f64 u32_max 4); lia|]. split; [|split].
  - apply f2_map. intros p Hp. simpl in Hp.
    decompose [or] Hp; try contradiction; subst; vm_compute; repeat split; reflexivity.
  - unfold fits, lfree. repeat split.
    1-4: simpl in H; intuition (subst; simpl; lia).
    + exists (0, 0)%Z. simpl. auto 14.
    + exists (0, 0)%Z. simpl. auto 14.
    + exists (2, 16)%Z. simpl. auto 14.
  - intros p Hp. simpl in Hp. decompose [or] Hp; try contradiction; subst; vm_compute; split; discriminate.
Qed.

Lemma lfree_ids : 2 * lenN (pts lfree) + 2 <= @idmax env64.
Proof. vm_compute. discriminate. Qed.
Lemma lfree_fuel : (400 >= (2 * length (pts lfree) + 4) * (2 * length (pts lfree) + 4))%nat.
Proof. apply Nat.leb_le. reflexivity. Qed.
Lemma lfree_dt : triangulation_from_2d_vertices (E := env64) 400 2 (pts lfree) = Ret dt_free.
Proof. vm_compute. reflexivity. Qed.

Lemma lfree_points :
  zpoint lfree 0 = (0, 0)%Q /\ zpoint lfree 1 = (2, 16)%Q /\ zpoint lfree 2 = (6, 8)%Q /\ zpoint lfree 3 = (16, 14)%Q /\ zpoint lfree 4 = (10, 0)%Q /\ zpoint lfree 5 = (11, 10)%Q /\ zpoint lfree 6 = (9, 11)%Q.
Proof. repeat split. Qed.

(** No vertex lies strictly between the ends of a side, and the sides are covered by the unconstrained
    triangles. *)
Lemma lfree_clear e : In e cs_free -> efrom e < 7 /\ eto e < 7 /\ clear_between (zpoint lfree) 7 (efrom e) (eto e) /\
  covers_between (zpoint lfree) dt_free (efrom e) (eto e).
Proof.
  destruct lfree_points as (P0 & P1 & P2 & P3 & P4 & P5 & P6).
  assert (K : forall a b c f g s, (orient (zpoint lfree a) (zpoint lfree b) (along (zpoint lfree f) (zpoint lfree g) s) <= 0)%Q ->
    (orient (zpoint lfree b) (zpoint lfree c) (along (zpoint lfree f) (zpoint lfree g) s) <= 0)%Q ->
    (orient (zpoint lfree c) (zpoint lfree a) (along (zpoint lfree f) (zpoint lfree g) s) <= 0)%Q ->
    tri_inside_or_on (zpoint lfree) (a, b, c) (along (zpoint lfree f) (zpoint lfree g) s)) by (repeat split; auto).
  intros He. cbn [cs_free In] in He.
  decompose [or] He; try contradiction; subst e; cbn [efrom eto]; (split; [lia|]; split; [lia|]); split.
  1,3,5,7,9: intros v s Hv Hs;
    assert (Hv' : v = 0 \/ v = 1 \/ v = 2 \/ v = 3 \/ v = 4 \/ v = 5 \/ v = 6) by lia;
    decompose [or] Hv'; subst v; rewrite ?P0, ?P1, ?P2, ?P3, ?P4, ?P5, ?P6;
    intros (Q1 & Q2); unfold along in Q1, Q2; cbn [fst snd] in Q1, Q2; lra.
  all: intros s Hs.
  - destruct (Qlt_le_dec (22 * s) 9).
    + exists (5, 2, 6)%N. split; [cbn; auto 10|]. apply K; rewrite ?P0, ?P1, ?P2, ?P3, ?P4, ?P5, ?P6; unfold orient, along; cbn [fst snd]; lra.
    + exists (3, 5, 6)%N. split; [cbn; auto 10|]. apply K; rewrite ?P0, ?P1, ?P2, ?P3, ?P4, ?P5, ?P6; unfold orient, along; cbn [fst snd]; lra.
  - exists (4, 0, 2)%N. split; [cbn; auto 10|]. apply K; rewrite ?P0, ?P1, ?P2, ?P3, ?P4, ?P5, ?P6; unfold orient, along; cbn [fst snd]; lra.
  - exists (1, 2, 0)%N. split; [cbn; auto 10|]. apply K; rewrite ?P0, ?P1, ?P2, ?P3, ?P4, ?P5, ?P6; unfold orient, along; cbn [fst snd]; lra.
  - exists (3, 4, 5)%N. split; [cbn; auto 10|]. apply K; rewrite ?P0, ?P1, ?P2, ?P3, ?P4, ?P5, ?P6; unfold orient, along; cbn [fst snd]; lra.
  - exists (1, 6, 2)%N. split; [cbn; auto 10|]. apply K; rewrite ?P0, ?P1, ?P2, ?P3, ?P4, ?P5, ?P6; unfold orient, along; cbn [fst snd]; lra.
Qed.

Lemma lfree_loops : simple_loops (zpoint lfree) cs_free.
Proof.
  destruct lfree_points as (P0 & P1 & P2 & P3 & P4 & P5 & P6). constructor.
  - unfold cs_free. repeat constructor; cbn [In]; intuition discriminate.
  - intros e I (K1 & K2). cbn [cs_free In] in I. decompose [or] I; try contradiction; subst e; vm_compute in K1, K2; first [discriminate K1|discriminate K2].
  - intros e I. cbn [cs_free In] in I. decompose [or] I; try contradiction; subst e; let l := eval unfold cs_free in cs_free in pick l.
  - intros e I. cbn [cs_free In] in I. decompose [or] I; try contradiction; subst e; let l := eval unfold cs_free in cs_free in pick l.
  - intros e f I J (K1 & K2). cbn [cs_free In] in I, J. decompose [or] I; try contradiction; subst e; decompose [or] J; try contradiction; subst f;
      first [reflexivity|vm_compute in K1, K2; first [discriminate K1|discriminate K2]].
  - intros e f I J (K1 & K2). cbn [cs_free In] in I, J. decompose [or] I; try contradiction; subst e; decompose [or] J; try contradiction; subst f;
      first [reflexivity|vm_compute in K1, K2; first [discriminate K1|discriminate K2]].
  - intros e f s r I J S R (K1 & K2). cbn [cs_free In] in I, J.
    decompose [or] I; try contradiction; subst e; decompose [or] J; try contradiction; subst f; cbn [efrom eto] in K1, K2;
      rewrite ?P0, ?P1, ?P2, ?P3, ?P4 in K1, K2; unfold along in K1, K2; cbn [fst snd] in K1, K2; ends_meet.
Qed.


Lemma lfree_polygon : simple_polygon (zpoint lfree) cs_free.
Proof.
  split; [exact lfree_loops|].
  assert (N : forall f g, In f cs_free -> In g cs_free -> same_place (zpoint lfree (eto f)) (zpoint lfree (efrom g)) ->
    forall e, same_loop (zpoint lfree) cs_free e f -> same_loop (zpoint lfree) cs_free e g).
  { intros f g _ J V e L. exact (loop_next _ _ _ _ _ L J V). }
  pose proof (N (Edge 0 1) (Edge 1 2) ltac:(cbn; tauto) ltac:(cbn; tauto) ltac:(split; reflexivity)) as N1.
  pose proof (N (Edge 1 2) (Edge 2 3) ltac:(cbn; tauto) ltac:(cbn; tauto) ltac:(split; reflexivity)) as N2.
  pose proof (N (Edge 2 3) (Edge 3 4) ltac:(cbn; tauto) ltac:(cbn; tauto) ltac:(split; reflexivity)) as N3.
  pose proof (N (Edge 3 4) (Edge 4 0) ltac:(cbn; tauto) ltac:(cbn; tauto) ltac:(split; reflexivity)) as N4.
  pose proof (N (Edge 4 0) (Edge 0 1) ltac:(cbn; tauto) ltac:(cbn; tauto) ltac:(split; reflexivity)) as N5.
  intros e f I J. cbn [cs_free In] in I, J.
  decompose [or] I; try contradiction; subst e; decompose [or] J; try contradiction; subst f; auto 8 using loop_here.
Qed.

(** A point of the polygon, and one in its notch. *)
Lemma lfree_values : ~ on_constraint (zpoint lfree) cs_free (4, 4)%Q /\ winding (zpoint lfree) cs_free (4, 4)%Q = 1%Z /\
  ~ on_constraint (zpoint lfree) cs_free (8, 14)%Q /\ winding (zpoint lfree) cs_free (8, 14)%Q = 0%Z.
Proof.
  destruct lfree_points as (P0 & P1 & P2 & P3 & P4 & _).
  split; [|split; [vm_compute; reflexivity|split; [|vm_compute; reflexivity]]];
    intros (e & s & I & _ & S & K1 & K2); cbn [cs_free In] in I; decompose [or] I; try contradiction; subst e; cbn [efrom eto] in K1, K2;
    rewrite ?P0, ?P1, ?P2, ?P3, ?P4 in K1, K2; unfold along in K1, K2; cbn [fst snd] in K1, K2; lra.
Qed.

Lemma lfree_inner : inside_vertices (zpoint lfree) 7 cs_free [5].
Proof.
  destruct lfree_points as (P0 & P1 & P2 & P3 & P4 & P5 & P6). constructor.
  - intros u [<- |[]]. split; [lia|]. split; [|rewrite P5; vm_compute; reflexivity]. rewrite P5. intros (e & s & I & _ & (S1 & S2) & (K1 & K2)).
    cbn [cs_free In] in I. decompose [or] I; try contradiction; subst e; cbn [efrom eto] in K1, K2; rewrite ?P0, ?P1, ?P2, ?P3, ?P4 in K1, K2; unfold along in K1, K2; cbn [fst snd] in K1, K2; lra.
  - repeat constructor.
  - intros v V Nv W. assert (v = 0 \/ v = 1 \/ v = 2 \/ v = 3 \/ v = 4 \/ v = 5 \/ v = 6) as C by lia.
    decompose [or] C; subst v; try (vm_compute in W; discriminate W); [..|exists 5; split; [now left|split; reflexivity]].
    all: exfalso; apply Nv.
    all: first [exists (Edge 0 1), 0%Q; split; [cbn [cs_free In]; tauto|]; split; [intros (K1 & K2); vm_compute in K1, K2; discriminate|]; split; [split; discriminate|split; reflexivity]|
      exists (Edge 1 2), 0%Q; split; [cbn [cs_free In]; tauto|]; split; [intros (K1 & K2); vm_compute in K1, K2; discriminate|]; split; [split; discriminate|split; reflexivity]|
      exists (Edge 2 3), 0%Q; split; [cbn [cs_free In]; tauto|]; split; [intros (K1 & K2); vm_compute in K1, K2; discriminate|]; split; [split; discriminate|split; reflexivity]|
      exists (Edge 3 4), 0%Q; split; [cbn [cs_free In]; tauto|]; split; [intros (K1 & K2); vm_compute in K1, K2; discriminate|]; split; [split; discriminate|split; reflexivity]|
      exists (Edge 4 0), 0%Q; split; [cbn [cs_free In]; tauto|]; split; [intros (K1 & K2); vm_compute in K1, K2; discriminate|]; split; [split; discriminate|split; reflexivity]].
Qed.

(** ** The square with a hole, two bins *)
Definition dt_hole : list (N * N * N) :=
  [(5, 3, 2); (7, 6, 2); (0, 4, 1); (6, 5, 2); (7, 1, 4); (1, 2, 3); (0, 3, 4); (0, 1, 3); (5, 4, 3); (7, 2, 1)].
Lemma lhole_dt : triangulation_from_2d_vertices (E := env64) 400 2 (pts lhole) = Ret dt_hole.
Proof. vm_compute. reflexivity. Qed.

Lemma lhole_sides e : In e cs_hole -> efrom e < 8 /\ eto e < 8 /\ clear_between (zpoint lhole) 8 (efrom e) (eto e) /\
  covers_between (zpoint lhole) dt_hole (efrom e) (eto e).
Proof.
  intros He. destruct (lhole_clear e He) as (x & y & z). split; [exact x|]. split; [exact y|]. split; [exact (z (sl_proper _ _ lhole_loops e He))|].
  clear x y z. destruct lhole_points as (P0 & P1 & P2 & P3 & P4 & P5 & P6 & P7).
  assert (K : forall a b c f g s, (orient (zpoint lhole a) (zpoint lhole b) (along (zpoint lhole f) (zpoint lhole g) s) <= 0)%Q ->
    (orient (zpoint lhole b) (zpoint lhole c) (along (zpoint lhole f) (zpoint lhole g) s) <= 0)%Q ->
    (orient (zpoint lhole c) (zpoint lhole a) (along (zpoint lhole f) (zpoint lhole g) s) <= 0)%Q ->
    tri_inside_or_on (zpoint lhole) (a, b, c) (along (zpoint lhole f) (zpoint lhole g) s)) by (repeat split; auto).
  intros s Hs. cbn [cs_hole In] in He. decompose [or] He; try contradiction; subst e; cbn [efrom eto].
  - exists (0, 3, 4)%N. split; [cbn; auto 12|]. apply K; rewrite ?P0, ?P1, ?P2, ?P3, ?P4, ?P5, ?P6, ?P7; unfold orient, along; cbn [fst snd]; lra.
  - exists (5, 3, 2)%N. split; [cbn; auto 12|]. apply K; rewrite ?P0, ?P1, ?P2, ?P3, ?P4, ?P5, ?P6, ?P7; unfold orient, along; cbn [fst snd]; lra.
  - exists (7, 2, 1)%N. split; [cbn; auto 12|]. apply K; rewrite ?P0, ?P1, ?P2, ?P3, ?P4, ?P5, ?P6, ?P7; unfold orient, along; cbn [fst snd]; lra.
  - exists (0, 4, 1)%N. split; [cbn; auto 12|]. apply K; rewrite ?P0, ?P1, ?P2, ?P3, ?P4, ?P5, ?P6, ?P7; unfold orient, along; cbn [fst snd]; lra.
  - exists (7, 1, 4)%N. split; [cbn; auto 12|]. apply K; rewrite ?P0, ?P1, ?P2, ?P3, ?P4, ?P5, ?P6, ?P7; unfold orient, along; cbn [fst snd]; lra.
  - exists (7, 6, 2)%N. split; [cbn; auto 12|]. apply K; rewrite ?P0, ?P1, ?P2, ?P3, ?P4, ?P5, ?P6, ?P7; unfold orient, along; cbn [fst snd]; lra.
  - exists (6, 5, 2)%N. split; [cbn; auto 12|]. apply K; rewrite ?P0, ?P1, ?P2, ?P3, ?P4, ?P5, ?P6, ?P7; unfold orient, along; cbn [fst snd]; lra.
  - exists (5, 4, 3)%N. split; [cbn; auto 12|]. apply K; rewrite ?P0, ?P1, ?P2, ?P3, ?P4, ?P5, ?P6, ?P7; unfold orient, along; cbn [fst snd]; lra.
Qed.
