(** * WitnessFork: a rectangle, whose corners are on a circle, and a triangle that has one side in common with it. *)

From Coq Require Import ZArith NArith List Bool QArith SpecFloat Lia Lqa Permutation.
From Verif Require Import Base Arith Types Utils Infinite Triangulation Constrained F64 Exact Spec DTOut GridSpec GridNum InputSpec GridApi GridCdt
  ApiProps Refuted Witness SpecBox SpecDomain SpecWinding SpecFilling SpecTiles Winding Inside WitnessWinding WitnessPolygon
  SpecUnique SpecVisible SpecAlone SpecTilesArea WitnessUnique WitnessOrder WitnessCExact WitnessTiles.
Import ListNotations.
Local Open Scope N_scope.

Definition lfork : list (Z * Z) := [(8,4); (8,12); (10,12); (10,4); (12,8); (4,11); (0,0); (16,0); (16,16); (0,16)]%Z.

Definition tiles_fork : list (list edge) := [tile1; tile0].

Lemma lfork_grid64 : on_grid (E := env64) (pts lfork) lfork (2 ^ 40).
Proof.
  exists (sf_is 53 1024), (2 ^ 4)%Z, 0%Z, 0%Z.
  split; [apply (Grid_f64 u32_max 4); lia|]. split; [|split].
  - apply f2_map. intros p Hp. simpl in Hp.
    decompose [or] Hp; try contradiction; subst; vm_compute; repeat split; reflexivity.
  - unfold fits, lfork. repeat split.
    1-4: simpl in H; intuition (subst; simpl; lia).
    + exists (0, 0)%Z. simpl. auto 16.
    + exists (0, 0)%Z. simpl. auto 16.
    + exists (16, 16)%Z. simpl. auto 16.
  - intros p Hp. simpl in Hp. decompose [or] Hp; try contradiction; subst; vm_compute; split; discriminate.
Qed.

Lemma lfork_ids : 2 * lenN (pts lfork) + 2 <= @idmax env64.
Proof. vm_compute. discriminate. Qed.
Lemma lfork_fuel : (700 >= (2 * length (pts lfork) + 4) * (2 * length (pts lfork) + 4))%nat.
Proof. apply Nat.leb_le. reflexivity. Qed.

Lemma lfork_points :
  zpoint lfork 0 = (8, 4)%Q /\ zpoint lfork 1 = (8, 12)%Q /\ zpoint lfork 2 = (10, 12)%Q /\ zpoint lfork 3 = (10, 4)%Q /\ zpoint lfork 4 = (12, 8)%Q /\ zpoint lfork 5 = (4, 11)%Q /\ zpoint lfork 6 = (0, 0)%Q /\ zpoint lfork 7 = (16, 0)%Q /\ zpoint lfork 8 = (16, 16)%Q /\ zpoint lfork 9 = (0, 16)%Q.
Proof. repeat split. Qed.

Lemma lfork_corners : Permutation [6; 7; 8; 9] [6; 6 + 1; 6 + 2; 6 + 3] /\
  box_corners (zpoint lfork 6) (zpoint lfork 7) (zpoint lfork 8) (zpoint lfork 9) /\
  forall v, v < 6 -> in_box (zpoint lfork 6) (zpoint lfork 8) (zpoint lfork v).
Proof.
  split; [apply Permutation_refl|]. split; [vm_compute; repeat split; try reflexivity; discriminate|].
  intros v H. assert (K : v = 0 \/ v = 1 \/ v = 2 \/ v = 3 \/ v = 4 \/ v = 5) by lia.
  destruct lfork_points as (P0 & P1 & P2 & P3 & P4 & P5 & P6 & P7 & P8 & P9).
  decompose [or] K; subst v; rewrite ?P0, ?P1, ?P2, ?P3, ?P4, ?P5, ?P6, ?P7, ?P8, ?P9; unfold in_box; cbn [fst snd]; split; split; lra.
Qed.

Lemma lfork_clear e : In e (concat tiles_fork) -> efrom e < 10 /\ eto e < 10 /\ clear_between (zpoint lfork) 10 (efrom e) (eto e).
Proof.
  destruct lfork_points as (P0 & P1 & P2 & P3 & P4 & P5 & P6 & P7 & P8 & P9).
  intros He. cbn [concat tiles_fork tile0 tile1 app In] in He.
  decompose [or] He; try contradiction; subst e; cbn [efrom eto]; (split; [lia|]; split; [lia|]).
  all: intros v s Hv Hs;
    assert (Hv' : v = 0 \/ v = 1 \/ v = 2 \/ v = 3 \/ v = 4 \/ v = 5 \/ v = 6 \/ v = 7 \/ v = 8 \/ v = 9) by lia;
    decompose [or] Hv'; subst v; rewrite ?P0, ?P1, ?P2, ?P3, ?P4, ?P5, ?P6, ?P7, ?P8, ?P9;
    intros (Q1 & Q2); unfold along in Q1, Q2; cbn [fst snd] in Q1, Q2; lra.
Qed.

Lemma fork0_polygon : simple_polygon (zpoint lfork) tile0.
Proof.
  destruct lfork_points as (P0 & P1 & P2 & P3 & P4 & P5 & P6 & P7 & P8 & P9). split.
  - constructor.
    + unfold tile0. repeat constructor; cbn [In]; intuition discriminate.
    + intros e I (K1 & K2). cbn [tile0 In] in I. decompose [or] I; try contradiction; subst e; vm_compute in K1, K2; first [discriminate K1|discriminate K2].
    + intros e I. cbn [tile0 In] in I. decompose [or] I; try contradiction; subst e; let l := eval unfold tile0 in tile0 in pick l.
    + intros e I. cbn [tile0 In] in I. decompose [or] I; try contradiction; subst e; let l := eval unfold tile0 in tile0 in pick l.
    + intros e f I J (K1 & K2). cbn [tile0 In] in I, J. decompose [or] I; try contradiction; subst e; decompose [or] J; try contradiction; subst f;
        first [reflexivity|vm_compute in K1, K2; first [discriminate K1|discriminate K2]].
    + intros e f I J (K1 & K2). cbn [tile0 In] in I, J. decompose [or] I; try contradiction; subst e; decompose [or] J; try contradiction; subst f;
        first [reflexivity|vm_compute in K1, K2; first [discriminate K1|discriminate K2]].
    + intros e f s r I J S R (K1 & K2). cbn [tile0 In] in I, J.
      decompose [or] I; try contradiction; subst e; decompose [or] J; try contradiction; subst f; cbn [efrom eto] in K1, K2;
        rewrite ?P0, ?P1, ?P2, ?P3, ?P4, ?P5, ?P6, ?P7, ?P8, ?P9 in K1, K2; unfold along in K1, K2; cbn [fst snd] in K1, K2; ends_meet.
  - assert (N : forall f g, In f tile0 -> In g tile0 -> same_place (zpoint lfork (eto f)) (zpoint lfork (efrom g)) ->
      forall e, same_loop (zpoint lfork) tile0 e f -> same_loop (zpoint lfork) tile0 e g).
    { intros f g _ J V e L. exact (loop_next _ _ _ _ _ L J V). }
    pose proof (N (Edge 0 1) (Edge 1 2) ltac:(cbn; tauto) ltac:(cbn; tauto) ltac:(split; reflexivity)) as N0.
    pose proof (N (Edge 1 2) (Edge 2 3) ltac:(cbn; tauto) ltac:(cbn; tauto) ltac:(split; reflexivity)) as N1.
    pose proof (N (Edge 2 3) (Edge 3 0) ltac:(cbn; tauto) ltac:(cbn; tauto) ltac:(split; reflexivity)) as N2.
    pose proof (N (Edge 3 0) (Edge 0 1) ltac:(cbn; tauto) ltac:(cbn; tauto) ltac:(split; reflexivity)) as N3.
    intros e f I J. cbn [tile0 In] in I, J.
    decompose [or] I; try contradiction; subst e; decompose [or] J; try contradiction; subst f; auto 8 using loop_here.
Qed.

Lemma fork1_polygon : simple_polygon (zpoint lfork) tile1.
Proof.
  destruct lfork_points as (P0 & P1 & P2 & P3 & P4 & P5 & P6 & P7 & P8 & P9). split.
  - constructor.
    + unfold tile1. repeat constructor; cbn [In]; intuition discriminate.
    + intros e I (K1 & K2). cbn [tile1 In] in I. decompose [or] I; try contradiction; subst e; vm_compute in K1, K2; first [discriminate K1|discriminate K2].
    + intros e I. cbn [tile1 In] in I. decompose [or] I; try contradiction; subst e; let l := eval unfold tile1 in tile1 in pick l.
    + intros e I. cbn [tile1 In] in I. decompose [or] I; try contradiction; subst e; let l := eval unfold tile1 in tile1 in pick l.
    + intros e f I J (K1 & K2). cbn [tile1 In] in I, J. decompose [or] I; try contradiction; subst e; decompose [or] J; try contradiction; subst f;
        first [reflexivity|vm_compute in K1, K2; first [discriminate K1|discriminate K2]].
    + intros e f I J (K1 & K2). cbn [tile1 In] in I, J. decompose [or] I; try contradiction; subst e; decompose [or] J; try contradiction; subst f;
        first [reflexivity|vm_compute in K1, K2; first [discriminate K1|discriminate K2]].
    + intros e f s r I J S R (K1 & K2). cbn [tile1 In] in I, J.
      decompose [or] I; try contradiction; subst e; decompose [or] J; try contradiction; subst f; cbn [efrom eto] in K1, K2;
        rewrite ?P0, ?P1, ?P2, ?P3, ?P4, ?P5, ?P6, ?P7, ?P8, ?P9 in K1, K2; unfold along in K1, K2; cbn [fst snd] in K1, K2; ends_meet.
  - assert (N : forall f g, In f tile1 -> In g tile1 -> same_place (zpoint lfork (eto f)) (zpoint lfork (efrom g)) ->
      forall e, same_loop (zpoint lfork) tile1 e f -> same_loop (zpoint lfork) tile1 e g).
    { intros f g _ J V e L. exact (loop_next _ _ _ _ _ L J V). }
    pose proof (N (Edge 3 2) (Edge 2 4) ltac:(cbn; tauto) ltac:(cbn; tauto) ltac:(split; reflexivity)) as N0.
    pose proof (N (Edge 2 4) (Edge 4 3) ltac:(cbn; tauto) ltac:(cbn; tauto) ltac:(split; reflexivity)) as N1.
    pose proof (N (Edge 4 3) (Edge 3 2) ltac:(cbn; tauto) ltac:(cbn; tauto) ltac:(split; reflexivity)) as N2.
    intros e f I J. cbn [tile1 In] in I, J.
    decompose [or] I; try contradiction; subst e; decompose [or] J; try contradiction; subst f; auto 8 using loop_here.
Qed.

Lemma fork0_strip p : winding (zpoint lfork) tile0 p = 1%Z -> (8 <= fst p < 10)%Q.
Proof.
  apply strip. intros e I. cbn [tile0 In] in I. decompose [or] I; try contradiction; subst e; vm_compute; repeat split; discriminate.
Qed.
Lemma fork1_strip p : winding (zpoint lfork) tile1 p = 1%Z -> (10 <= fst p < 12)%Q.
Proof.
  apply strip. intros e I. cbn [tile1 In] in I. decompose [or] I; try contradiction; subst e; vm_compute; repeat split; discriminate.
Qed.
Lemma fork_points p : In p [(9, 5); (11, 8)]%Q -> ~ on_constraint (zpoint lfork) (concat tiles_fork) p.
Proof.
  destruct lfork_points as (P0 & P1 & P2 & P3 & P4 & P5 & P6 & P7 & P8 & P9).
  intros Hp (e & s & I & _ & S & K1 & K2). cbn [In] in Hp. cbn [concat tiles_fork tile0 tile1 app In] in I.
  decompose [or] I; try contradiction; subst e; cbn [efrom eto] in K1, K2; rewrite ?P0, ?P1, ?P2, ?P3, ?P4, ?P5, ?P6, ?P7, ?P8, ?P9 in K1, K2; unfold along in K1, K2;
    decompose [or] Hp; try contradiction; subst p; cbn [fst snd] in K1, K2; lra.
Qed.

Lemma fork_part P p : In P tiles_fork -> ~ on_constraint (zpoint lfork) (concat tiles_fork) p -> ~ on_constraint (zpoint lfork) P p.
Proof. intros I N (e & s & J & K). apply N. exists e, s. split; [apply in_concat; exists P; auto|exact K]. Qed.

Lemma fork_ok : tiles (zpoint lfork) tiles_fork.
Proof.
  destruct lfork_points as (P0 & P1 & P2 & P3 & P4 & P5 & P6 & P7 & P8 & P9). constructor.
  - intros P [<- |[<- |[]]]; [exact fork1_polygon|exact fork0_polygon].
  - intros P [<- |[<- |[]]]; [exists (11, 8)%Q|exists (9, 5)%Q]; (split; [|vm_compute; reflexivity]);
      apply fork_part; try (cbn; tauto); apply fork_points; cbn; tauto.
  - intros i j P Q e f s r Hi Hj D Ie If S R (K1 & K2).
    destruct i as [|[|i]]; cbn in Hi; [| |destruct i; discriminate Hi]; injection Hi as <-;
    (destruct j as [|[|j]]; cbn in Hj; [| |destruct j; discriminate Hj]); try (destruct (D eq_refl)); injection Hj as <-;
    cbn [tile0 tile1 In] in Ie, If; decompose [or] Ie; try contradiction; subst e; decompose [or] If; try contradiction; subst f;
    first [split; split; reflexivity|exfalso; cbn [efrom eto] in K1, K2; rewrite ?P0, ?P1, ?P2, ?P3, ?P4, ?P5, ?P6, ?P7, ?P8, ?P9 in K1, K2; unfold along in K1, K2; cbn [fst snd] in K1, K2; lra].
  - intros i j P Q p Hi Hj D _ _ (W1 & W2).
    destruct i as [|[|i]]; cbn in Hi; [| |destruct i; discriminate Hi]; injection Hi as <-;
    (destruct j as [|[|j]]; cbn in Hj; [| |destruct j; discriminate Hj]); try (destruct (D eq_refl)); injection Hj as <-;
    repeat match goal with
    | W : winding _ tile0 _ = _ |- _ => apply fork0_strip in W
    | W : winding _ tile1 _ = _ |- _ => apply fork1_strip in W
    end; lra.
Qed.



Definition dt_fork : list (N * N * N) :=
  [(0, 5, 1); (0, 1, 4); (1, 8, 2); (5, 6, 9); (4, 8, 7); (2, 8, 4); (0, 7, 6); (3, 4, 7);
   (1, 9, 8); (0, 4, 3); (1, 5, 9); (1, 2, 4); (0, 6, 5); (0, 3, 7)].
Lemma lfork_dt : triangulation_from_2d_vertices (E := env64) 700 1 (pts lfork) = Ret dt_fork.
Proof. vm_compute. reflexivity. Qed.

Definition out_fork : list (N * N * N) := [(2, 3, 1); (1, 3, 0); (2, 4, 3)].
Lemma lfork_together : constrained_triangulation_from_2d_vertices (E := env64) 700 1 (pts lfork) (concat tiles_fork) = Ret out_fork.
Proof. vm_compute. reflexivity. Qed.

Definition out_fork0 : list (N * N * N) := [(0, 1, 2); (3, 0, 2)].
Lemma lfork_alone : constrained_triangulation_from_2d_vertices (E := env64) 700 1 (pts lfork) tile0 = Ret out_fork0.
Proof. vm_compute. reflexivity. Qed.

(** The edges of 4 to 0 and 1 are the only ones that cross a side. *)
Lemma lfork_sides e : In e (concat tiles_fork) -> efrom e < 10 /\ eto e < 10 /\ clear_between (zpoint lfork) 10 (efrom e) (eto e) /\
  crosses_at_most (zpoint lfork) dt_fork 2 e.
Proof.
  intros He. destruct (lfork_clear e He) as (x & y & z). split; [exact x|]. split; [exact y|]. split; [exact z|].
  clear x y z. exists [(0, 4); (1, 4)]. split; [cbn; lia|]. intros a b c T X.
  assert (K : forallb (fun t => let '(a, b, c) := t in forallb (fun e => forallb (fun ab => let '(a, b) := ab in
    (N.eqb (N.max a b) 4 && N.leb (N.min a b) 1) ||
    (Qle_bool 0 (orient (zpoint lfork a) (zpoint lfork b) (zpoint lfork (efrom e)) * orient (zpoint lfork a) (zpoint lfork b) (zpoint lfork (eto e))) ||
    Qle_bool 0 (orient (zpoint lfork (efrom e)) (zpoint lfork (eto e)) (zpoint lfork a) * orient (zpoint lfork (efrom e)) (zpoint lfork (eto e)) (zpoint lfork b))))
    [(a, b); (b, c); (c, a)]) (concat tiles_fork)) dt_fork = true) by (vm_compute; reflexivity).
  rewrite forallb_forall in K.
  assert (Y : exists t, In t dt_fork /\ let '(x, y, z) := t in In (a, b) [(x, y); (y, z); (z, x)])
    by (destruct T as [T|[T|T]]; eexists; (split; [exact T|cbn; auto])).
  destruct Y as (((x, y), z) & I & J). specialize (K _ I). cbn beta iota in K. rewrite forallb_forall in K. specialize (K e He).
  rewrite forallb_forall in K. specialize (K _ J). cbn beta iota in K. apply orb_true_iff in K. destruct K as [K|K].
  - apply andb_true_iff in K. destruct K as (K1 & K2). apply N.eqb_eq in K1. apply N.leb_le in K2. 
    assert (L : (a = 0 /\ b = 4) \/ (a = 4 /\ b = 0) \/ (a = 1 /\ b = 4) \/ (a = 4 /\ b = 1)) by lia.
    destruct L as [(-> & ->)|[(-> & ->)|[(-> & ->)|(-> & ->)]]]; cbn; auto.
  - apply orb_true_iff in K. rewrite !Qle_bool_iff in K. unfold segments_cross in X. exfalso. lra.
Qed.

(** The other diagonal is taken. *)
Lemma lfork_differ : ~ same_triangles (zpoint lfork) (zpoint lfork) (in_tile (zpoint lfork) tile0 out_fork) out_fork0.
Proof.
  intros (A & _). destruct (A (2, 3, 1)) as (t & I & S).
  - vm_compute. auto.
  - cbn [out_fork0 In] in I. decompose [or] I; try contradiction; subst t; cbn [same_triangle] in S;
      destruct S as [((x & y) & (z & w) & (u & v))|[((x & y) & (z & w) & (u & v))|((x & y) & (z & w) & (u & v))]];
      vm_compute in x, y, z, w, u, v;
      first [discriminate x|discriminate y|discriminate z|discriminate w|discriminate u|discriminate v].
Qed.
