(** * DomainGrid: the area of the returned triangles, for the inputs of [InputSpec.v]. *)

From Coq Require Import ZArith NArith List Bool Lia QArith Lqa Permutation.
From Verif Require Import Base BaseFacts Arith Types Utils Infinite Triangulation Constrained Geom Mesh Exact ExactC
  DTExact Spec DTOut GridSpec InputSpec GridApi GridCdt CdtApi SpecBox BoxGrid SpecDomain DomainApi ApiProps AnyCDT.
Import ListNotations.
Local Open Scope N_scope.

Section Box.
Local Open Scope Q_scope.

Lemma box_convex a c p q t : in_box a c p -> in_box a c q -> 0 <= t <= 1 -> in_box a c (along p q t).
Proof.
  intros ((A1 & A2) & A3 & A4) ((C1 & C2) & C3 & C4) (T0 & T1). unfold in_box, along. cbn [fst snd].
  assert (M : forall x y m : Q, m <= x -> m <= y -> m <= x + t * (y - x)).
  { intros x y m Hx' Hy'. assert (0 <= t * (y - m)) by (apply Qmult_le_0_compat; lra).
    assert (0 <= (1 - t) * (x - m)) by (apply Qmult_le_0_compat; lra). lra. }
  assert (M' : forall x y m : Q, x <= m -> y <= m -> x + t * (y - x) <= m).
  { intros x y m Hx' Hy'. assert (0 <= t * (m - y)) by (apply Qmult_le_0_compat; lra).
    assert (0 <= (1 - t) * (m - x)) by (apply Qmult_le_0_compat; lra). lra. }
  split; split; auto.
Qed.

Lemma bary_x a b c p : orient a b c * fst p == orient b c p * fst a + orient c a p * fst b + orient a b p * fst c.
Proof. unfold orient. ring. Qed.
Lemma bary_y a b c p : orient a b c * snd p == orient b c p * snd a + orient c a p * snd b + orient a b p * snd c.
Proof. unfold orient. ring. Qed.
Lemma bary_1 a b c p : orient a b c == orient b c p + orient c a p + orient a b p.
Proof. unfold orient. ring. Qed.

Lemma tri_in_box l h a b c p : in_box l h a -> in_box l h b -> in_box l h c -> clockwise a b c ->
  inside_or_on a b c p -> in_box l h p.
Proof.
  intros ((A1 & A2) & A3 & A4) ((B1 & B2) & B3 & B4) ((C1 & C2) & C3 & C4) Cw (P1 & P2 & P3). unfold clockwise in Cw.
  pose proof (bary_x a b c p) as X. pose proof (bary_y a b c p) as Y. pose proof (bary_1 a b c p) as S.
  set (d := orient a b c) in *. set (u := orient b c p) in *. set (v := orient c a p) in *. set (w := orient a b p) in *.
  assert (L : forall x y z f m, d * f == u * x + v * y + w * z -> m <= x -> m <= y -> m <= z -> m <= f).
  { intros x y z f m H H1 H2 H3. destruct (Qlt_le_dec f m); auto. exfalso.
    assert (0 < (- d) * (m - f)) by (apply CCross.Qmul_pos; lra).
    assert (0 <= (- u) * (x - m)) by (apply Qmult_le_0_compat; lra).
    assert (0 <= (- v) * (y - m)) by (apply Qmult_le_0_compat; lra).
    assert (0 <= (- w) * (z - m)) by (apply Qmult_le_0_compat; lra).
    assert (d * m == u * m + v * m + w * m) by (rewrite S; ring). lra. }
  assert (L' : forall x y z f m, d * f == u * x + v * y + w * z -> x <= m -> y <= m -> z <= m -> f <= m).
  { intros x y z f m H H1 H2 H3. destruct (Qlt_le_dec m f); auto. exfalso.
    assert (0 < (- d) * (f - m)) by (apply CCross.Qmul_pos; lra).
    assert (0 <= (- u) * (m - x)) by (apply Qmult_le_0_compat; lra).
    assert (0 <= (- v) * (m - y)) by (apply Qmult_le_0_compat; lra).
    assert (0 <= (- w) * (m - z)) by (apply Qmult_le_0_compat; lra).
    assert (d * m == u * m + v * m + w * m) by (rewrite S; ring). lra. }
  split; split; eauto.
Qed.
End Box.

Section Grid.
Context {E : Env}.
Variables (vs : list vertex) (px py : N -> Q) (bound : Z).
Notation at_ := (pair_at px py).
Hypothesis G : exact_input vs at_ bound.
Hypothesis Hid : 2 * lenN vs + 2 <= idmax.
Variables (fuel : nat).

Lemma grid_inside bins cs out p : (4 * length vs + 12 <= fuel)%nat ->
  constrained_triangulation_from_2d_vertices fuel bins vs cs = Ret out -> noncrossing at_ cs ->
  ~ on_constraint at_ cs p -> covered at_ out p -> in_domain at_ cs p.
Proof.
  destruct (input_api vs px py bound G Hid) as (X & XC & _). intros Hf.
  exact (cdt_inside fuel bins vs px py X XC Hid cs out p Hf).
Qed.

Hypothesis Hf2 : ((2 * length vs + 4) * (2 * length vs + 4) <= fuel)%nat.

Lemma grid_domain bins cs out dt p :
  constrained_triangulation_from_2d_vertices fuel bins vs cs = Ret out ->
  triangulation_from_2d_vertices fuel bins vs = Ret dt -> noncrossing at_ cs ->
  (forall e, In e cs -> proper at_ e -> covers_between at_ dt (efrom e) (eto e)) ->
  covered at_ dt p -> ~ on_constraint at_ cs p ->
  (covered at_ out p <-> in_domain at_ cs p).
Proof.
  destruct (input_api vs px py bound G Hid) as (X & XC & _).
  exact (cdt_domain fuel bins vs px py X XC Hid Hf2 cs out dt p).
Qed.

Lemma grid_box_domain n a b c d cs : (1 <= bound)%Z -> lenN vs = n + 4 ->
  Permutation [a; b; c; d] [n; n + 1; n + 2; n + 3] -> box_corners (at_ a) (at_ b) (at_ c) (at_ d) ->
  (forall v, v < n -> in_box (at_ a) (at_ c) (at_ v)) ->
  (forall e, In e cs -> efrom e < lenN vs /\ eto e < lenN vs /\
     (proper at_ e -> clear_between at_ (lenN vs) (efrom e) (eto e))) ->
  noncrossing at_ cs ->
  exists out, constrained_triangulation_from_2d_vertices fuel 1 vs cs = Ret out /\
    forall p, ~ on_constraint at_ cs p ->
      (covered at_ out p <-> in_box (at_ a) (at_ c) p /\ in_domain at_ cs p).
Proof.
  intros Hb Hn Pm Bx Hin Hcs Hx.
  assert (Hf' : (4 * length vs + 12 <= fuel)%nat) by nia.
  destruct (grid_box_last vs px py bound G Hid fuel n a b c d Hf' Hb Hn Pm Bx Hin) as (dt & Ho & Cv & _).
  destruct (grid_box_cdt vs px py bound G Hid fuel n a b c d cs Hf2 Hb Hn Pm Bx Hin Hcs Hx) as (out & Hr & _).
  assert (All : forall v, v < lenN vs -> in_box (at_ a) (at_ c) (at_ v)).
  { intros v Hv. destruct (N.lt_ge_cases v n) as [L|L].
    - exact (Hin v L).
    - assert (K : In v [a; b; c; d]).
      { apply (Permutation_in _ (Permutation_sym Pm)). cbn [In].
        destruct (N.eq_dec v n); [auto|]. destruct (N.eq_dec v (n + 1)); [auto|]. destruct (N.eq_dec v (n + 2)); [auto|].
        do 3 right. left. lia. }
      destruct Bx as (B1 & B2 & B3 & B4 & B5 & B6). cbn [In] in K. unfold in_box.
      destruct K as [<-|[<-|[<-|[<-|[]]]]]; repeat split; lra. }
  exists out. split; [auto|]. intros p No.
  assert (Cb : forall e, In e cs -> proper at_ e -> covers_between at_ dt (efrom e) (eto e)).
  { intros e He _ t Ht. destruct (Hcs e He) as (K1 & K2 & _). apply Cv. apply box_convex; auto. lra. }
  assert (Sub : covered at_ out p -> in_box (at_ a) (at_ c) p).
  { intros (((x, y), z) & Ht & In').
    pose proof (vm_clockwise _ _ _ (grid_cdt_valid vs px py bound G Hid fuel 1 Hf' cs out Hr) _ Ht) as Cw.
    assert (Li : lenN vs <= idmax + 1) by lia.
    destruct (proj1 (cdt_ids fuel 1 vs cs out Li Hr) x y z Ht) as (Lx & Ly & Lz).
    exact (tri_in_box _ _ _ _ _ p (All x Lx) (All y Ly) (All z Lz) Cw In'). }
  split.
  - intros C. split; [now apply Sub|]. exact (grid_inside 1 cs out p Hf' Hr Hx No C).
  - intros (B & Dm). apply (grid_domain 1 cs out dt p Hr Ho Hx Cb); auto. now apply Cv.
Qed.
End Grid.
