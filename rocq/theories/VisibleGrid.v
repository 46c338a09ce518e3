(** * VisibleGrid: [Visible.v] for the inputs of [InputSpec.v]. *)

From Coq Require Import ZArith NArith List Bool Lia QArith Lqa Permutation.
From Verif Require Import Base BaseFacts Arith Types Utils Infinite Triangulation Constrained Geom Mesh Exact ExactC
  AnyDT DTExact Spec DTOut GridSpec InputSpec GridApi GridCdt CdtApi SpecBox BoxGrid SpecDomain DomainGrid CDelApi CDelGrid
  SpecVisible Visible Charact.
Import ListNotations.
Local Open Scope N_scope.

Section Grid.
Context {E : Env}.
Variables (vs : list vertex) (px py : N -> Q) (bound : Z).
Notation at_ := (pair_at px py).
Hypothesis G : exact_input vs at_ bound.
Hypothesis Hid : 2 * lenN vs + 2 <= idmax.
Variables (fuel : nat) (bins : N).
Hypothesis Hq : ((2 * length vs + 4) * (2 * length vs + 4) <= fuel)%nat.

Lemma grid_visible cs out dt :
  constrained_triangulation_from_2d_vertices fuel bins vs cs = Ret out ->
  triangulation_from_2d_vertices fuel bins vs = Ret dt ->
  noncrossing at_ cs ->
  (forall e, In e cs -> proper at_ e -> covers_between at_ dt (efrom e) (eto e)) ->
  convex_area at_ dt -> (forall v, v < lenN vs -> covered at_ dt (at_ v)) ->
  constrained_delaunay at_ cs out -> visibly_delaunay at_ cs (lenN vs) out.
Proof.
  destruct (input_api vs px py bound G Hid) as (X & XC & _).
  exact (cdt_visible fuel bins vs _ _ X XC Hid Hq cs out dt).
Qed.

(** In a box. *)
Lemma grid_box_visible n a b c d cs out : (1 <= bound)%Z -> lenN vs = n + 4 ->
  Permutation [a; b; c; d] [n; n + 1; n + 2; n + 3] -> box_corners (at_ a) (at_ b) (at_ c) (at_ d) ->
  (forall v, v < n -> in_box (at_ a) (at_ c) (at_ v)) -> bins = 1 ->
  constrained_triangulation_from_2d_vertices fuel bins vs cs = Ret out ->
  noncrossing at_ cs ->
  constrained_delaunay at_ cs out -> visibly_delaunay at_ cs (lenN vs) out.
Proof.
  intros Hb Hn Pm Bx Hin Hb1 H Nx Cd.
  assert (Hf : (4 * length vs + 12 <= fuel)%nat) by nia.
  destruct (grid_box_last vs px py bound G Hid fuel n a b c d Hf Hb Hn Pm Bx Hin) as (dt & H0 & Cv & _). rewrite <- Hb1 in H0.
  destruct (grid_box_dt vs px py bound G Hid fuel bins Hq n a b c d dt Hb Hn Pm Bx Hin Hb1 H0) as (_ & Cb).
  destruct (input_api vs px py bound G Hid) as (X & XC & _).
  assert (H3 : 3 <= lenN vs) by lia.
  assert (Cv' : forall v, v < lenN vs -> covered at_ dt (at_ v)).
  { intros v Hv. apply Cv. destruct (N.ltb_spec v n) as [|Hge]; auto.
    assert (K : In v [a; b; c; d]).
    { apply (Permutation_in _ (Permutation_sym Pm)). simpl. lia. }
    destruct Bx as (B1 & B2 & B3 & B4 & B5 & B6). unfold in_box.
    destruct K as [<-|[<-|[<-|[<-|[]]]]]; repeat split; lra. }
  apply (grid_visible cs out dt); auto.
  - intros e He _. destruct (cdt_in_range fuel bins vs _ _ X XC Hid Hf cs out e H3 H He) as (K1 & K2). now apply Cb.
  - intros p q s Hp Hq' Hs. apply Cv. apply in_box_convex; auto; now apply Cv.
Qed.

Lemma grid_box_few_visible n a b c d cs out dt : (1 <= bound)%Z -> lenN vs = n + 4 ->
  Permutation [a; b; c; d] [n; n + 1; n + 2; n + 3] -> box_corners (at_ a) (at_ b) (at_ c) (at_ d) ->
  (forall v, v < n -> in_box (at_ a) (at_ c) (at_ v)) -> bins = 1 ->
  constrained_triangulation_from_2d_vertices fuel bins vs cs = Ret out ->
  triangulation_from_2d_vertices fuel bins vs = Ret dt ->
  noncrossing at_ cs ->
  (forall e, In e cs -> crosses_at_most at_ dt 2 e) ->
  visibly_delaunay at_ cs (lenN vs) out.
Proof.
  intros Hb Hn Pm Bx Hin Hb1 H H0 Nx Few.
  apply (grid_box_visible n a b c d cs out); auto.
  exact (grid_box_few vs px py bound G Hid fuel bins Hq n a b c d cs out dt Hb Hn Pm Bx Hin Hb1 H H0 Nx Few).
Qed.
End Grid.
