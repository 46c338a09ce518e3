(** * CDelGrid: constrained Delaunay for the inputs of [InputSpec.v]. *)

From Coq Require Import ZArith NArith List Bool Lia QArith Lqa Permutation.
From Verif Require Import Base BaseFacts Arith Types Utils Infinite Triangulation Constrained Geom Mesh Exact ExactC
  AnyDT DTExact Spec DTOut GridSpec InputSpec GridApi GridCdt CdtApi SpecBox BoxGrid SpecDomain DomainGrid CDelApi.
Import ListNotations.
Local Open Scope N_scope.

Section Grid.
Context {E : Env}.
Variables (vs : list vertex) (px py : N -> Q) (bound : Z).
Notation at_ := (pair_at px py).
Hypothesis G : exact_input vs at_ bound.
Hypothesis Hid : 2 * lenN vs + 2 <= idmax.
Variables (fuel : nat) (bins : N).
Hypothesis Hf : (4 * length vs + 12 <= fuel)%nat.
Notation circ a b c d := (in_circumcircle (at_ a) (at_ b) (at_ c) (at_ d)).

Lemma grid_shared_edge cs out dt a b c d :
  constrained_triangulation_from_2d_vertices fuel bins vs cs = Ret out ->
  triangulation_from_2d_vertices fuel bins vs = Ret dt ->
  (forall x y z v, is_tri dt x y z -> v < lenN vs -> ~ circ x y z v) ->
  is_tri out a b c -> is_tri out b a d -> edge_of at_ dt (Edge a b) -> ~ circ a b c d.
Proof.
  destruct (input_api vs px py bound G Hid) as (X & XC & _). intros H H0 Em Tc Td Ed.
  exact (shared_edge fuel bins vs _ _ X XC Hid Hf cs out dt a b c d H H0 Em Ed Tc Td).
Qed.

End Grid.

Section Few.
Context {E : Env}.
Variables (vs : list vertex) (px py : N -> Q) (bound : Z).
Notation at_ := (pair_at px py).
Hypothesis G : exact_input vs at_ bound.
Hypothesis Hid : 2 * lenN vs + 2 <= idmax.
Variables (fuel : nat) (bins : N).
Hypothesis Hq : ((2 * length vs + 4) * (2 * length vs + 4) <= fuel)%nat.
Notation circ a b c d := (in_circumcircle (at_ a) (at_ b) (at_ c) (at_ d)).

Lemma Hf : (4 * length vs + 12 <= fuel)%nat.
Proof. nia. Qed.

Lemma grid_few cs out dt :
  constrained_triangulation_from_2d_vertices fuel bins vs cs = Ret out ->
  triangulation_from_2d_vertices fuel bins vs = Ret dt ->
  (forall a b c d, is_tri dt a b c -> is_tri dt b a d -> ~ circ a b c d) ->
  (forall e, In e cs -> proper at_ e -> covers_between at_ dt (efrom e) (eto e)) ->
  noncrossing at_ cs ->
  (forall e, In e cs -> crosses_at_most at_ dt 2 e) ->
  constrained_delaunay at_ cs out.
Proof.
  destruct (input_api vs px py bound G Hid) as (X & XC & _).
  exact (cdt_few fuel bins vs _ _ X XC Hid Hf cs out dt Hq).
Qed.

(** In a box the unconstrained triangulation is Delaunay and covers the box. *)
Lemma grid_box_dt n a b c d dt : (1 <= bound)%Z -> lenN vs = n + 4 ->
  Permutation [a; b; c; d] [n; n + 1; n + 2; n + 3] -> box_corners (at_ a) (at_ b) (at_ c) (at_ d) ->
  (forall v, v < n -> in_box (at_ a) (at_ c) (at_ v)) -> bins = 1 ->
  triangulation_from_2d_vertices fuel bins vs = Ret dt ->
  (forall a b c d, is_tri dt a b c -> is_tri dt b a d -> ~ circ a b c d) /\
  (forall u v, u < lenN vs -> v < lenN vs -> covers_between at_ dt u v).
Proof.
  intros Hb Hn Pm Bx Hin H1 H0.
  destruct (grid_box_last vs px py bound G Hid fuel n a b c d Hf Hb Hn Pm Bx Hin) as (dt' & Hr & Cv & De).
  rewrite H1 in H0. rewrite H0 in Hr. assert (dt' = dt) by congruence. subst dt'. rewrite <- H1 in H0.
  assert (Li : lenN vs <= idmax + 1) by lia.
  assert (All : forall v, v < lenN vs -> in_box (at_ a) (at_ c) (at_ v)).
  { intros v Hv. destruct (N.lt_ge_cases v n) as [L|L].
    - exact (Hin v L).
    - assert (K : In v [a; b; c; d]).
      { apply (Permutation_in _ (Permutation_sym Pm)). cbn [In].
        destruct (N.eq_dec v n); [auto|]. destruct (N.eq_dec v (n + 1)); [auto|]. destruct (N.eq_dec v (n + 2)); [auto|].
        do 3 right. left. lia. }
      destruct Bx as (B1 & B2 & B3 & B4 & B5 & B6). cbn [In] in K. unfold in_box.
      destruct K as [<-|[<-|[<-|[<-|[]]]]]; repeat split; lra. }
  split.
  - intros x y z w T1 T2. apply (De x y z w T1). pose proof (proj1 (dt_ids fuel bins vs dt Li H0)) as Ids.
    destruct T2 as [K|[K|K]]; apply Ids in K; tauto.
  - intros u v K1 K2 t Ht. apply Cv. apply box_convex; auto. lra.
Qed.

Lemma grid_box_few n a b c d cs out dt : (1 <= bound)%Z -> lenN vs = n + 4 ->
  Permutation [a; b; c; d] [n; n + 1; n + 2; n + 3] -> box_corners (at_ a) (at_ b) (at_ c) (at_ d) ->
  (forall v, v < n -> in_box (at_ a) (at_ c) (at_ v)) -> bins = 1 ->
  constrained_triangulation_from_2d_vertices fuel bins vs cs = Ret out ->
  triangulation_from_2d_vertices fuel bins vs = Ret dt ->
  noncrossing at_ cs ->
  (forall e, In e cs -> crosses_at_most at_ dt 2 e) ->
  constrained_delaunay at_ cs out.
Proof.
  intros Hb Hn Pm Bx Hin H1 H H0 Nx Few.
  destruct (input_api vs px py bound G Hid) as (X & XC & _).
  assert (H3 : 3 <= lenN vs) by lia.
  destruct (grid_box_dt n a b c d dt Hb Hn Pm Bx Hin H1 H0) as (Lo & Cb).
  apply (cdt_few fuel bins vs _ _ X XC Hid Hf cs out dt Hq H H0); auto.
  intros e He _. destruct (cdt_in_range fuel bins vs _ _ X XC Hid Hf cs out e H3 H He) as (K1 & K2). now apply Cb.
Qed.
End Few.
