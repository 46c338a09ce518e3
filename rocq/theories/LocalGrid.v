(** * LocalGrid: constraints change the triangulation only where they cross it, for the inputs
    of [InputSpec.v]. *)

From Coq Require Import ZArith NArith List Bool Lia QArith Lqa Permutation.
From Verif Require Import Base BaseFacts Arith Types Utils Infinite Triangulation Constrained Geom Mesh Exact ExactC
  DTExact Spec DTOut GridSpec InputSpec GridApi CdtApi CLocal SpecBox BoxGrid.
Import ListNotations.
Local Open Scope N_scope.

Section Grid.
Context {E : Env}.
Variables (vs : list vertex) (px py : N -> Q) (bound : Z).
Notation at_ := (pair_at px py).
Hypothesis G : exact_input vs at_ bound.
Hypothesis Hid : 2 * lenN vs + 2 <= idmax.
Variables (fuel : nat) (bins : N).
Hypothesis Hf : (4 * length vs + 12 <= fuel)%nat.

Lemma grid_local cs out dt a b c x y z p :
  constrained_triangulation_from_2d_vertices fuel bins vs cs = Ret out ->
  triangulation_from_2d_vertices fuel bins vs = Ret dt ->
  In (a, b, c) out -> In (x, y, z) dt ->
  strictly_inside (at_ a) (at_ b) (at_ c) p -> strictly_inside (at_ x) (at_ y) (at_ z) p ->
  (a, b, c) = (x, y, z) \/
  exists e s, In e cs /\ (0 < s < 1)%Q /\
    strictly_inside (at_ x) (at_ y) (at_ z) (along (at_ (efrom e)) (at_ (eto e)) s).
Proof.
  destruct (input_api vs px py bound G Hid) as (X & XC & _).
  exact (cdt_local fuel bins vs _ _ X XC Hid Hf cs out dt a b c x y z p).
Qed.

(** In a box, a triangle that overlaps a triangle of the unconstrained triangulation which no
    constraint crosses has no vertex in its circumcircle. *)
Lemma grid_box_far n a b c d cs out dt u v w x y z p : (1 <= bound)%Z -> lenN vs = n + 4 ->
  Permutation [a; b; c; d] [n; n + 1; n + 2; n + 3] -> box_corners (at_ a) (at_ b) (at_ c) (at_ d) ->
  (forall i, i < n -> in_box (at_ a) (at_ c) (at_ i)) -> bins = 1 ->
  constrained_triangulation_from_2d_vertices fuel bins vs cs = Ret out ->
  triangulation_from_2d_vertices fuel bins vs = Ret dt ->
  In (u, v, w) out -> In (x, y, z) dt ->
  strictly_inside (at_ u) (at_ v) (at_ w) p -> strictly_inside (at_ x) (at_ y) (at_ z) p ->
  (forall e s, In e cs -> (0 < s < 1)%Q ->
     ~ strictly_inside (at_ x) (at_ y) (at_ z) (along (at_ (efrom e)) (at_ (eto e)) s)) ->
  forall i, i < lenN vs -> ~ in_circumcircle (at_ u) (at_ v) (at_ w) (at_ i).
Proof.
  intros Hb Hn Pm Bx Hin H1 H H0 Ho Hd Pu Px Nc i Hi.
  destruct (grid_local cs out dt u v w x y z p H H0 Ho Hd Pu Px) as [Q|(e & s & He & Hs & Hc)].
  2:{ exfalso. exact (Nc e s He Hs Hc). }
  injection Q as -> -> ->.
  destruct (grid_box_last vs px py bound G Hid fuel n a b c d Hf Hb Hn Pm Bx Hin) as (out0 & Hr & _ & De).
  rewrite H1 in H0. rewrite H0 in Hr. assert (out0 = dt) by congruence. subst out0. apply De; auto. now left.
Qed.
End Grid.
