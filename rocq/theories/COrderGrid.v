(** * COrderGrid: the order of the constraints, for the inputs of [InputSpec.v]. *)

From Coq Require Import ZArith NArith List Bool Lia QArith Lqa Permutation.
From Verif Require Import Base BaseFacts Arith Types Utils Infinite Triangulation Constrained Geom Mesh Exact ExactC
  AnyDT DTExact Spec DTOut GridSpec InputSpec GridApi GridCdt CdtApi SpecBox BoxGrid SpecDomain DomainGrid CDelApi CDelGrid
  SpecUnique Unique COrderApi.
Import ListNotations.
Local Open Scope N_scope.

(** Meshes with the same triangles are as long. *)
Lemma same_length at_ n out1 out2 : valid_mesh at_ n out1 ->
  (forall a b c, is_tri out1 a b c -> is_tri out2 a b c) -> (length out1 <= length out2)%nat.
Proof.
  intros V H. apply (matched_length (same_triangle at_ at_)).
  - intros ((a, b), c) Hin. destruct (is_tri_In _ _ _ _ (H a b c (or_introl Hin))) as (x & y & w & K & Eq).
    exists (x, y, w). split; auto. simpl. pose proof (fun p => conj (Qeq_refl (fst p)) (Qeq_refl (snd p)) : same_place p p) as Rf.
    destruct Eq as [(-> & -> & ->)|[(-> & -> & ->)|(-> & -> & ->)]]; auto.
  - exact (mesh_nodup _ _ (valid_tiles _ _ _ V)).
  - intros s s' t Hs Hs'. exact (mesh_match at_ at_ out1 s s' t (valid_tiles _ _ _ V) Hs Hs').
Qed.

Section Grid.
Context {E : Env}.
Variables (vs : list vertex) (px py : N -> Q) (bound : Z).
Notation at_ := (pair_at px py).
Hypothesis G : exact_input vs at_ bound.
Hypothesis Hid : 2 * lenN vs + 2 <= idmax.
Variables (fuel : nat) (bins : N).
Hypothesis Hq : ((2 * length vs + 4) * (2 * length vs + 4) <= fuel)%nat.
Notation circ a b c d := (in_circumcircle (at_ a) (at_ b) (at_ c) (at_ d)).

Lemma grid_order cs1 cs2 out1 out2 dt :
  constrained_triangulation_from_2d_vertices fuel bins vs cs1 = Ret out1 ->
  constrained_triangulation_from_2d_vertices fuel bins vs cs2 = Ret out2 ->
  triangulation_from_2d_vertices fuel bins vs = Ret dt ->
  (forall e, In e cs1 <-> In e cs2) ->
  no_empty_quad_on_a_circle at_ (lenN vs) ->
  (forall a b c d, is_tri dt a b c -> is_tri dt b a d -> ~ circ a b c d) ->
  (forall e, In e cs1 -> proper at_ e -> covers_between at_ dt (efrom e) (eto e)) ->
  noncrossing at_ cs1 ->
  (forall e, In e cs1 -> crosses_at_most at_ dt 2 e) ->
  same_result out1 out2.
Proof.
  intros H1 H2 H0 Same Gq Lo Cb Nx Few.
  destruct (input_api vs px py bound G Hid) as (X & XC & _).
  assert (Hf : (4 * length vs + 12 <= fuel)%nat) by nia.
  assert (A : forall a b c, is_tri out1 a b c -> is_tri out2 a b c).
  { intros a b c. exact (cdt_order fuel bins vs px py X XC Hid Hf Hq cs1 cs2 out1 out2 dt a b c H1 H2 H0 Same Gq Lo Cb Nx Few). }
  assert (B : forall a b c, is_tri out2 a b c -> is_tri out1 a b c).
  { intros a b c. apply (cdt_order fuel bins vs px py X XC Hid Hf Hq cs2 cs1 out2 out1 dt a b c H2 H1 H0); auto.
    - intros e. symmetry. apply Same.
    - intros e He. apply Cb. now apply Same.
    - intros r r' Hr Hr'. apply Nx; now apply Same.
    - intros e He. apply Few. now apply Same. }
  split; [intros a b c; split; auto|].
  apply Nat.le_antisymm.
  - exact (same_length at_ _ _ _ (grid_cdt_valid vs px py bound G Hid fuel bins Hf cs1 out1 H1) A).
  - exact (same_length at_ _ _ _ (grid_cdt_valid vs px py bound G Hid fuel bins Hf cs2 out2 H2) B).
Qed.

(** In a box. *)
Lemma grid_box_order n a b c d cs1 cs2 out1 out2 dt : (1 <= bound)%Z -> lenN vs = n + 4 ->
  Permutation [a; b; c; d] [n; n + 1; n + 2; n + 3] -> box_corners (at_ a) (at_ b) (at_ c) (at_ d) ->
  (forall v, v < n -> in_box (at_ a) (at_ c) (at_ v)) -> bins = 1 ->
  constrained_triangulation_from_2d_vertices fuel bins vs cs1 = Ret out1 ->
  constrained_triangulation_from_2d_vertices fuel bins vs cs2 = Ret out2 ->
  triangulation_from_2d_vertices fuel bins vs = Ret dt ->
  (forall e, In e cs1 <-> In e cs2) ->
  no_empty_quad_on_a_circle at_ (lenN vs) ->
  noncrossing at_ cs1 ->
  (forall e, In e cs1 -> crosses_at_most at_ dt 2 e) ->
  same_result out1 out2.
Proof.
  intros Hb Hn Pm Bx Hin Hb1 H1 H2 H0 Same Gq Nx Few.
  assert (Hf : (4 * length vs + 12 <= fuel)%nat) by nia.
  destruct (grid_box_dt vs px py bound G Hid fuel bins Hq n a b c d dt Hb Hn Pm Bx Hin Hb1 H0) as (Lo & Cb).
  apply (grid_order cs1 cs2 out1 out2 dt); auto.
  intros e He _. destruct (input_api vs px py bound G Hid) as (X & XC & _).
  assert (H3 : 3 <= lenN vs) by lia.
  destruct (cdt_in_range fuel bins vs _ _ X XC Hid Hf cs1 out1 e H3 H1 He) as (K1 & K2). now apply Cb.
Qed.
End Grid.
