(** * Small: short facts used by [Properties.v]. *)

From Coq Require Import NArith List Bool Lia.
From Verif Require Import Base BaseFacts Arith Types Utils Infinite Triangulation Constrained AnyDT AnyCDT.
Import ListNotations.
Local Open Scope N_scope.

Lemma update_local t old new :
  (forall k, tv (update_triangle_neighbor t old new) k = tv t k) /\
  (forall k, tn t k <> old -> tn (update_triangle_neighbor t old new) k = tn t k) /\
  (forall k, tn t k = old -> (forall j, tn t j = old -> j = k) ->
     tn (update_triangle_neighbor t old new) k = new) /\
  ((forall k, tn t k <> old) -> update_triangle_neighbor t old new = t).
Proof.
  split; [apply tv_update|]. unfold update_triangle_neighbor. repeat split.
  - intros k H. destruct (N.eqb_spec (t_n12 t) old); [destruct k; simpl in *; congruence|].
    destruct (N.eqb_spec (t_n23 t) old); [destruct k; simpl in *; congruence|].
    destruct (N.eqb_spec (t_n31 t) old); [destruct k; simpl in *; congruence|reflexivity].
  - intros k H U. destruct (N.eqb_spec (t_n12 t) old) as [e|n1].
    { rewrite <- (U I1 e). reflexivity. }
    destruct (N.eqb_spec (t_n23 t) old) as [e|n2].
    { rewrite <- (U I2 e). reflexivity. }
    destruct (N.eqb_spec (t_n31 t) old) as [e|n3].
    { rewrite <- (U I3 e). reflexivity. }
    destruct k; simpl in H; congruence.
  - intros H. pose proof (H I1) as A. pose proof (H I2) as B. pose proof (H I3) as C. simpl in *.
    apply N.eqb_neq in A, B, C. now rewrite A, B, C.
Qed.

Section Any.
Context {E : Env}.

Lemma small_input fuel bins (vs : list vertex) (cs : list edge) :
  lenN vs < 3 ->
  triangulation_from_2d_vertices fuel bins vs = Ret [] /\
  constrained_triangulation_from_2d_vertices fuel bins vs cs = Ret [].
Proof.
  intros H. apply N.ltb_lt in H.
  unfold triangulation_from_2d_vertices, constrained_triangulation_from_2d_vertices.
  rewrite H. auto.
Qed.

Lemma wrap_mapping' fuel bins (vs : list vertex) s :
  lenN vs <= INF0 ->
  wrap_and_triangulate fuel bins vs (Some (rangeN 0 (length vs))) = Ret s ->
  exists m, s_map s = Some m /\ lenN m = lenN vs /\
    (forall v, v < lenN vs ->
       nthN m v = Some v \/
       exists w p q, nthN m v = Some w /\ w <> v /\ w < lenN vs /\ nthN m w = Some w /\
         nthN vs w = Some q /\ nthN vs v = Some p /\ is_vertex_pair_too_close q p = true) /\
    (forall t k, In t (s_ts s) -> INF0 <= tv t k \/ nthN m (tv t k) = Some (tv t k)).
Proof.
  intros C W. destruct (wrap_mapping _ _ _ _ C W) as (m & A & B & D & M).
  exists m. repeat split; auto. intros t k I. exact (tri_all_tv _ t k (M t I)).
Qed.

Lemma restore_terminates fuel ts (vs : list vertex) v2t ce news :
  (length news + length ts * length ts <= fuel)%nat ->
  restore_constrained fuel ts vs v2t ce news [] <> OutOfFuel.
Proof.
  intros L. apply restore_fuel; [constructor|intros p []|simpl; lia].
Qed.
End Any.
