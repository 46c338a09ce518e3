(** * TypesFacts: the helpers for edges and triangles fit together. *)

From Coq Require Import NArith List Bool Lia Permutation.
From Verif Require Import Base BaseFacts Arith Types Spec TypesMore.
Import ListNotations.
Local Open Scope N_scope.

Lemma edge_eqb_iff a b : edge_eqb a b = true <-> a = b.
Proof.
  destruct a as [a1 a2], b as [b1 b2]. unfold edge_eqb. cbn. rewrite andb_true_iff, !N.eqb_eq. split; [intros (-> & ->); reflexivity|].
  intros H. injection H as -> ->. auto.
Qed.

Lemma edge_facts (a b : edge) v :
  (efrom (edge_opposite a) = eto a /\ eto (edge_opposite a) = efrom a) /\
  edge_opposite (edge_opposite a) = a /\
  (undirected_equals a b = true <-> a = b \/ a = edge_opposite b) /\
  (edge_contains a v = true <-> v = efrom a \/ v = eto a).
Proof.
  split; [split; reflexivity|]. split; [destruct a; reflexivity|]. split.
  - unfold undirected_equals. rewrite orb_true_iff, edge_eqb_iff, andb_true_iff, !N.eqb_eq. destruct a as [a1 a2], b as [b1 b2]. cbn.
    split; (intros [H|H]; [now left|right]); [destruct H as (-> & ->); reflexivity|]. unfold edge_opposite in H. cbn in H. injection H as -> ->. auto.
  - unfold edge_contains. rewrite orb_true_iff, !N.eqb_eq. intuition congruence.
Qed.

Lemma edges_facts (t : tri) i u v :
  (In (Edge u v) (tri_edge_list t) <-> In (u, v) (tri_edges (tverts t))) /\
  Permutation (tedge t i :: other_edges t i) (tri_edge_list t).
Proof.
  split.
  - destruct t as [a b c ? ? ?]. cbn. split; (intros [H|[H|[H|[]]]]; injection H as <- <-; auto).
  - destruct i; unfold tri_edge_list, other_edges; cbn [next_cw next_ccw].
    + apply Permutation_refl.
    + apply (perm_trans (l' := [tedge t I2; tedge t I1; tedge t I3])); [apply perm_skip; apply perm_swap|apply perm_swap].
    + apply (perm_trans (l' := [tedge t I1; tedge t I3; tedge t I2])); [apply perm_swap|apply perm_skip; apply perm_swap].
Qed.

(** Clockwise and counter-clockwise neighbors of a corner among the edges. *)
Lemma around_facts (t : tri) (i : tidx) :
  efrom (tedge t (vertex_next_cw_edge_index i)) = tv t i /\ eto (tedge t (vertex_next_ccw_edge_index i)) = tv t i /\
  efrom (tedge t (next_cw i)) = eto (tedge t i) /\ eto (tedge t (next_ccw i)) = efrom (tedge t i) /\
  opposite_vertex_index (opposite_edge_index i) = i /\ opposite_edge_index (opposite_vertex_index i) = i /\
  next_cw (next_ccw i) = i /\ next_ccw (next_cw i) = i.
Proof. destruct t, i; cbn; repeat split; reflexivity. Qed.

Lemma index_facts (t : tri) v :
  (get_vertex_index t v = None <-> ~ tri_corner (tverts t) v) /\
  (forall i, get_vertex_index t v = Some i -> tv t i = v /\ vertex_index t v = i).
Proof.
  destruct t as [a b c ? ? ?]. unfold get_vertex_index, vertex_index. cbn.
  destruct (N.eqb_spec a v) as [A|A]; [split; [split; [discriminate|intros H; destruct H; auto]|intros i H; injection H as <-; auto]|].
  destruct (N.eqb_spec b v) as [B|B]; [split; [split; [discriminate|intros H; destruct H; auto]|intros i H; injection H as <-; auto]|].
  destruct (N.eqb_spec c v) as [C|C]; [split; [split; [discriminate|intros H; destruct H; auto]|intros i H; injection H as <-; auto]|].
  split; [|discriminate]. split; [|reflexivity]. intros _ [H|[H|H]]; congruence.
Qed.

Lemma opposite_facts (t : tri) (i : tidx) e : NoDup [t_v1 t; t_v2 t; t_v3 t] ->
  e = tedge t i \/ e = edge_opposite (tedge t i) ->
  Permutation [efrom e; eto e; get_opposite_vertex_id t e] [t_v1 t; t_v2 t; t_v3 t] /\
  get_opposite_vertex_id t e = tv t (opposite_vertex_index i) /\
  opposite_edge_index_from_vertex t (get_opposite_vertex_id t e) = i /\
  opposite_vertex_index_from_edge (vertex_index t (efrom e)) (vertex_index t (eto e)) = Some (opposite_vertex_index i).
Proof.
  intros D He. assert (K : get_opposite_vertex_id t e = tv t (opposite_vertex_index i)).
  { destruct t as [a b c ? ? ?]. cbn in D. inversion D as [|x l D1 D2]; subst. inversion D2 as [|x l D3 D4]; subst. cbn in D1, D3.
    unfold get_opposite_vertex_id, edge_contains. destruct i, He as [-> | ->]; cbn;
      repeat match goal with |- context [?x =? ?y] => destruct (N.eqb_spec x y); cbn end; try reflexivity; exfalso; intuition congruence. }
  destruct t as [a b c n1 n2 n3]. cbn in D. inversion D as [|x l D1 D2]; subst. inversion D2 as [|x l D3 D4]; subst. cbn in D1, D3.
  rewrite K. split; [|split; [reflexivity|split]].
  - assert (R : forall x y z : N, Permutation [y; z; x] [x; y; z]) by (intros x y z; apply Permutation_sym; apply (Permutation_middle [y; z] [] x)).
    assert (R2 : forall x y z : N, Permutation [z; x; y] [x; y; z]) by (intros x y z; apply (Permutation_middle [x; y] [] z)).
    assert (S : forall x y z : N, Permutation [y; x; z] [x; y; z]) by (intros x y z; apply perm_swap).
    destruct i, He as [-> | ->]; cbn.
    + apply Permutation_refl.
    + apply S.
    + apply R.
    + apply (perm_trans (l' := [b; c; a])); [apply S|apply R].
    + apply R2.
    + apply (perm_trans (l' := [c; a; b])); [apply S|apply R2].
  - destruct i; unfold opposite_edge_index_from_vertex, vertex_index; cbn;
      repeat match goal with |- context [?x =? ?y] => destruct (N.eqb_spec x y); cbn end; try reflexivity; exfalso; intuition congruence.
  - destruct i, He as [-> | ->]; unfold vertex_index; cbn;
      repeat match goal with |- context [?x =? ?y] => destruct (N.eqb_spec x y); cbn end; try reflexivity; exfalso; intuition congruence.
Qed.

Lemma finite_facts {E : Env} (t : tri) : is_pseudo_infinite t = negb (tri_is_finite t).
Proof.
  unfold is_pseudo_infinite, tri_is_finite, is_infinite, is_finite. rewrite !negb_andb, <- !N.leb_antisym. reflexivity.
Qed.

Lemma lookup_facts {E : Env} (vs : list vertex) (t : tri) :
  (forall v, tri_corner (tverts t) v -> v < lenN vs) ->
  exists a b c, tri_to_vertices vs t = Ret [a; b; c] /\
    nth_error vs (N.to_nat (t_v1 t)) = Some a /\ nth_error vs (N.to_nat (t_v2 t)) = Some b /\ nth_error vs (N.to_nat (t_v3 t)) = Some c.
Proof.
  intros H. destruct t as [i j k ? ? ?]. cbn in H |- *. unfold tri_to_vertices. cbn.
  assert (G : forall v, v < lenN vs -> exists x, getN vs v = Ret x /\ nth_error vs (N.to_nat v) = Some x).
  { intros v L. destruct (nthN_Some vs v L) as (x & Q). exists x. split; [apply getN_Some; exact Q|rewrite <- nthN_nth_error; exact Q]. }
  destruct (G i ltac:(auto)) as (a & Ga & Na), (G j ltac:(auto)) as (b & Gb & Nb), (G k ltac:(auto)) as (c & Gc & Nc).
  exists a, b, c. rewrite Ga, Gb, Gc. cbn. auto.
Qed.
