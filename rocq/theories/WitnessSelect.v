(** * WitnessSelect: the triangulation of [Witness.v] selected by its own edges. *)

From Coq Require Import ZArith NArith List Bool QArith SpecFloat Lia Permutation.
From Verif Require Import Base Arith Types Utils Infinite Triangulation Constrained F64 Exact Spec DTOut GridSpec GridNum InputSpec GridApi GridCdt
  ApiProps Refuted Witness SpecSelect Select.
Import ListNotations.
Local Open Scope N_scope.

(** The border of [out_w], each edge with its triangle on the right. *)
Definition cs_border : list edge := [Edge 1 0; Edge 3 1; Edge 2 3; Edge 0 2].
(** And around the triangles (5, 0, 6) and (3, 5, 6), which are on the left of these edges. *)
Definition cs_ring : list edge := cs_border ++ [Edge 0 5; Edge 6 0; Edge 5 3; Edge 3 6].
Definition out_ring : list (N * N * N) := [(1, 0, 5); (3, 1, 5); (2, 3, 6); (2, 6, 0)].

Ltac cases H := simpl in H; decompose [or] H; clear H; try contradiction.

Lemma border_w a b : border out_w a b <-> In (Edge a b) cs_border.
Proof.
  unfold border, cs_border, directed_edges, out_w. split.
  - intros (H & Hn). simpl in H, Hn. decompose [or] H; try contradiction;
      match goal with Q : _ = (a, b) |- _ => injection Q as <- <- end; simpl; auto 10; exfalso; apply Hn; auto 20.
  - intros H. simpl in H. decompose [or] H; try contradiction;
      match goal with Q : _ = Edge a b |- _ => injection Q as <- <- end; (split; [simpl; auto 20|]);
      simpl; intros Q; decompose [or] Q; try discriminate; contradiction.
Qed.

Lemma ring_edges : edges_already out_w cs_ring.
Proof.
  intros e He. unfold edges_already, cs_ring, cs_border, directed_edges, out_w in *. cases He; subst e; simpl; auto 30.
Qed.

Lemma ring_run : constrained_triangulation_from_2d_vertices (E := env64) 1000 2 (pts lw) cs_ring = Ret out_ring /\
  dt64 1000 2 lw = Ret out_w.
Proof. split; vm_compute; reflexivity. Qed.
