(** * Refuted: concrete binary64 inputs on which the code violates a claim.

    Every witness is run by the kernel through the binary64 instance of the model.  [dt64] and
    [cdt64] are the two entry points on integer coordinates, with the default
    configuration: bins_per_row is round(n^(1/4)), which is 1 for n <= 5. *)

From Coq Require Import ZArith NArith List Bool SpecFloat Lia.
From Verif Require Import Base Arith Types Utils Infinite Triangulation Constrained F64 Spec.
Import ListNotations.

Definition pts (l : list (Z * Z)) : list (@vertex env64) :=
  map (fun p => pt (fst p) (snd p)) l.

Definition dt64 (fuel : nat) (bins : N) (l : list (Z * Z)) : res (list (N * N * N)) :=
  @triangulation_from_2d_vertices env64 fuel bins (pts l).

Definition cdt64 (fuel : nat) (bins : N) (l : list (Z * Z)) (c : list (N * N))
  : res (list (N * N * N)) :=
  @constrained_triangulation_from_2d_vertices env64 fuel bins (pts l)
    (map (fun p => Edge (fst p) (snd p)) c).

Definition zat (l : list (Z * Z)) (i : N) : Z * Z := nth (N.to_nat i) l (0, 0)%Z.

Local Open Scope Z_scope.

(** Three vertices that are not collinear, no triangle. *)
Lemma hull_not_covered :
  exists l, length l = 3%nat /\ ~ zcollinear l /\ dt64 100 1 l = Ret [].
Proof.
  exists [(-5,-1); (1,5); (0,0)]. split; [reflexivity|]. split.
  - intros H. specialize (H (-5,-1) (1,5) (0,0)). simpl in H.
    assert (X : zorient (-5,-1) (1,5) (0,0) = 0) by (apply H; auto). vm_compute in X. discriminate.
  - vm_compute. reflexivity.
Qed.

(** A returned triangle with another vertex strictly inside its circumcircle. *)
Lemma not_delaunay :
  exists l out a b c d, dt64 100 1 l = Ret out /\ In (a, b, c) out /\
    (N.to_nat d < length l)%nat /\
    zin_circumcircle (zat l a) (zat l b) (zat l c) (zat l d).
Proof.
  exists [(1,26); (2,7); (7,17); (5,9)], [(0,2,3); (0,3,1)]%N, 0%N, 2%N, 3%N, 1%N.
  split; [vm_compute; reflexivity|]. split; [simpl; auto|].
  split; [vm_compute; lia|]. vm_compute. reflexivity.
Qed.

(** The same failure is not an artefact of rounding: exchanging the diagonal is a valid
    flip (both new triangles are clockwise), so the code left an illegal edge. *)
Lemma not_delaunay_flippable :
  exists l out a b c d, dt64 100 1 l = Ret out /\
    In (a, b, c) out /\ In (a, c, d) out /\
    zorient (zat l a) (zat l b) (zat l d) < 0 /\
    zorient (zat l b) (zat l c) (zat l d) < 0 /\
    zin_circumcircle (zat l a) (zat l b) (zat l c) (zat l d).
Proof.
  exists [(1,26); (2,7); (7,17); (5,9)], [(0,2,3); (0,3,1)]%N, 0%N, 2%N, 3%N, 1%N.
  split; [vm_compute; reflexivity|]. split; [simpl; auto|]. split; [simpl; auto|].
  repeat split; vm_compute; reflexivity.
Qed.

(** Finite input rejected with an error. *)
Lemma finite_input_error :
  exists l v, length l = 4%nat /\ dt64 100 1 l = Fail (ErrPlacementNotFound v).
Proof.
  exists [(1000000000,1000000000); (2,3); (1,2); (2,1)], 0%N. split; vm_compute; reflexivity.
Qed.

(** Finite input with a counter-clockwise triangle in the result. *)
Lemma finite_input_ccw :
  exists l out a b c, dt64 100 1 l = Ret out /\ In (a, b, c) out /\
    zorient (zat l a) (zat l b) (zat l c) > 0.
Proof.
  exists [(0,0); (1000000002,1000000003); (1,1); (3,0)], [(0,2,1); (0,1,3)]%N, 0%N, 2%N, 1%N.
  split; [vm_compute; reflexivity|]. split; [simpl; auto|]. vm_compute. reflexivity.
Qed.

(** Finite input with a flat triangle in the result. *)
Lemma finite_input_flat :
  exists l out a b c, dt64 100 1 l = Ret out /\ In (a, b, c) out /\
    zorient (zat l a) (zat l b) (zat l c) = 0.
Proof.
  exists [(1000000000,1000000000); (1000000001,1000000001); (0,0); (2,0)],
    [(0,2,1); (0,3,2)]%N, 0%N, 2%N, 1%N.
  split; [vm_compute; reflexivity|]. split; [simpl; auto|]. vm_compute. reflexivity.
Qed.

(** Finite input with a directed edge used by two triangles. *)
Lemma finite_input_edge_twice :
  exists l out, dt64 100 1 l = Ret out /\ ~ NoDup (directed_edges out).
Proof.
  exists [(0,0); (3,2); (3,0); (1000000000,1000000002)], [(0,1,3); (0,3,1); (0,3,2)]%N.
  split; [vm_compute; reflexivity|].
  intros H. change (NoDup ([(0,1);(1,3);(3,0)] ++ (0,3)%N :: [(3,1);(1,0)] ++ (0,3) :: [(3,2);(2,0)])%N) in H.
  apply NoDup_remove_2 in H. apply H. simpl. tauto.
Qed.

(** Identical vertices are not merged when all vertices are identical. *)
Lemma identical_not_merged :
  exists l a b c, (forall p, In p l -> p = (7, 7)) /\ dt64 100 1 l = Ret [(a, b, c)] /\
    a <> b /\ b <> c /\ a <> c.
Proof.
  exists [(7,7); (7,7); (7,7)], 0%N, 1%N, 2%N. split; [simpl; intuition|].
  split; [vm_compute; reflexivity|]. repeat split; discriminate.
Qed.

(** A valid CDT input (no vertex on the constraint, nothing to cross) makes the code panic. *)
Lemma cdt_panics :
  exists l a b, (a < lenN l)%N /\ (b < lenN l)%N /\
    (forall i j k, (i < j)%nat -> (j < k)%nat -> (k < length l)%nat ->
       zorient (nth i l (0,0)) (nth j l (0,0)) (nth k l (0,0)) <> 0) /\
    cdt64 1000 1 l [(a, b)] = Panic.
Proof.
  exists [(36,25); (86,83); (87,101); (79,70); (72,56)], 1%N, 0%N.
  split; [reflexivity|]. split; [reflexivity|]. split; [|vm_compute; reflexivity].
  intros i j k Hij Hjk Hk. simpl in Hk.
  destruct k as [|[|[|[|[|k]]]]]; try lia; destruct j as [|[|[|[|j]]]]; try lia;
  destruct i as [|[|[|i]]]; try lia; vm_compute; discriminate.
Qed.

(** Zero bins per row, which the configuration accepts, panics for every input. *)
Lemma zero_bins_panics {E : Env} fuel (vs : list vertex) :
  (3 <= lenN vs)%N -> @triangulation_from_2d_vertices E fuel 0 vs = Panic.
Proof.
  intros H. unfold triangulation_from_2d_vertices.
  destruct (N.ltb_spec (lenN vs) 3); [lia|].
  unfold normalize_vertices_coordinates.
  destruct (compute_bounds vs) as (((a, b), c), d).
  destruct vs as [|v vs]; [unfold lenN in H; simpl in H; lia|].
  unfold wrap_and_triangulate, bin_sort. cbn [map count_bins].
  destruct (bin_index_from_vertex 0 _); reflexivity.
Qed.
