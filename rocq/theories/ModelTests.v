(** * ModelTests: the repository's own unit tests, run on the model (sanity checks of
    the model, not theorems about the code). *)

From Coq Require Import ZArith NArith List Bool SpecFloat.
From Verif Require Import Base Arith Types Utils Infinite Triangulation Constrained F64.
Import ListNotations.

#[local] Existing Instance env64.
Local Open Scope Z_scope.

Definition dt (bins : N) (l : list (Z * Z)) : res (list (N * N * N)) :=
  triangulation_from_2d_vertices 1000 bins (map (fun p => pt (fst p) (snd p)) l).

Definition cdt (bins : N) (l : list (Z * Z)) (c : list (N * N)) : res (list (N * N * N)) :=
  constrained_triangulation_from_2d_vertices 1000 bins
    (map (fun p => pt (fst p) (snd p)) l) (map (fun p => Edge (fst p) (snd p)) c).

(** src/lib.rs:36-56 (4 vertices: bins_per_row = round(4^0.25) = 1). *)
Example delaunay_level_1 :
  dt 1 [(0,0); (0,5); (5,5); (5,0)] = Ret [(0,1,3); (1,2,3)]%N.
Proof. vm_compute. reflexivity. Qed.

(** src/lib.rs:58-88 (6 vertices: bins_per_row = round(6^0.25) = 2). *)
Example delaunay_level_2 :
  dt 2 [(0,0); (0,10); (0,5); (5,0); (5,5); (5,10)]
  = Ret [(0,2,3); (2,4,3); (1,5,2); (5,4,2)]%N.
Proof. vm_compute. reflexivity. Qed.

(** src/lib.rs:90-114. *)
Example constrained_delaunay_level_1 :
  cdt 1 [(0,0); (0,5); (5,5); (5,0)] [(0,2)]%N = Ret [(2,3,0); (2,0,1)]%N.
Proof. vm_compute. reflexivity. Qed.

(** src/lib.rs:142-197. *)
Example constrained_delaunay_level_3 :
  cdt 2 [(0,0); (0,5); (5,5); (5,0); (4,1); (4,4); (1,4); (1,1)]
    [(0,1); (1,2); (2,3); (3,0); (4,5); (5,6); (6,7); (7,4)]%N
  = Ret [(1,7,0); (3,0,7); (3,7,4); (2,3,4); (2,4,5); (6,2,5); (1,2,6); (1,6,7)]%N.
Proof. vm_compute. reflexivity. Qed.

(** src/utils.rs:385-426, the unit tests of [egdes_intersect]. *)
Example edge_intersect_none :
  egdes_intersect (pt 0 0, pt 3 0) (pt 0 3, pt 3 3) = INone.
Proof. vm_compute. reflexivity. Qed.
Example edge_intersect_crossing :
  egdes_intersect (pt 0 0, pt 3 0) (pt 1 (-2), pt 1 3) = ICrossing.
Proof. vm_compute. reflexivity. Qed.
Example edge_intersect_on_edge_tip :
  egdes_intersect (pt 0 0, pt 3 0) (pt 1 0, pt 3 3) = IOnEdgeTip.
Proof. vm_compute. reflexivity. Qed.
Example edge_intersect_shared_edge :
  egdes_intersect (pt 0 0, pt 3 0) (pt 0 0, pt 3 3) = ISharedEdges.
Proof. vm_compute. reflexivity. Qed.

(** src/triangulation.rs:1100-1122. *)
Example triangulation_normalize_set_of_vertices :
  fst (fst (fst (normalize_vertices_coordinates [pt 3 2; pt (-1) 2; pt (-1) (-2); pt 3 (-2)])))
  = [pt 1 1; pt 0 1; pt 0 0; pt 1 0].
Proof. vm_compute. reflexivity. Qed.
