(** * TypesMore: model of the public helpers of src/types.rs that the triangulation itself does not call,
    or only through the functions of Types.v. *)

From Coq Require Import NArith List Bool.
From Verif Require Import Base Arith Types.
Import ListNotations.
Local Open Scope N_scope.

(** src/types.rs:252-254 [TriangleData::edges]. *)
Definition tri_edge_list (t : tri) : list edge := [tedge t I1; tedge t I2; tedge t I3].

(** src/types.rs:265-271 [TriangleData::other_edges]. *)
Definition other_edges (t : tri) (i : tidx) : list edge := [tedge t (next_cw i); tedge t (next_ccw i)].

(** src/types.rs:303-311 [TriangleData::get_vertex_index] (the loop over the three corners unfolded). *)
Definition get_vertex_index (t : tri) (v : N) : option tidx :=
  if t_v1 t =? v then Some I1 else if t_v2 t =? v then Some I2 else if t_v3 t =? v then Some I3 else None.

Section WithEnv.
Context {E : Env}.

(** src/types.rs:336-339 [TriangleData::is_pseudo_infinite]. *)
Definition is_pseudo_infinite (t : tri) : bool :=
  is_infinite (t_v1 t) || is_infinite (t_v2 t) || is_infinite (t_v3 t).

(** src/types.rs:283-290 [TriangleData::to_vertices_array]; also :274-281 [to_vertices], with the same three
    lookups in a tuple.  An index out of range panics. *)
Definition tri_to_vertices (vs : list vertex) (t : tri) : res (list vertex) :=
  let* a := getN vs (t_v1 t) in
  let* b := getN vs (t_v2 t) in
  let* c := getN vs (t_v3 t) in
  Ret [a; b; c].
End WithEnv.
