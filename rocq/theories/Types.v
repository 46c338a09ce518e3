(** * Types: model of src/types.rs (local index tables, edges, triangles, quads). *)

From Coq Require Import NArith List Bool.
From Verif Require Import Base Arith.
Import ListNotations.
Local Open Scope N_scope.

(** Local vertex / edge index in a triangle: src/types.rs:36-46
    ([TriangleVertexIndex], [TriangleEdgeIndex]; Rust uses u8 constants 0, 1, 2 for
    both: VERT_1/EDGE_12, VERT_2/EDGE_23, VERT_3/EDGE_31.  Simplification: a
    three-valued type, values above 2 never occur except as noted). *)
Inductive tidx : Type := I1 | I2 | I3.

(** Local vertex index in a quad: src/types.rs:48-53. *)
Inductive qidx : Type := Q1 | Q2 | Q3 | Q4.

(** src/types.rs:55-56, 398-401 NEXT_CLOCKWISE_EDGE_INDEX; also :65-66, 442-445
    NEXT_CW_VERTEX_INDEX (same table). *)
Definition next_cw (i : tidx) : tidx :=
  match i with I1 => I2 | I2 => I3 | I3 => I1 end.

(** src/types.rs:57-58, 403-406 NEXT_COUNTER_CLOCKWISE_EDGE_INDEX; also :67-68,
    446-449 NEXT_CCW_VERTEX_INDEX and :71-72, 436-440 NEXT_CCW_EDGE_INDEX (same table). *)
Definition next_ccw (i : tidx) : tidx :=
  match i with I1 => I3 | I2 => I1 | I3 => I2 end.

(** src/types.rs:59-61 EDGE_TO_VERTS. *)
Definition edge_to_verts (e : tidx) : tidx * tidx :=
  match e with I1 => (I1, I2) | I2 => (I2, I3) | I3 => (I3, I1) end.

(** src/types.rs:62-63, 425-428 OPPOSITE_VERTEX_INDEX (from an edge index). *)
Definition opposite_vertex_index (e : tidx) : tidx :=
  match e with I1 => I3 | I2 => I1 | I3 => I2 end.

(** src/types.rs:69-70, 420-423 OPPOSITE_EDGE_INDEX (from a vertex index). *)
Definition opposite_edge_index (v : tidx) : tidx :=
  match v with I1 => I2 | I2 => I3 | I3 => I1 end.

(** src/types.rs:74-78, 408-411 OUTERMOST_CW_EDGE_INDEX_AROUND_VERTEX. *)
Definition outermost_cw (v : tidx) : tidx :=
  match v with I1 => I3 | I2 => I1 | I3 => I2 end.

(** src/types.rs:79-83, 413-418 OUTERMOST_CCW_EDGE_INDEX_AROUND_VERTEX. *)
Definition outermost_ccw (v : tidx) : tidx :=
  match v with I1 => I1 | I2 => I2 | I3 => I3 end.

(** src/types.rs:430-434 [vertex_next_cw_edge_index] is the identity. *)
Definition vertex_next_cw_edge_index (v : tidx) : tidx := v.

(** src/types.rs:436-440 [vertex_next_ccw_edge_index]. *)
Definition vertex_next_ccw_edge_index (v : tidx) : tidx := next_ccw v.

(** src/types.rs:451-458 [opposite_vertex_index_from_edge]: [3 - (a + b)] on u8.
    [None]: underflow panic (a = b = 2) or an out of range index (a = b = 0). *)
Definition opposite_vertex_index_from_edge (a b : tidx) : option tidx :=
  match a, b with
  | I1, I2 | I2, I1 => Some I3
  | I1, I3 | I3, I1 => Some I2
  | I2, I3 | I3, I2 => Some I1
  | I2, I2 => Some I2
  | I1, I1 | I3, I3 => None
  end.

(** src/types.rs:85-90 ADJACENT_QUAD_VERTICES_INDEXES. *)
Definition adjacent_quad (q : qidx) : qidx * qidx :=
  match q with
  | Q1 => (Q3, Q4)
  | Q2 => (Q4, Q3)
  | Q3 => (Q2, Q1)
  | Q4 => (Q1, Q2)
  end.

(** src/types.rs:91 OPPOSITE_QUAD_VERTEX_INDEX. *)
Definition opposite_quad (q : qidx) : qidx :=
  match q with Q1 => Q2 | Q2 => Q1 | Q3 => Q4 | Q4 => Q3 end.

(** src/types.rs:93-102 [Edge]. *)
Record edge : Type := Edge { efrom : N; eto : N }.

(** src/types.rs:93: the derived [PartialEq]. *)
Definition edge_eqb (a b : edge) : bool :=
  (efrom a =? efrom b) && (eto a =? eto b).

(** src/types.rs:104-107 [Edge::undirected_equals]. *)
Definition undirected_equals (a b : edge) : bool :=
  edge_eqb a b || ((efrom a =? eto b) && (eto a =? efrom b)).

(** src/types.rs:115-118 [Edge::contains]. *)
Definition edge_contains (e : edge) (v : N) : bool :=
  (efrom e =? v) || (eto e =? v).

(** src/types.rs:120-126 [Edge::opposite]. *)
Definition edge_opposite (e : edge) : edge := Edge (eto e) (efrom e).

(** src/types.rs:165-174 [TriangleData].  A [Neighbor] (src/types.rs:134-163) is its
    raw id; [NONE] is [IndexType::MAX]. *)
Record tri : Type := Tri {
  t_v1 : N; t_v2 : N; t_v3 : N;
  t_n12 : N; t_n23 : N; t_n31 : N
}.

(** src/types.rs:177-192 [TriangleData::v]. *)
Definition tv (t : tri) (i : tidx) : N :=
  match i with I1 => t_v1 t | I2 => t_v2 t | I3 => t_v3 t end.

(** src/types.rs:220-236 [TriangleData::neighbor]. *)
Definition tn (t : tri) (i : tidx) : N :=
  match i with I1 => t_n12 t | I2 => t_n23 t | I3 => t_n31 t end.

(** src/types.rs:207-218, 256-263 [edge12], [edge23], [edge31], [edge]. *)
Definition tedge (t : tri) (i : tidx) : edge :=
  Edge (tv t (fst (edge_to_verts i))) (tv t (snd (edge_to_verts i))).

(** src/types.rs:238-249 [neighbor12_mut], [neighbor23_mut], [neighbor31_mut]. *)
Definition set_tn (t : tri) (i : tidx) (n : N) : tri :=
  match i with
  | I1 => Tri (t_v1 t) (t_v2 t) (t_v3 t) n (t_n23 t) (t_n31 t)
  | I2 => Tri (t_v1 t) (t_v2 t) (t_v3 t) (t_n12 t) n (t_n31 t)
  | I3 => Tri (t_v1 t) (t_v2 t) (t_v3 t) (t_n12 t) (t_n23 t) n
  end.

(** [t.verts = [a, b, c]] (field of src/types.rs:168). *)
Definition set_verts (t : tri) (a b c : N) : tri :=
  Tri a b c (t_n12 t) (t_n23 t) (t_n31 t).

(** [t.neighbors = [a, b, c]] (field of src/types.rs:173). *)
Definition set_neighbors (t : tri) (a b c : N) : tri :=
  Tri (t_v1 t) (t_v2 t) (t_v3 t) a b c.

(** src/types.rs:292-302 [vertex_index] (VERT_3 when absent). *)
Definition vertex_index (t : tri) (v : N) : tidx :=
  if t_v1 t =? v then I1 else if t_v2 t =? v then I2 else I3.

(** [triangle.verts.contains(&v)], src/constrained_triangulation.rs:427, 560. *)
Definition verts_contains (t : tri) (v : N) : bool :=
  (t_v1 t =? v) || (t_v2 t =? v) || (t_v3 t =? v).

(** src/types.rs:313-317 [opposite_edge_index_from_vertex]. *)
Definition opposite_edge_index_from_vertex (t : tri) (v : N) : tidx :=
  opposite_edge_index (vertex_index t v).

(** src/types.rs:319-329 [get_opposite_vertex_id]. *)
Definition get_opposite_vertex_id (t : tri) (e : edge) : N :=
  if negb (edge_contains e (t_v1 t)) then t_v1 t
  else if negb (edge_contains e (t_v2 t)) then t_v2 t
  else t_v3 t.

(** src/triangulation.rs:601: [t.verts] as the triple returned to the user. *)
Definition tverts (t : tri) : N * N * N := (t_v1 t, t_v2 t, t_v3 t).

(** src/types.rs:460-514 [Quad]. *)
Record quad : Type := Quad { q1 : N; q2 : N; q3 : N; q4 : N }.

(** src/types.rs:481-500 [Quad::v]. *)
Definition qv (q : quad) (i : qidx) : N :=
  match i with Q1 => q1 q | Q2 => q2 q | Q3 => q3 q | Q4 => q4 q end.

Section WithEnv.
Context {E : Env}.

(** src/types.rs:143-145 [Neighbor::NONE]. *)
Definition NONE : N := idmax.

(** src/types.rs:152-155 [Neighbor::exists]. *)
Definition nexists (n : N) : bool := negb (n =? NONE).

(** src/types.rs:381, 385: [x as IndexType] (a wrapping cast from usize). *)
Definition as_id (x : N) : N := x mod (idmax + 1).

(** src/types.rs:379-382 [Triangles::last_id] ([len - 1] underflow panics). *)
Definition last_id (ts : list tri) : res N :=
  match ts with [] => Panic | _ => Ret (as_id (N.pred (lenN ts))) end.

(** src/types.rs:383-386 [Triangles::next_id]. *)
Definition next_id (ts : list tri) : N := as_id (lenN ts).

(** src/triangulation.rs:724, 824: [triangles.next_id() + 1] in a build with overflow checks. *)
Definition next_id_plus_1 (ts : list tri) : res N :=
  if next_id ts =? idmax then Panic else Ret (next_id ts + 1).

(** src/types.rs:109-113 [Edge::to_vertices]. *)
Definition edge_to_vertices (vs : list vertex) (e : edge) : res (vertex * vertex) :=
  let* a := getN vs (efrom e) in
  let* b := getN vs (eto e) in
  Ret (a, b).

(** src/infinite.rs:21-24. *)
Definition INF0 : N := idmax - 3.
(** src/infinite.rs:21-24. *)
Definition INF1 : N := idmax - 2.
(** src/infinite.rs:21-24. *)
Definition INF2 : N := idmax - 1.
(** src/infinite.rs:21-24. *)
Definition INF3 : N := idmax.

(** src/infinite.rs:37-41 [is_infinite]. *)
Definition is_infinite (v : N) : bool := INF0 <=? v.

(** src/infinite.rs:43-47 [is_finite]. *)
Definition is_finite (v : N) : bool := v <? INF0.

(** src/types.rs:331-334 [TriangleData::is_finite]. *)
Definition tri_is_finite (t : tri) : bool :=
  is_finite (t_v1 t) && is_finite (t_v2 t) && is_finite (t_v3 t).

End WithEnv.
