(** * Infinite: model of src/infinite.rs (the four symbolic vertices at infinity). *)

From Coq Require Import NArith List Bool.
From Verif Require Import Base Arith Types Utils.
Import ListNotations.
Local Open Scope N_scope.

(** src/triangulation.rs:218-223 [VertexPlacement]. *)
Inductive placement : Type :=
| InsideTriangle (t : N)
| OnTriangleEdge (t : N) (e : tidx) (ed : edge)
| NotFound.

(** src/triangulation.rs:239-326: one iteration of the walk of [find_vertex_placement]: either a placement, or
    the new (previous, current) triangles. *)
Inductive walk_step : Type :=
| Placed (p : placement)
| MoveTo (previous current : N).

Section WithEnv.
Context {E : Env}.

(** src/infinite.rs:29-35 [infinite_vertex_local_quad_index]: [(id - INF0) as u8],
    then used as an index into arrays of length 4.  [None] (underflow panic) for a
    finite vertex. *)
Definition infinite_vertex_local_quad_index (v : N) : option qidx :=
  if is_finite v then None
  else if v =? INF0 then Some Q1
  else if v =? INF1 then Some Q2
  else if v =? INF2 then Some Q3
  else Some Q4.

(** src/infinite.rs:55-60 INFINITE_VERTS_X_DELTAS. *)
Definition inf_dx (q : qidx) : F :=
  match q with Q1 => fneg fdelta | Q2 => f0 | Q3 => fdelta | Q4 => f0 end.

(** src/infinite.rs:49-54 INFINITE_VERTS_Y_DELTAS. *)
Definition inf_dy (q : qidx) : F :=
  match q with Q1 => f0 | Q2 => fdelta | Q3 => f0 | Q4 => fneg fdelta end.

(** src/infinite.rs:62-78 [edge_from_semi_infinite_edge]. *)
Definition edge_from_semi_infinite_edge (fv : vertex) (q : qidx) : vertex * vertex :=
  (fv, (fadd (vx fv) (inf_dx q), fadd (vy fv) (inf_dy q))).

(** src/infinite.rs:80-98 [collect_infinite_triangle_vertices]: an [ArrayVec] of
    capacity 2, pushing a third element panics. *)
Definition collect_infinite_triangle_vertices (t : tri) : res (list tidx) :=
  let l := (if is_infinite (t_v1 t) then [I1] else [])
        ++ (if is_infinite (t_v2 t) then [I2] else [])
        ++ (if is_infinite (t_v3 t) then [I3] else []) in
  match l with
  | _ :: _ :: _ :: _ => Panic
  | _ => Ret l
  end.

(** src/infinite.rs:100-119 [collect_infinite_quad_vertices].  Lines 115-117 push
    QUAD_3 when the fourth vertex is infinite: modelled as written. *)
Definition collect_infinite_quad_vertices (q : quad) : res (list qidx) :=
  let l := (if is_infinite (q1 q) then [Q1] else [])
        ++ (if is_infinite (q2 q) then [Q2] else [])
        ++ (if is_infinite (q3 q) then [Q3] else [])
        ++ (if is_infinite (q4 q) then [Q3] else []) in
  match l with
  | _ :: _ :: _ :: _ => Panic
  | _ => Ret l
  end.

(** src/infinite.rs:121-141: a triangle vertex index used as a quad vertex index ([quad.v(i)] with i a u8). *)
Definition tidx_to_qidx (i : tidx) : qidx :=
  match i with I1 => Q1 | I2 => Q2 | I3 => Q3 end.

(** src/infinite.rs:121-141 [is_vertex_in_half_plane_1]. *)
Definition is_vertex_in_half_plane_1 (vs : list vertex) (q : quad) (inf : tidx) : res bool :=
  let e := edge_to_verts (opposite_edge_index inf) in
  let* a := getN vs (qv q (tidx_to_qidx (snd e))) in
  let* b := getN vs (qv q (tidx_to_qidx (fst e))) in
  let* p := getN vs (q4 q) in
  Ret (is_point_strictly_on_right_side_of_edge (a, b) p).

(** src/infinite.rs:143-220 [vertex_placement_1_infinite_vertex]. *)
Definition vertex_placement_1_infinite (vs : list vertex) (p : vertex) (t : tri)
    (tid : N) (inf : tidx) (previous current : N) : res walk_step :=
  let a_index := next_cw inf in
  let a_id := tv t a_index in
  let* a := getN vs a_id in
  let b_index := next_ccw inf in
  let b_id := tv t b_index in
  let* b := getN vs b_id in
  let ab_test := test_point_edge_side (a, b) p in
  let ab_index := vertex_next_cw_edge_index a_index in
  if is_on_left_side ab_test && negb (previous =? tn t ab_index)
  then Ret (MoveTo current (tn t ab_index))
  else
    let inf_id := tv t inf in
    match infinite_vertex_local_quad_index inf_id with
    | None => Panic
    | Some q =>
        let edge_a := edge_from_semi_infinite_edge a q in
        let a_edge_index := vertex_next_ccw_edge_index a_index in
        let a_test := test_point_edge_side edge_a p in
        if is_on_right_side a_test && negb (previous =? tn t a_edge_index)
        then Ret (MoveTo current (tn t a_edge_index))
        else
          let edge_b := edge_from_semi_infinite_edge b q in
          let b_edge_index := vertex_next_cw_edge_index b_index in
          let b_test := test_point_edge_side edge_b p in
          if is_on_left_side b_test && negb (previous =? tn t b_edge_index)
          then Ret (MoveTo current (tn t b_edge_index))
          else if is_near_edge ab_test
          then Ret (Placed (OnTriangleEdge tid ab_index (Edge a_id b_id)))
          else if is_near_edge a_test
          then Ret (Placed (OnTriangleEdge tid a_edge_index (Edge inf_id a_id)))
          else if is_near_edge b_test
          then Ret (Placed (OnTriangleEdge tid b_edge_index (Edge b_id inf_id)))
          else Ret (Placed (InsideTriangle tid))
    end.

(** src/infinite.rs:222-280 [vertex_placement_2_infinite_vertex]; [i0], [i1] are the
    two entries of [infinite_verts]. *)
Definition vertex_placement_2_infinite (vs : list vertex) (p : vertex) (t : tri)
    (tid : N) (i0 i1 : tidx) (previous current : N) : res walk_step :=
  match opposite_vertex_index_from_edge i0 i1 with
  | None => Panic
  | Some f_index =>
      let f_id := tv t f_index in
      let* f := getN vs f_id in
      let a_id := tv t (next_cw f_index) in
      match infinite_vertex_local_quad_index a_id with
      | None => Panic
      | Some qa =>
          let edge_a := edge_from_semi_infinite_edge f qa in
          let a_edge_index := vertex_next_cw_edge_index f_index in
          let a_test := test_point_edge_side edge_a p in
          if is_on_left_side a_test && negb (previous =? tn t a_edge_index)
          then Ret (MoveTo current (tn t a_edge_index))
          else
            let b_id := tv t (next_ccw f_index) in
            match infinite_vertex_local_quad_index b_id with
            | None => Panic
            | Some qb =>
                let edge_b := edge_from_semi_infinite_edge f qb in
                let b_edge_index := vertex_next_ccw_edge_index f_index in
                let b_test := test_point_edge_side edge_b p in
                if is_on_right_side b_test && negb (previous =? tn t b_edge_index)
                then Ret (MoveTo current (tn t b_edge_index))
                else if is_near_edge a_test
                then Ret (Placed (OnTriangleEdge tid a_edge_index (Edge f_id a_id)))
                else if is_near_edge b_test
                then Ret (Placed (OnTriangleEdge tid b_edge_index (Edge b_id f_id)))
                else Ret (Placed (InsideTriangle tid))
            end
      end
  end.

(** src/infinite.rs:282-301 [quad_diagonals_intersection_1_infinite]. *)
Definition quad_diagonals_intersection_1_infinite (vs : list vertex) (q : quad) (i : qidx)
  : res intersection :=
  match infinite_vertex_local_quad_index (qv q i) with
  | None => Panic
  | Some k =>
      let* f := getN vs (qv q (opposite_quad i)) in
      let o := adjacent_quad i in
      let* c := getN vs (qv q (fst o)) in
      let* d := getN vs (qv q (snd o)) in
      Ret (egdes_intersect (c, d) (edge_from_semi_infinite_edge f k))
  end.

(** src/infinite.rs:303-325 [quad_diagonals_intersection_2_infinite]. *)
Definition quad_diagonals_intersection_2_infinite (vs : list vertex) (q : quad)
    (i0 i1 : qidx) : res intersection :=
  match infinite_vertex_local_quad_index (qv q i0) with
  | None => Panic
  | Some k0 =>
      let* f_0 := getN vs (qv q (opposite_quad i0)) in
      let s0 := edge_from_semi_infinite_edge f_0 k0 in
      match infinite_vertex_local_quad_index (qv q i1) with
      | None => Panic
      | Some k1 =>
          let* f_1 := getN vs (qv q (opposite_quad i1)) in
          Ret (egdes_intersect s0 (edge_from_semi_infinite_edge f_1 k1))
      end
  end.

End WithEnv.
