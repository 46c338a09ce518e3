(** * Triangulation: model of src/triangulation.rs (incremental Delaunay triangulation).

    Not modelled: the [debug_context], [progress_log] and [profile_traces] features
    (the debug recorder itself is in [Debug.v]); [Vec] capacities. *)

From Coq Require Import NArith List Bool.
From Verif Require Import Base Arith Types Utils Infinite.
Import ListNotations.
Local Open Scope N_scope.

Section WithEnv.
Context {E : Env}.

(** ** Normalisation: src/triangulation.rs:179-216 *)

(** State (x_min, y_min, x_max, y_max) of the loop at src/triangulation.rs:188-204. *)
Definition bounds : Type := (F * F * F * F)%type.

(** One iteration of the loop at src/triangulation.rs:191-204. *)
Definition bounds_step (b : bounds) (v : vertex) : bounds :=
  let '(x_min, y_min, x_max, y_max) := b in
  let x_min' := if flt (vx v) x_min then vx v else x_min in
  let x_max' := if flt x_max (vx v) then vx v else x_max in
  let y_min' := if flt (vy v) y_min then vy v else y_min in
  let y_max' := if flt y_max (vy v) then vy v else y_max in
  (x_min', y_min', x_max', y_max').

(** src/triangulation.rs:188-204. *)
Definition compute_bounds (vs : list vertex) : bounds :=
  fold_left bounds_step vs (fMAX, fMAX, fMIN, fMIN).

(** src/triangulation.rs:181-216 [normalize_vertices_coordinates]: the normalised
    vertices, the scale factor, x_min, y_min. *)
Definition normalize_vertices_coordinates (vs : list vertex)
  : list vertex * F * F * F :=
  let '(x_min, y_min, x_max, y_max) := compute_bounds vs in
  let scale := fmax (fsub x_max x_min) (fsub y_max y_min) in
  (map (fun v => (fdiv (fsub (vx v) x_min) scale, fdiv (fsub (vy v) y_min) scale)) vs,
   scale, x_min, y_min).

(** ** Point location: src/triangulation.rs:225-329 *)

(** One iteration of the loop of [find_vertex_placement], finite triangle
    (src/triangulation.rs:251-297).  [prev] and [cur] are the raw neighbor ids. *)
Definition walk_finite (vs : list vertex) (p : vertex) (t : tri) (tid prev cur : N)
  : res walk_step :=
  let* v1 := getN vs (t_v1 t) in
  let* v2 := getN vs (t_v2 t) in
  let* v3 := getN vs (t_v3 t) in
  if negb (prev =? t_n12 t) && is_on_left_side (test_point_edge_side (v1, v2) p)
  then Ret (MoveTo cur (t_n12 t))
  else if negb (prev =? t_n23 t) && is_on_left_side (test_point_edge_side (v2, v3) p)
  then Ret (MoveTo cur (t_n23 t))
  else if negb (prev =? t_n31 t) && is_on_left_side (test_point_edge_side (v3, v1) p)
  then Ret (MoveTo cur (t_n31 t))
  else if is_near_edge (test_point_edge_side (v1, v2) p)
  then Ret (Placed (OnTriangleEdge tid I1 (tedge t I1)))
  else if is_near_edge (test_point_edge_side (v2, v3) p)
  then Ret (Placed (OnTriangleEdge tid I2 (tedge t I2)))
  else if is_near_edge (test_point_edge_side (v3, v1) p)
  then Ret (Placed (OnTriangleEdge tid I3 (tedge t I3)))
  else Ret (Placed (InsideTriangle tid)).

(** One iteration of the loop (src/triangulation.rs:244-325). *)
Definition walk_iter (ts : list tri) (vs : list vertex) (p : vertex) (prev cur : N)
  : res walk_step :=
  let* t := getN ts cur in
  let* inf := collect_infinite_triangle_vertices t in
  match inf with
  | [] => walk_finite vs p t cur prev cur
  | [i] => vertex_placement_1_infinite vs p t cur i prev cur
  | i0 :: i1 :: _ => vertex_placement_2_infinite vs p t cur i0 i1 prev cur
  end.

(** The bounded loop [for _ in 0..triangles.count()] (src/triangulation.rs:239-328). *)
Fixpoint walk (n : nat) (ts : list tri) (vs : list vertex) (p : vertex) (prev cur : N)
  : res placement :=
  match n with
  | O => Ret NotFound
  | S n' =>
      if negb (nexists cur) then Ret NotFound
      else
        let* s := walk_iter ts vs p prev cur in
        match s with
        | Placed pl => Ret pl
        | MoveTo prev' cur' => walk n' ts vs p prev' cur'
        end
  end.

(** src/triangulation.rs:225-329 [find_vertex_placement]. *)
Definition find_vertex_placement (p : vertex) (from : N) (ts : list tri) (vs : list vertex)
  : res placement :=
  walk (length ts) ts vs p from from.

(** ** Mesh construction *)

(** src/triangulation.rs:331-365 [create_initial_triangles]. *)
Definition create_initial_triangles (first : N) : list tri :=
  [ Tri first INF0 INF1 3 NONE 1;
    Tri first INF1 INF2 0 NONE 2;
    Tri first INF2 INF3 1 NONE 3;
    Tri first INF3 INF0 2 NONE 0 ].

(** src/triangulation.rs:367-371 [is_vertex_pair_too_close]. *)
Definition is_vertex_pair_too_close (a b : vertex) : bool :=
  flt (fabs (fsub (vx a) (vx b))) feps && flt (fabs (fsub (vy a) (vy b))) feps.

(** src/triangulation.rs:892-908 [update_triangle_neighbor]. *)
Definition update_triangle_neighbor (t : tri) (old new : N) : tri :=
  if t_n12 t =? old then set_tn t I1 new
  else if t_n23 t =? old then set_tn t I2 new
  else if t_n31 t =? old then set_tn t I3 new
  else t.

(** src/triangulation.rs:871-890 [update_neighbor_neighbor]. *)
Definition update_neighbor_neighbor (n old new : N) (ts : list tri) : res (list tri) :=
  if nexists n then
    let* t := getN ts n in
    setN ts n (update_triangle_neighbor t old new)
  else Ret ts.

(** src/triangulation.rs:412-414: the restoration stack [quads_to_check]: head of the list = top of the stack. *)
Definition stack : Type := list (N * N).

(** [if n.exists() { update_triangle_neighbor(..); quads_to_check.push((t, n.id)) }],
    as in src/triangulation.rs:763-770, 848-855. *)
Definition update_and_push (ts : list tri) (st : stack) (n old new t : N)
  : res (list tri * stack) :=
  if nexists n then
    let* x := getN ts n in
    let* ts' := setN ts n (update_triangle_neighbor x old new) in
    Ret (ts', (t, n) :: st)
  else Ret (ts, st).

(** src/triangulation.rs:1069-1071: [if n.exists() { quads_to_check.push((t, n.id)) }]. *)
Definition push_if (st : stack) (t n : N) : stack :=
  if nexists n then (t, n) :: st else st.

(** src/triangulation.rs:704-787 [split_quad_into_four_triangles]. *)
Definition split_quad_into_four (ts : list tri) (tid : N) (ei : tidx) (ed : edge) (v : N)
    (st : stack) : res (list tri * stack) :=
  let t1 := tid in
  let* t1_before := getN ts t1 in
  let t2 := tn t1_before ei in
  let t3 := next_id ts in
  let* t4 := next_id_plus_1 ts in
  let* t2_before := getN ts t2 in
  let n1 := tn t1_before (next_cw ei) in
  let n2 := tn t1_before (next_ccw ei) in
  let t3_v3 := tv t1_before (opposite_vertex_index ei) in
  let ts := ts ++ [Tri v (eto ed) t3_v3 t4 n1 t1] in
  let opp := get_opposite_vertex_id t2_before ed in
  let opp_index := vertex_index t2_before opp in
  let n3 := tn t2_before (vertex_next_ccw_edge_index opp_index) in
  let n4 := tn t2_before (vertex_next_cw_edge_index opp_index) in
  let ts := ts ++ [Tri v opp (eto ed) t2 n4 t3] in
  let* ts := setN ts t1 (Tri v t3_v3 (efrom ed) t3 n2 t2) in
  let* ts := setN ts t2 (Tri v (efrom ed) opp t1 n3 t4) in
  let* (ts, st) := update_and_push ts st n1 t1 t3 t3 in
  let* (ts, st) := update_and_push ts st n4 t2 t4 t4 in
  let st := push_if st t1 n2 in
  let st := push_if st t2 n3 in
  Ret (ts, st).

(** src/triangulation.rs:810-869 [split_triangle_into_three_triangles]. *)
Definition split_triangle_into_three (ts : list tri) (tid : N) (v : N) (st : stack)
  : res (list tri * stack) :=
  let t1 := tid in
  let t2 := next_id ts in
  let* t3 := next_id_plus_1 ts in
  let* t := getN ts t1 in
  let n4 := t_n12 t in
  let n5 := t_n23 t in
  let n6 := t_n31 t in
  let ts := ts ++ [Tri v (t_v2 t) (t_v3 t) t3 n5 t1] in
  let ts := ts ++ [Tri v (t_v1 t) (t_v2 t) t1 n4 t2] in
  let* ts := setN ts t1 (Tri v (t_v3 t) (t_v1 t) t2 n6 t3) in
  let* (ts, st) := update_and_push ts st n4 t1 t3 t3 in
  let* (ts, st) := update_and_push ts st n5 t1 t2 t2 in
  let st := push_if st t1 n6 in
  Ret (ts, st).

(** ** Delaunay restoration *)

(** src/triangulation.rs:935-962 [should_swap_diagonals]. *)
Definition should_swap_diagonals (q : quad) (vs : list vertex) : res bool :=
  if is_infinite (q3 q) then Ret false
  else
    let f1 := is_finite (q1 q) in
    let f2 := is_finite (q2 q) in
    if f1 && f2 then
      let* a := getN vs (q1 q) in
      let* b := getN vs (q2 q) in
      let* c := getN vs (q3 q) in
      let* p := getN vs (q4 q) in
      Ret (is_vertex_in_triangle_circumcircle a b c p)
    else if negb f1 && negb f2 then Ret true
    else if negb f1 then is_vertex_in_half_plane_1 vs q I1
    else is_vertex_in_half_plane_1 vs q I2.

(** src/triangulation.rs:1008-1046: the quad seen from [t1_id], and the neighbors
    n3, n4 of [t2]. *)
Definition quad_of_pair (t2 : tri) (t1_id from_vertex : N) : quad * N * N :=
  if t_n12 t2 =? t1_id
  then (Quad (t_v2 t2) (t_v1 t2) (t_v3 t2) from_vertex, t_n23 t2, t_n31 t2)
  else if t_n23 t2 =? t1_id
  then (Quad (t_v3 t2) (t_v2 t2) (t_v1 t2) from_vertex, t_n31 t2, t_n12 t2)
  else (Quad (t_v1 t2) (t_v3 t2) (t_v2 t2) from_vertex, t_n12 t2, t_n23 t2).

(** src/triangulation.rs:1048-1073: the swap itself. *)
Definition swap_pair (ts : list tri) (q : quad) (n3 n4 t1_id t2_id : N) (st : stack)
  : res (list tri * stack) :=
  let* t1 := getN ts t1_id in
  let n1 := t_n31 t1 in
  let n2 := t_n12 t1 in
  let* ts := setN ts t1_id (Tri (q4 q) (q1 q) (q3 q) n2 n3 t2_id) in
  let* ts := setN ts t2_id (Tri (q4 q) (q3 q) (q2 q) t1_id n4 n1) in
  let* ts := (if nexists n1 then
                let* x := getN ts n1 in
                setN ts n1 (update_triangle_neighbor x t1_id t2_id)
              else Ret ts) in
  let* (ts, st) := update_and_push ts st n3 t2_id t1_id t1_id in
  let st := push_if st t2_id n4 in
  Ret (ts, st).

(** src/triangulation.rs:993-1081 [check_and_swap_quad_diagonal]. *)
Definition check_and_swap (ts : list tri) (vs : list vertex) (from_vertex t1_id t2_id : N)
    (st : stack) : res (list tri * stack) :=
  let* t2 := getN ts t2_id in
  let '(q, n3, n4) := quad_of_pair t2 t1_id from_vertex in
  let* sw := should_swap_diagonals q vs in
  if (sw : bool) then swap_pair ts q n3 n4 t1_id t2_id st
  else Ret (ts, st).

(** src/triangulation.rs:911-933 [restore_delaunay_triangulation]. *)
Fixpoint restore_delaunay (fuel : nat) (ts : list tri) (vs : list vertex) (from_vertex : N)
    (st : stack) : res (list tri) :=
  match st with
  | [] => Ret ts
  | (t1, t2) :: st' =>
      match fuel with
      | O => OutOfFuel
      | S fuel' =>
          let* (ts', st'') := check_and_swap ts vs from_vertex t1 t2 st' in
          restore_delaunay fuel' ts' vs from_vertex st''
      end
  end.

(** ** Bin sort: src/triangulation.rs:609-670 *)

(** src/triangulation.rs:662-669 [bin_index_from_bin_position] ([None]: subtraction underflow).
    Simplification: usize products do not overflow (an overflowing product would be
    an out of bounds index below anyway). *)
Definition bin_index_from_bin_position (bins x y : N) : option N :=
  if N.even y then Some (y * bins + x)
  else if x + 1 <=? (y + 1) * bins then Some ((y + 1) * bins - x - 1)
  else None.

(** src/triangulation.rs:655-660 [bin_index_from_vertex]. *)
Definition bin_index_from_vertex (bins : N) (v : vertex) : option N :=
  let bin_x := f_to_N (fmul (fmul f099 (f_of_N bins)) (vx v)) in
  let bin_y := f_to_N (fmul (fmul f099 (f_of_N bins)) (vy v)) in
  bin_index_from_bin_position bins bin_x bin_y.

(** src/triangulation.rs:634-639: count the vertices of each bin. *)
Fixpoint count_bins (bins : N) (vs : list vertex) (counters : list N)
  : res (list N * list N) :=
  match vs with
  | [] => Ret ([], counters)
  | v :: vs' =>
      match bin_index_from_vertex bins v with
      | None => Panic
      | Some b =>
          let* c := getN counters b in
          let* counters := setN counters b (c + 1) in
          let* (idx, counters) := count_bins bins vs' counters in
          Ret (b :: idx, counters)
      end
  end.

(** src/triangulation.rs:641-644: prefix sums; [acc] is the previous counter. *)
Fixpoint prefix_sums (acc : N) (counters : list N) : list N :=
  match counters with
  | [] => []
  | c :: cs => (acc + c) :: prefix_sums (acc + c) cs
  end.

(** src/triangulation.rs:646-651: place every vertex ([vid] is the current vertex id). *)
Fixpoint place_vertices (idx : list N) (vid : N) (counters sorted : list N)
  : res (list N) :=
  match idx with
  | [] => Ret sorted
  | b :: idx' =>
      let* c := getN counters b in
      if c =? 0 then Panic
      else
        let* counters := setN counters b (c - 1) in
        let* sorted := setN sorted (c - 1) (as_id vid) in
        place_vertices idx' (vid + 1) counters sorted
  end.

(** src/triangulation.rs:616-653 [VertexBinSort::sort].  [bins] is [bins_per_row], the
    rounded power of src/triangulation.rs:620-622 (f64 [powf] is not modelled: the theorems quantify
    over every value of [bins]). *)
Definition bin_sort (bins : N) (vs : list vertex) : res (list N) :=
  let* (idx, counters) := count_bins bins vs (repeat 0 (N.to_nat (bins * bins))) in
  place_vertices idx 0 (prefix_sums 0 counters) (repeat 0 (length vs)).

(** ** Main loop: src/triangulation.rs:385-519 *)

(** src/triangulation.rs:400-417, loop state: triangles, search start, merge mapping. *)
Record state : Type := St {
  s_ts : list tri;
  s_start : N;
  s_map : option (list N)
}.

(** src/triangulation.rs:453-455, 461-463: [if let Some(m) = mapping { m[vertex_id] = target }]. *)
Definition record_merge (m : option (list N)) (vid target : N) : res (option (list N)) :=
  match m with
  | None => Ret None
  | Some l => let* l' := setN l vid target in Ret (Some l')
  end.

(** src/triangulation.rs:490-501: restoration, then the next search starts at the last triangle. *)
Definition finish_insert (fuel : nat) (vs : list vertex) (m : option (list N)) (vid : N)
    (r : list tri * stack) : res state :=
  let (ts, st) := r in
  let* ts := restore_delaunay fuel ts vs vid st in
  let* l := last_id ts in
  Ret (St ts l m).

(** [is_finite(id) && is_vertex_pair_too_close(vertices[id], vertex)] (src/triangulation.rs:450-451,
    458-459); the index is only evaluated for a finite id. *)
Definition close_to (vs : list vertex) (id : N) (p : vertex) : res bool :=
  if is_finite id then
    let* a := getN vs id in
    Ret (is_vertex_pair_too_close a p)
  else Ret false.

(** One iteration of the loop at src/triangulation.rs:417-516. *)
Definition insert_vertex (fuel : nat) (vs : list vertex) (s : state) (vid : N) : res state :=
  let* p := getN vs vid in
  let* pl := find_vertex_placement p (s_start s) (s_ts s) vs in
  match pl with
  | InsideTriangle t =>
      let* r := split_triangle_into_three (s_ts s) t vid [] in
      finish_insert fuel vs (s_map s) vid r
  | OnTriangleEdge t ei ed =>
      let* c1 := close_to vs (efrom ed) p in
      if (c1 : bool) then
        let* m := record_merge (s_map s) vid (efrom ed) in
        Ret (St (s_ts s) (s_start s) m)
      else
        let* c2 := close_to vs (eto ed) p in
        if (c2 : bool) then
          let* m := record_merge (s_map s) vid (eto ed) in
          Ret (St (s_ts s) (s_start s) m)
        else
          let* r := split_quad_into_four (s_ts s) t ei ed vid [] in
          finish_insert fuel vs (s_map s) vid r
  | NotFound => Fail (ErrPlacementNotFound vid)
  end.

(** src/triangulation.rs:385-519 [wrap_and_triangulate_2d_normalized_vertices].
    [next().unwrap()] on an empty list panics. *)
Definition wrap_and_triangulate (fuel : nat) (bins : N) (vs : list vertex)
    (m : option (list N)) : res state :=
  let* order := bin_sort bins vs in
  match order with
  | [] => Panic
  | first :: rest =>
      let ts := create_initial_triangles first in
      let* l := last_id ts in
      foldM (insert_vertex fuel vs) rest (St ts l m)
  end.

(** ** Final filtering *)

(** src/triangulation.rs:594-607 [_singlethreaded_filter_triangles]. *)
Definition filter_triangles (ts : list tri) : list (N * N * N) :=
  map tverts (filter tri_is_finite ts).

(** ** Entry point: src/triangulation.rs:112-157 [triangulation_from_2d_vertices] *)
Definition triangulation_from_2d_vertices (fuel : nat) (bins : N) (vs : list vertex)
  : res (list (N * N * N)) :=
  if lenN vs <? 3 then Ret []
  else
    let '(nvs, _, _, _) := normalize_vertices_coordinates vs in
    let* s := wrap_and_triangulate fuel bins nvs None in
    Ret (filter_triangles (s_ts s)).

End WithEnv.

(** ** Parallel filtering (feature [parallel_filtering]), src/triangulation.rs:553-592

    rayon's [par_iter().with_min_len(k).filter_map(f).collect()] splits the slice
    recursively into contiguous halves, runs [f] on every leaf piece sequentially (the
    pieces in any order, on any thread) and concatenates the results in slice order.
    A [split] is one such recursion tree: [Leaf] processes its whole piece, [Node k l r]
    cuts the first [k] elements off. *)
Inductive split : Type := Leaf | Node (k : nat) (l r : split).

(** src/triangulation.rs:570-580: [par_iter().filter_map(f).collect()]. *)
Fixpoint par_filter_map {A B : Type} (f : A -> option B) (s : split) (l : list A) : list B :=
  match s with
  | Leaf => flat_map (fun a => match f a with Some b => [b] | None => [] end) l
  | Node k sl sr => par_filter_map f sl (firstn k l) ++ par_filter_map f sr (skipn k l)
  end.

(** src/triangulation.rs:553-592 [_multithreaded_filter_triangles]. *)
Definition multithreaded_filter_triangles {E : Env} (threshold : N) (s : split)
    (ts : list tri) : list (N * N * N) :=
  if threshold <? lenN ts
  then par_filter_map (fun t => if tri_is_finite t then Some (tverts t) else None) s ts
  else map tverts (filter tri_is_finite ts).
