(** * Constrained: model of src/constrained_triangulation.rs. *)

From Coq Require Import NArith List Bool.
From Verif Require Import Base Arith Types Utils Infinite Triangulation.
Import ListNotations.
Local Open Scope N_scope.

Section WithEnv.
Context {E : Env}.

(** src/constrained_triangulation.rs:610-617 [EdgeData]. *)
Record edge_data : Type := ED { d_from : N; d_to : N; d_edge : edge }.

(** src/constrained_triangulation.rs:636-649 [EdgeData::to_quad]. *)
Definition to_quad (ts : list tri) (d : edge_data) : res quad :=
  let* tto := getN ts (d_to d) in
  let* tfrom := getN ts (d_from d) in
  Ret (Quad (efrom (d_edge d)) (eto (d_edge d))
            (get_opposite_vertex_id tto (d_edge d))
            (get_opposite_vertex_id tfrom (d_edge d))).

(** src/constrained_triangulation.rs:373-401 [edge_and_constrained_edge_intersection]. *)
Definition edge_and_constrained_edge_intersection (vs : list vertex) (e : edge)
    (c : vertex * vertex) : res intersection :=
  match infinite_vertex_local_quad_index (efrom e), infinite_vertex_local_quad_index (eto e) with
  | None, None => let* ev := edge_to_vertices vs e in Ret (egdes_intersect c ev)
  | Some q, None =>
      let* f := getN vs (eto e) in
      Ret (egdes_intersect c (edge_from_semi_infinite_edge f q))
  | None, Some q =>
      let* f := getN vs (efrom e) in
      Ret (egdes_intersect c (edge_from_semi_infinite_edge f q))
  | Some _, Some _ => Ret INone
  end.

(** ** Searching the crossed edges *)

(** src/constrained_triangulation.rs:363-371 [EdgeFirstIntersection]. *)
Inductive first_intersection : Type :=
| EdgeAlreadyInTriangulation
| FirstIntersection (d : edge_data)
| FirstNotFound.

(** src/constrained_triangulation.rs:403-467 [loop_around_vertex_and_search_intersection];
    [first] is [_i == 0]. *)
Fixpoint loop_around (n : nat) (first : bool) (ts : list tri) (vs : list vertex)
    (from_id tid : N) (ce : edge) (cv : vertex * vertex) (next : tidx -> tidx)
  : res first_intersection :=
  match n with
  | O => Ret FirstNotFound
  | S n' =>
      if negb first && (tid =? from_id) then Fail ErrSearchCycle
      else
        let* t := getN ts tid in
        if verts_contains t (eto ce) then Ret EdgeAlreadyInTriangulation
        else
          let vi := vertex_index t (efrom ce) in
          let ei := opposite_edge_index vi in
          let e := tedge t ei in
          let* inter := edge_and_constrained_edge_intersection vs e cv in
          if is_crossing inter then
            let nb := tn t ei in
            if nexists nb then Ret (FirstIntersection (ED tid nb e))
            else Fail ErrCrossedEdgeNoNeighbor
          else
            let nb := tn t (next vi) in
            if nexists nb then loop_around n' false ts vs from_id nb ce cv next
            else Ret FirstNotFound
  end.

(** src/constrained_triangulation.rs:469-516 [search_first_interstected_quad]. *)
Definition search_first_intersected_quad (ts : list tri) (vs : list vertex) (ce : edge)
    (cv : vertex * vertex) (start : N) : res first_intersection :=
  let* r := loop_around (length ts) true ts vs start start ce cv outermost_cw in
  match r with
  | FirstNotFound =>
      let* t := getN ts start in
      let vi := vertex_index t (efrom ce) in
      let nb := tn t (outermost_ccw vi) in
      loop_around (length ts) true ts vs nb nb ce cv outermost_ccw
  | _ => Ret r
  end.

(** src/constrained_triangulation.rs:651-684 [get_next_triangle_edge_intersection]:
    the loop over the three edges, [is] the remaining edge indices. *)
Fixpoint next_intersection (is : list tidx) (vs : list vertex) (cv : vertex * vertex)
    (t : tri) (tid : N) (from_edge : edge) : res (option edge_data) :=
  match is with
  | [] => Ret None
  | i :: is' =>
      let e := tedge t i in
      if undirected_equals e from_edge then next_intersection is' vs cv t tid from_edge
      else
        let* inter := edge_and_constrained_edge_intersection vs e cv in
        if is_crossing inter && nexists (tn t i)
        then Ret (Some (ED tid (tn t i) e))
        else next_intersection is' vs cv t tid from_edge
  end.

(** src/constrained_triangulation.rs:651-684 [get_next_triangle_edge_intersection]. *)
Definition get_next_triangle_edge_intersection (vs : list vertex) (cv : vertex * vertex)
    (t : tri) (tid : N) (from_edge : edge) : res (option edge_data) :=
  next_intersection [I1; I2; I3] vs cv t tid from_edge.

(** The loop of src/constrained_triangulation.rs:556-588 ([acc]: intersections so far,
    in reverse order).  When the bound is exhausted the loop ends normally. *)
Fixpoint register_loop (n : nat) (ts : list tri) (vs : list vertex) (ce : edge)
    (cv : vertex * vertex) (cur : edge_data) (acc : list edge_data) : res (list edge_data) :=
  match n with
  | O => Ret (rev acc)
  | S n' =>
      let* t := getN ts (d_to cur) in
      if verts_contains t (eto ce) then Ret (rev acc)
      else
        let* nx := get_next_triangle_edge_intersection vs cv t (d_to cur) (d_edge cur) in
        match nx with
        | Some d => register_loop n' ts vs ce cv d (d :: acc)
        | None => Fail ErrNoNextIntersection
        end
  end.

(** src/constrained_triangulation.rs:518-590 [register_intersected_edges].  The shared
    buffer [intersections] is empty on entry ([remove_crossed_edges] empties it). *)
Definition register_intersected_edges (ts : list tri) (vs : list vertex) (ce : edge)
    (cv : vertex * vertex) (v2t : list N) : res (list edge_data) :=
  let* start := getN v2t (efrom ce) in
  let* r := search_first_intersected_quad ts vs ce cv start in
  match r with
  | FirstIntersection d => register_loop (length ts) ts vs ce cv d [d]
  | EdgeAlreadyInTriangulation => Ret []
  | FirstNotFound => Fail ErrFirstIntersectionNotFound
  end.

(** ** Swapping *)

(** One iteration of the loop of src/constrained_triangulation.rs:784-817
    [update_edges_data]. *)
Definition update_edge_data (tt_left tf_right from to : N) (d : edge_data) : edge_data :=
  let d :=
    if nexists tt_left then
      if (d_from d =? tt_left) && (d_to d =? to) then ED (d_from d) from (d_edge d)
      else if (d_from d =? to) && (d_to d =? tt_left) then ED from (d_to d) (d_edge d)
      else d
    else d in
  if nexists tf_right then
    if (d_from d =? tf_right) && (d_to d =? from) then ED (d_from d) to (d_edge d)
    else if (d_from d =? from) && (d_to d =? tf_right) then ED to (d_to d) (d_edge d)
    else d
  else d.

(** src/constrained_triangulation.rs:757-762: [if is_finite(v) { vertex_to_triangle[v] = t }]. *)
Definition set_v2t (v2t : list N) (v t : N) : res (list N) :=
  if is_finite v then setN v2t v t else Ret v2t.

(** src/constrained_triangulation.rs:717-782 [swap_quad_diagonal].  Returns the new
    triangles, vertex_to_triangle, and the update to apply to the pending collections
    of edges ([update_edges_data], src/constrained_triangulation.rs:772-781). *)
Definition swap_quad_diagonal (ts : list tri) (v2t : list N) (d : edge_data) (q : quad)
  : res (list tri * list N * (edge_data -> edge_data)) :=
  let from := d_from d in
  let to := d_to d in
  let* tto := getN ts to in
  let tt_left_i := opposite_edge_index_from_vertex tto (q2 q) in
  let tt_left := tn tto tt_left_i in
  let tt_right := tn tto (next_cw tt_left_i) in
  let* tfrom := getN ts from in
  let tf_left_i := opposite_edge_index_from_vertex tfrom (q2 q) in
  let tf_left := tn tfrom tf_left_i in
  let tf_right := tn tfrom (next_ccw tf_left_i) in
  let* x := getN ts from in
  let* ts := setN ts from (set_verts x (q3 q) (q4 q) (q1 q)) in
  let* x := getN ts to in
  let* ts := setN ts to (set_verts x (q3 q) (q2 q) (q4 q)) in
  let* x := getN ts from in
  let* ts := setN ts from (set_neighbors x to tf_left tt_left) in
  let* x := getN ts to in
  let* ts := setN ts to (set_neighbors x tt_right tf_right from) in
  let* ts := update_neighbor_neighbor tt_left to from ts in
  let* ts := update_neighbor_neighbor tf_right from to ts in
  let* v2t := set_v2t v2t (q1 q) from in
  let* v2t := set_v2t v2t (q2 q) to in
  Ret (ts, v2t, update_edge_data tt_left tf_right from to).

(** src/constrained_triangulation.rs:819-832 [quad_diagonals_intersection]. *)
Definition quad_diagonals_intersection (vs : list vertex) (q : quad) : res intersection :=
  let* inf := collect_infinite_quad_vertices q in
  match inf with
  | [] =>
      let* a := getN vs (q1 q) in
      let* b := getN vs (q2 q) in
      let* c := getN vs (q3 q) in
      let* d := getN vs (q4 q) in
      Ret (egdes_intersect (a, b) (c, d))
  | [i] => quad_diagonals_intersection_1_infinite vs q i
  | i0 :: i1 :: _ => quad_diagonals_intersection_2_infinite vs q i0 i1
  end.

(** src/constrained_triangulation.rs:834-900 [remove_crossed_edges].  Deques are lists,
    front first.  [nc] is [non_convex_counter]. *)
Fixpoint remove_crossed_edges (fuel : nat) (ts : list tri) (vs : list vertex)
    (v2t : list N) (cv : vertex * vertex) (inters : list edge_data)
    (news : list edge_data) (nc : N) : res (list tri * list N * list edge_data) :=
  match inters with
  | [] => Ret (ts, v2t, news)
  | d :: inters' =>
      match fuel with
      | O => OutOfFuel
      | S fuel' =>
          if lenN inters' <? nc then Fail ErrNoConvexQuad
          else
            let* q := to_quad ts d in
            let* x := quad_diagonals_intersection vs q in
            if negb (is_crossing x)
            then remove_crossed_edges fuel' ts vs v2t cv (inters' ++ [d]) news (nc + 1)
            else
              let* (r, upd) := swap_quad_diagonal ts v2t d q in
              let (ts', v2t') := r in
              let d' := ED (d_from d) (d_to d) (Edge (q3 q) (q4 q)) in
              let inters'' := map upd inters' in
              let news' := map upd news in
              let* y := edge_and_constrained_edge_intersection vs (d_edge d') cv in
              if is_crossing y
              then remove_crossed_edges fuel' ts' vs v2t' cv (inters'' ++ [d']) news' 0
              else remove_crossed_edges fuel' ts' vs v2t' cv inters'' (news' ++ [d']) 0
      end
  end.

(** src/constrained_triangulation.rs:947-977 [constrained_should_swap_diagonals]. *)
Definition constrained_should_swap_diagonals (q : quad) (vs : list vertex) : res bool :=
  if is_infinite (q3 q) || is_infinite (q4 q) then Ret false
  else
    let f1 := is_finite (q1 q) in
    let f2 := is_finite (q2 q) in
    if f1 && f2 then
      let* a := getN vs (q1 q) in
      let* b := getN vs (q2 q) in
      let* c := getN vs (q3 q) in
      let* p := getN vs (q4 q) in
      Ret (is_vertex_in_triangle_circumcircle a b c p)
    else if negb f1 && negb f2 then Ret true
    else if negb f1 then is_vertex_in_half_plane_1 vs q I1
    else is_vertex_in_half_plane_1 vs q I2.

(** src/constrained_triangulation.rs:279, 926: [swaps_history : HashSet<(TriangleId, TriangleId)>] as a list of pairs. *)
Definition history_mem (h : list (N * N)) (p : N * N) : bool :=
  existsb (fun x => (fst x =? fst p) && (snd x =? snd p)) h.

(** src/constrained_triangulation.rs:902-945
    [restore_delaunay_triangulation_constrained]. *)
Fixpoint restore_constrained (fuel : nat) (ts : list tri) (vs : list vertex)
    (v2t : list N) (ce : edge) (news : list edge_data) (hist : list (N * N))
  : res (list tri * list N) :=
  match news with
  | [] => Ret (ts, v2t)
  | d :: news' =>
      match fuel with
      | O => OutOfFuel
      | S fuel' =>
          if undirected_equals (d_edge d) ce
          then restore_constrained fuel' ts vs v2t ce news' hist
          else
            let* q := to_quad ts d in
            let* sw := constrained_should_swap_diagonals q vs in
            if (sw : bool) && negb (history_mem hist (d_from d, d_to d)) then
              let* (r, upd) := swap_quad_diagonal ts v2t d q in
              let (ts', v2t') := r in
              restore_constrained fuel' ts' vs v2t' ce
                (map upd news' ++ [ED (d_from d) (d_to d) (Edge (q3 q) (q4 q))])
                ((d_from d, d_to d) :: hist)
            else restore_constrained fuel' ts vs v2t ce news' hist
      end
  end.

(** ** Applying all the constraints: src/constrained_triangulation.rs:249-361 *)

(** src/constrained_triangulation.rs:262-272, for one triangle: [v] is each of its three vertices in turn. *)
Definition index_triangle (v2t : list N) (i : N) (t : tri) : res (list N) :=
  let* v2t := set_v2t v2t (t_v1 t) (as_id i) in
  let* v2t := set_v2t v2t (t_v2 t) (as_id i) in
  set_v2t v2t (t_v3 t) (as_id i).

(** The loop at src/constrained_triangulation.rs:262-272. *)
Fixpoint index_triangles (v2t : list N) (i : N) (ts : list tri) : res (list N) :=
  match ts with
  | [] => Ret v2t
  | t :: ts' =>
      let* v2t := index_triangle v2t i t in
      index_triangles v2t (i + 1) ts'
  end.

(** src/constrained_triangulation.rs:192-194, 233, 259, 313: [HashSet<Edge>] as a list; only membership and insertion are used. *)
Definition edge_mem (s : list edge) (e : edge) : bool := existsb (edge_eqb e) s.

(** State of the loop at src/constrained_triangulation.rs:281-359. *)
Record cstate : Type := CSt {
  c_ts : list tri;
  c_v2t : list N;
  c_set : list edge
}.

(** One iteration of the loop at src/constrained_triangulation.rs:281-359. *)
Definition apply_constraint (fuel : nat) (vs : list vertex) (mapping : list N)
    (s : cstate) (raw : edge) : res cstate :=
  let* a := getN mapping (efrom raw) in
  let* b := getN mapping (eto raw) in
  let ce := Edge a b in
  if (a =? b) || edge_mem (c_set s) ce then Ret s
  else
    let cset := ce :: c_set s in
    let* cv := edge_to_vertices vs ce in
    let* inters := register_intersected_edges (c_ts s) vs ce cv (c_v2t s) in
    match inters with
    | [] => Ret (CSt (c_ts s) (c_v2t s) cset)
    | _ =>
        let* (r, news) := remove_crossed_edges fuel (c_ts s) vs (c_v2t s) cv inters [] 0 in
        let (ts, v2t) := r in
        let* (ts, v2t) := restore_constrained fuel ts vs v2t ce news [] in
        Ret (CSt ts v2t cset)
    end.

(** src/constrained_triangulation.rs:249-361 [apply_constraints]. *)
Definition apply_constraints (fuel : nat) (vs : list vertex) (ts : list tri)
    (constraints : list edge) (mapping : list N) : res (list tri * list edge) :=
  let* v2t := index_triangles (repeat 0 (length vs)) 0 ts in
  let* s := foldM (apply_constraint fuel vs mapping) constraints (CSt ts v2t []) in
  Ret (c_ts s, c_set s).

(** ** Keeping the constrained domains: src/constrained_triangulation.rs:166-247 *)

(** src/constrained_triangulation.rs:206-210, 232-237: the neighbors of the non constrained edges of a triangle, in the order in which they
    are popped from the stack (pushed 12, 23, 31, popped in reverse). *)
Definition unconstrained_neighbors (cset : list edge) (t : tri) : list N :=
  (if edge_mem cset (tedge t I3) then [] else [t_n31 t]) ++
  (if edge_mem cset (tedge t I2) then [] else [t_n23 t]) ++
  (if edge_mem cset (tedge t I1) then [] else [t_n12 t]).

(** src/constrained_triangulation.rs:201-205, 224-228: [if t.is_finite() { indices.push(t.verts) }] ([out] in reverse order). *)
Definition emit (t : tri) (out : list (N * N * N)) : list (N * N * N) :=
  if tri_is_finite t then tverts t :: out else out.

(** The walk at src/constrained_triangulation.rs:213-239; [stk]: [triangles_to_explore], top first. *)
Fixpoint explore (fuel : nat) (ts : list tri) (cset : list edge) (stk : list N)
    (visited : list bool) (out : list (N * N * N)) : res (list bool * list (N * N * N)) :=
  match stk with
  | [] => Ret (visited, out)
  | n :: stk' =>
      match fuel with
      | O => OutOfFuel
      | S fuel' =>
          if negb (nexists n) then explore fuel' ts cset stk' visited out
          else
            let* seen := getN visited n in
            if (seen : bool) then explore fuel' ts cset stk' visited out
            else
              let* t := getN ts n in
              let out := emit t out in
              let* visited := setN visited n true in
              explore fuel' ts cset (unconstrained_neighbors cset t ++ stk') visited out
      end
  end.

(** [triangle_edge_is_constrained.contains(&true)], src/constrained_triangulation.rs:191-198. *)
Definition has_constrained_edge (cset : list edge) (t : tri) : bool :=
  edge_mem cset (tedge t I1) || edge_mem cset (tedge t I2) || edge_mem cset (tedge t I3).

(** The loop at src/constrained_triangulation.rs:185-241; [rest] are the remaining triangles, [i] the index of the
    first of them. *)
Fixpoint filter_loop (fuel : nat) (ts : list tri) (cset : list edge) (rest : list tri)
    (i : N) (visited : list bool) (out : list (N * N * N)) : res (list (N * N * N)) :=
  match rest with
  | [] => Ret (rev out)
  | t :: rest' =>
      let* seen := getN visited i in
      if (seen : bool) then filter_loop fuel ts cset rest' (i + 1) visited out
      else if has_constrained_edge cset t then
        let out := emit t out in
        let* visited := setN visited i true in
        let* (visited, out) :=
          explore fuel ts cset (unconstrained_neighbors cset t) visited out in
        filter_loop fuel ts cset rest' (i + 1) visited out
      else filter_loop fuel ts cset rest' (i + 1) visited out
  end.

(** src/constrained_triangulation.rs:166-247 [cdt_filter_triangles]. *)
Definition cdt_filter_triangles (fuel : nat) (ts : list tri) (cset : list edge)
  : res (list (N * N * N)) :=
  filter_loop fuel ts cset ts 0 (repeat false (length ts)) [].

(** ** Entry point: src/constrained_triangulation.rs:107-164
    [constrained_triangulation_from_2d_vertices] *)
Definition constrained_triangulation_from_2d_vertices (fuel : nat) (bins : N)
    (vs : list vertex) (constraints : list edge) : res (list (N * N * N)) :=
  if lenN vs <? 3 then Ret []
  else
    let '(nvs, _, _, _) := normalize_vertices_coordinates vs in
    let* s := wrap_and_triangulate fuel bins nvs (Some (rangeN 0 (length vs))) in
    match s_map s with
    | None => Panic
    | Some mapping =>
        let* (ts, cset) := apply_constraints fuel nvs (s_ts s) constraints mapping in
        cdt_filter_triangles fuel ts cset
    end.

End WithEnv.
