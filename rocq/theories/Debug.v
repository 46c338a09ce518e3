(** * Debug: model of src/debug.rs and of the feature [debug_context].

    [D A] is a computation on a debug context.  The context survives an error: the error value
    carries a clone of it (src/triangulation.rs:76-93).  The instrumented functions below are
    those of [Triangulation.v] and [Constrained.v] with the calls to the debug context; where
    the only call is the last statement of a function, the function is reused.
    Simplifications: a [HashSet<Phase>] is a list, [usize] steps do not overflow. *)

From Coq Require Import NArith List Bool.
From Verif Require Import Base Arith Types Utils Infinite Triangulation Constrained.
Import ListNotations.
Local Open Scope N_scope.

(** src/debug.rs:175-191 [Phase]. *)
Inductive phase : Type :=
| FirstVertexInsertion | SplitTriangle | SplitQuad | DelaunayRestoreSwapQuadDiagonals
| BeforeConstraints | RegisterCrossedEdges | ConstrainedSwapQuadDiagonals | AfterConstraints
| FilterTriangles.

(** src/debug.rs:175: the derived [PartialEq] of [Phase]. *)
Definition phase_eqb (p q : phase) : bool :=
  match p, q with
  | FirstVertexInsertion, FirstVertexInsertion | SplitTriangle, SplitTriangle | SplitQuad, SplitQuad
  | DelaunayRestoreSwapQuadDiagonals, DelaunayRestoreSwapQuadDiagonals
  | BeforeConstraints, BeforeConstraints | RegisterCrossedEdges, RegisterCrossedEdges
  | ConstrainedSwapQuadDiagonals, ConstrainedSwapQuadDiagonals | AfterConstraints, AfterConstraints
  | FilterTriangles, FilterTriangles => true
  | _, _ => false
  end.

(** src/debug.rs:193-197 [EventInfo]. *)
Inductive event : Type := Snapshot | Split (v : N).

(** src/debug.rs:5-15 [PhaseRecord]. *)
Inductive phase_record : Type := PNone | PAll | PIn (p : phase) | PInAny (ps : list phase).

(** src/debug.rs:17-29 [StepsRecord]. *)
Inductive steps_record : Type :=
| SNone | SAll | SFrom (from : N) | SUntil (to : N) | SBetween (from to : N).

(** src/debug.rs:31-37 [DebugConfiguration]. *)
Record debug_config : Type := Config {
  cfg_phase : phase_record;
  cfg_steps : steps_record;
  cfg_force_end : option N
}.

(** src/debug.rs:38-46: the default. *)
Definition default_config : debug_config := Config PAll SAll None.

Section WithEnv.
Context {E : Env}.

(** src/debug.rs:48-55 [DebugSnapshot]. *)
Record snapshot : Type := Snap {
  sn_step : N;
  sn_phase : phase;
  sn_event : event;
  sn_changed : list N;
  sn_triangles : list tri
}.

(** src/debug.rs:74-85 [DebugContext]. *)
Record debug_context : Type := Ctx {
  x_config : debug_config;
  x_scale_factor : F;
  x_x_min : F;
  x_y_min : F;
  x_snapshots : list snapshot;
  x_step : N
}.

(** src/debug.rs:74-85: the derived [Default]. *)
Definition default_context : debug_context := Ctx default_config f0 f0 f0 [] 0.

(** src/debug.rs:88-102 [DebugContext::new]. *)
Definition new_context (cfg : debug_config) (scale_factor x_min y_min : F) : debug_context :=
  Ctx cfg scale_factor x_min y_min [] 0.

(** src/debug.rs:112-117: the phase filter. *)
Definition record_phase (r : phase_record) (p : phase) : bool :=
  match r with
  | PNone => false
  | PAll => true
  | PInAny ps => existsb (phase_eqb p) ps
  | PIn q => phase_eqb p q
  end.

(** src/debug.rs:121-127: the step filter. *)
Definition record_step (r : steps_record) (s : N) : bool :=
  match r with
  | SNone => false
  | SAll => true
  | SFrom from => from <=? s
  | SUntil to => s <=? to
  | SBetween from to => (from <=? s) && (s <=? to)
  end.

(** src/debug.rs:104-147 [push_snapshot_event]. *)
Definition push_snapshot_event (p : phase) (e : event) (ts : list tri) (ids neighbors : list N)
    (c : debug_context) : debug_context :=
  if negb (record_phase (cfg_phase (x_config c)) p) then c
  else if record_step (cfg_steps (x_config c)) (x_step c)
  then Ctx (x_config c) (x_scale_factor c) (x_x_min c) (x_y_min c)
         (x_snapshots c ++ [Snap (x_step c) p e (ids ++ filter nexists neighbors) ts]) (x_step c)
  else c.

(** src/debug.rs:165-173 [advance_step]. *)
Definition advance_step (c : debug_context) : debug_context * bool :=
  let s := x_step c + 1 in
  (Ctx (x_config c) (x_scale_factor c) (x_x_min c) (x_y_min c) (x_snapshots c) s,
   match cfg_force_end (x_config c) with
   | Some end_step => end_step <=? s
   | None => false
   end).

(** ** Computations on a debug context *)
Definition D (A : Type) : Type := debug_context -> res A * debug_context.
Definition dret {A} (a : A) : D A := fun c => (Ret a, c).
Definition lift {A} (r : res A) : D A := fun c => (r, c).
Definition dbind {A B} (m : D A) (k : A -> D B) : D B := fun c =>
  let (r, c') := m c in
  match r with
  | Ret a => k a c'
  | Fail e => (Fail e, c')
  | Panic => (Panic, c')
  | OutOfFuel => (OutOfFuel, c')
  end.
(** src/debug.rs:104-163: [push_snapshot] and [push_snapshot_event]. *)
Definition push (p : phase) (e : event) (ts : list tri) (ids neighbors : list N) : D unit :=
  fun c => (Ret tt, push_snapshot_event p e ts ids neighbors c).
(** src/debug.rs:165-173: [advance_step]. *)
Definition advance : D bool := fun c => let (c', b) := advance_step c in (Ret b, c').

(** src/triangulation.rs:417-424, src/constrained_triangulation.rs:281-288: [for x in l { if advance_step() { break; } ..x.. }] *)
Fixpoint dloop {A X : Type} (f : A -> X -> D A) (l : list X) (a : A) : D A :=
  match l with
  | [] => dret a
  | x :: l' =>
      dbind advance (fun stop => if (stop : bool) then dret a
        else dbind (f a x) (fun a' => dloop f l' a'))
  end.

(** ** src/triangulation.rs *)

(** src/triangulation.rs:704-787: [split_quad_into_four_triangles]. *)
Definition d_split_quad (ts : list tri) (tid : N) (ei : tidx) (ed : edge) (v : N) (st : stack)
  : D (list tri * stack) :=
  dbind (lift (getN ts tid)) (fun t1_before =>
  dbind (lift (split_quad_into_four ts tid ei ed v st)) (fun r =>
  dbind (push SplitQuad (Split v) (fst r) [tid; tn t1_before ei; next_id ts; next_id ts + 1] []) (fun _ =>
  dret r))).

(** src/triangulation.rs:810-869: [split_triangle_into_three_triangles]. *)
Definition d_split_triangle (ts : list tri) (tid : N) (v : N) (st : stack) : D (list tri * stack) :=
  dbind (lift (split_triangle_into_three ts tid v st)) (fun r =>
  dbind (push SplitTriangle (Split v) (fst r) [tid; next_id ts; next_id ts + 1] []) (fun _ =>
  dret r)).

(** src/triangulation.rs:993-1081: [check_and_swap_quad_diagonal]. *)
Definition d_check_and_swap (ts : list tri) (vs : list vertex) (from_vertex t1_id t2_id : N) (st : stack)
  : D (list tri * stack) :=
  dbind (lift (getN ts t2_id)) (fun t2 =>
  let '(q, n3, n4) := quad_of_pair t2 t1_id from_vertex in
  dbind (lift (should_swap_diagonals q vs)) (fun sw =>
  if (sw : bool) then
    dbind (lift (getN ts t1_id)) (fun t1 =>
    dbind (lift (swap_pair ts q n3 n4 t1_id t2_id st)) (fun r =>
    dbind (push DelaunayRestoreSwapQuadDiagonals Snapshot (fst r) [t1_id; t2_id] [n3; t_n31 t1]) (fun _ =>
    dret r)))
  else dret (ts, st))).

(** src/triangulation.rs:911-933: [restore_delaunay_triangulation]. *)
Fixpoint d_restore_delaunay (fuel : nat) (ts : list tri) (vs : list vertex) (from_vertex : N) (st : stack)
  : D (list tri) :=
  match st with
  | [] => dret ts
  | (t1, t2) :: st' =>
      match fuel with
      | O => lift OutOfFuel
      | S fuel' =>
          dbind (d_check_and_swap ts vs from_vertex t1 t2 st') (fun r =>
          d_restore_delaunay fuel' (fst r) vs from_vertex (snd r))
      end
  end.

(** src/triangulation.rs:490-501. *)
Definition d_finish_insert (fuel : nat) (vs : list vertex) (m : option (list N)) (vid : N)
    (r : list tri * stack) : D state :=
  dbind (d_restore_delaunay fuel (fst r) vs vid (snd r)) (fun ts =>
  dbind (lift (last_id ts)) (fun l => dret (St ts l m))).

(** src/triangulation.rs:426-516: the body of the loop. *)
Definition d_insert_vertex (fuel : nat) (vs : list vertex) (s : state) (vid : N) : D state :=
  dbind (lift (getN vs vid)) (fun p =>
  dbind (lift (find_vertex_placement p (s_start s) (s_ts s) vs)) (fun pl =>
  match pl with
  | InsideTriangle t =>
      dbind (d_split_triangle (s_ts s) t vid []) (fun r => d_finish_insert fuel vs (s_map s) vid r)
  | OnTriangleEdge t ei ed =>
      dbind (lift (close_to vs (efrom ed) p)) (fun c1 =>
      if (c1 : bool) then
        dbind (lift (record_merge (s_map s) vid (efrom ed))) (fun m => dret (St (s_ts s) (s_start s) m))
      else
        dbind (lift (close_to vs (eto ed) p)) (fun c2 =>
        if (c2 : bool) then
          dbind (lift (record_merge (s_map s) vid (eto ed))) (fun m => dret (St (s_ts s) (s_start s) m))
        else
          dbind (d_split_quad (s_ts s) t ei ed vid []) (fun r => d_finish_insert fuel vs (s_map s) vid r)))
  | NotFound => lift (Fail (ErrPlacementNotFound vid))
  end)).

(** src/triangulation.rs:385-519: [wrap_and_triangulate_2d_normalized_vertices]. *)
Definition d_wrap_and_triangulate (fuel : nat) (bins : N) (vs : list vertex) (m : option (list N)) : D state :=
  dbind (lift (bin_sort bins vs)) (fun order =>
  match order with
  | [] => lift Panic
  | first :: rest =>
      let ts := create_initial_triangles first in
      dbind (lift (last_id ts)) (fun l =>
      dbind (push FirstVertexInsertion Snapshot ts [0] []) (fun _ =>
      dloop (d_insert_vertex fuel vs) rest (St ts l m)))
  end).

(** src/triangulation.rs:521-550 and 594-607: [filter_triangles]; the snapshot holds the kept triangles. *)
Definition d_filter_triangles (ts : list tri) : D (list (N * N * N)) :=
  dbind (push FilterTriangles Snapshot (filter tri_is_finite ts) [] []) (fun _ =>
  dret (filter_triangles ts)).

(** src/triangulation.rs:112-157: [triangulation_from_2d_vertices].  The result and its debug context; on an
    error, the error's debug context. *)
Definition d_triangulation_from_2d_vertices (cfg : debug_config) (fuel : nat) (bins : N) (vs : list vertex)
  : res (list (N * N * N)) * debug_context :=
  if lenN vs <? 3 then (Ret [], default_context)
  else
    let '(nvs, scale, x_min, y_min) := normalize_vertices_coordinates vs in
    dbind (d_wrap_and_triangulate fuel bins nvs None) (fun s => d_filter_triangles (s_ts s))
      (new_context cfg scale x_min y_min).

(** ** src/constrained_triangulation.rs *)

(** src/constrained_triangulation.rs:717-782: [swap_quad_diagonal]. *)
Definition d_swap_quad_diagonal (ts : list tri) (v2t : list N) (d : edge_data) (q : quad)
  : D (list tri * list N * (edge_data -> edge_data)) :=
  dbind (lift (getN ts (d_to d))) (fun tto =>
  dbind (lift (getN ts (d_from d))) (fun tfrom =>
  dbind (lift (swap_quad_diagonal ts v2t d q)) (fun r =>
  let tt_left := tn tto (opposite_edge_index_from_vertex tto (q2 q)) in
  let tf_right := tn tfrom (next_ccw (opposite_edge_index_from_vertex tfrom (q2 q))) in
  dbind (push ConstrainedSwapQuadDiagonals Snapshot (fst (fst r)) [d_from d; d_to d] [tt_left; tf_right]) (fun _ =>
  dret r)))).

(** src/constrained_triangulation.rs:834-900: [remove_crossed_edges]. *)
Fixpoint d_remove_crossed_edges (fuel : nat) (ts : list tri) (vs : list vertex)
    (v2t : list N) (cv : vertex * vertex) (inters : list edge_data)
    (news : list edge_data) (nc : N) : D (list tri * list N * list edge_data) :=
  match inters with
  | [] => dret (ts, v2t, news)
  | d :: inters' =>
      match fuel with
      | O => lift OutOfFuel
      | S fuel' =>
          if lenN inters' <? nc then lift (Fail ErrNoConvexQuad)
          else
            dbind (lift (to_quad ts d)) (fun q =>
            dbind (lift (quad_diagonals_intersection vs q)) (fun x =>
            if negb (is_crossing x)
            then d_remove_crossed_edges fuel' ts vs v2t cv (inters' ++ [d]) news (nc + 1)
            else
              dbind (d_swap_quad_diagonal ts v2t d q) (fun r =>
              let '(ts', v2t', upd) := r in
              let d' := ED (d_from d) (d_to d) (Edge (q3 q) (q4 q)) in
              let inters'' := map upd inters' in
              let news' := map upd news in
              dbind (lift (edge_and_constrained_edge_intersection vs (d_edge d') cv)) (fun y =>
              if is_crossing y
              then d_remove_crossed_edges fuel' ts' vs v2t' cv (inters'' ++ [d']) news' 0
              else d_remove_crossed_edges fuel' ts' vs v2t' cv inters'' (news' ++ [d']) 0))))
      end
  end.

(** src/constrained_triangulation.rs:902-945: [restore_delaunay_triangulation_constrained]. *)
Fixpoint d_restore_constrained (fuel : nat) (ts : list tri) (vs : list vertex)
    (v2t : list N) (ce : edge) (news : list edge_data) (hist : list (N * N)) : D (list tri * list N) :=
  match news with
  | [] => dret (ts, v2t)
  | d :: news' =>
      match fuel with
      | O => lift OutOfFuel
      | S fuel' =>
          if undirected_equals (d_edge d) ce
          then d_restore_constrained fuel' ts vs v2t ce news' hist
          else
            dbind (lift (to_quad ts d)) (fun q =>
            dbind (lift (constrained_should_swap_diagonals q vs)) (fun sw =>
            if (sw : bool) && negb (history_mem hist (d_from d, d_to d)) then
              dbind (d_swap_quad_diagonal ts v2t d q) (fun r =>
              let '(ts', v2t', upd) := r in
              d_restore_constrained fuel' ts' vs v2t' ce
                (map upd news' ++ [ED (d_from d) (d_to d) (Edge (q3 q) (q4 q))])
                ((d_from d, d_to d) :: hist))
            else d_restore_constrained fuel' ts vs v2t ce news' hist))
      end
  end.

(** src/constrained_triangulation.rs:304-358: the body of the loop. *)
Definition d_apply_constraint (fuel : nat) (vs : list vertex) (mapping : list N)
    (s : cstate) (raw : edge) : D cstate :=
  dbind (lift (getN mapping (efrom raw))) (fun a =>
  dbind (lift (getN mapping (eto raw))) (fun b =>
  let ce := Edge a b in
  if (a =? b) || edge_mem (c_set s) ce then dret s
  else
    let cset := ce :: c_set s in
    dbind (lift (edge_to_vertices vs ce)) (fun cv =>
    dbind (lift (register_intersected_edges (c_ts s) vs ce cv (c_v2t s))) (fun inters =>
    match inters with
    | [] => dret (CSt (c_ts s) (c_v2t s) cset)
    | _ =>
        dbind (d_remove_crossed_edges fuel (c_ts s) vs (c_v2t s) cv inters [] 0) (fun r =>
        let '(ts, v2t, news) := r in
        dbind (d_restore_constrained fuel ts vs v2t ce news []) (fun r' =>
        dret (CSt (fst r') (snd r') cset)))
    end)))).

(** src/constrained_triangulation.rs:249-361: [apply_constraints]. *)
Definition d_apply_constraints (fuel : nat) (vs : list vertex) (ts : list tri)
    (constraints : list edge) (mapping : list N) : D (list tri * list edge) :=
  dbind (lift (index_triangles (repeat 0 (length vs)) 0 ts)) (fun v2t =>
  dbind (dloop (d_apply_constraint fuel vs mapping) constraints (CSt ts v2t [])) (fun s =>
  dret (c_ts s, c_set s))).

(** src/constrained_triangulation.rs:166-247: [cdt_filter_triangles], with [filtered_debug_triangles] in the place of
    [indices]: the kept triangles themselves. *)
Definition emit_triangle (t : tri) (out : list tri) : list tri :=
  if tri_is_finite t then t :: out else out.

(** src/constrained_triangulation.rs:213-239, pushing on [filtered_debug_triangles]. *)
Fixpoint explore_triangles (fuel : nat) (ts : list tri) (cset : list edge) (stk : list N)
    (visited : list bool) (out : list tri) : res (list bool * list tri) :=
  match stk with
  | [] => Ret (visited, out)
  | n :: stk' =>
      match fuel with
      | O => OutOfFuel
      | S fuel' =>
          if negb (nexists n) then explore_triangles fuel' ts cset stk' visited out
          else
            let* seen := getN visited n in
            if (seen : bool) then explore_triangles fuel' ts cset stk' visited out
            else
              let* t := getN ts n in
              let out := emit_triangle t out in
              let* visited := setN visited n true in
              explore_triangles fuel' ts cset (unconstrained_neighbors cset t ++ stk') visited out
      end
  end.

(** src/constrained_triangulation.rs:185-241, pushing on [filtered_debug_triangles]. *)
Fixpoint filter_loop_triangles (fuel : nat) (ts : list tri) (cset : list edge) (rest : list tri)
    (i : N) (visited : list bool) (out : list tri) : res (list tri) :=
  match rest with
  | [] => Ret (rev out)
  | t :: rest' =>
      let* seen := getN visited i in
      if (seen : bool) then filter_loop_triangles fuel ts cset rest' (i + 1) visited out
      else if has_constrained_edge cset t then
        let out := emit_triangle t out in
        let* visited := setN visited i true in
        let* (visited, out) :=
          explore_triangles fuel ts cset (unconstrained_neighbors cset t) visited out in
        filter_loop_triangles fuel ts cset rest' (i + 1) visited out
      else filter_loop_triangles fuel ts cset rest' (i + 1) visited out
  end.

(** src/constrained_triangulation.rs:166-247: [cdt_filter_triangles]. *)
Definition d_cdt_filter_triangles (fuel : nat) (ts : list tri) (cset : list edge) : D (list (N * N * N)) :=
  dbind (lift (cdt_filter_triangles fuel ts cset)) (fun indices =>
  dbind (lift (filter_loop_triangles fuel ts cset ts 0 (repeat false (length ts)) [])) (fun kept =>
  dbind (push FilterTriangles Snapshot kept [] []) (fun _ =>
  dret indices))).

(** src/constrained_triangulation.rs:107-164: [constrained_triangulation_from_2d_vertices]. *)
Definition d_constrained_triangulation_from_2d_vertices (cfg : debug_config) (fuel : nat) (bins : N)
    (vs : list vertex) (constraints : list edge) : res (list (N * N * N)) * debug_context :=
  if lenN vs <? 3 then (Ret [], default_context)
  else
    let '(nvs, scale, x_min, y_min) := normalize_vertices_coordinates vs in
    dbind (d_wrap_and_triangulate fuel bins nvs (Some (rangeN 0 (length vs)))) (fun s =>
      dbind (push BeforeConstraints Snapshot (s_ts s) [] []) (fun _ =>
      match s_map s with
      | None => lift Panic
      | Some mapping =>
          dbind (d_apply_constraints fuel nvs (s_ts s) constraints mapping) (fun r =>
          dbind (push AfterConstraints Snapshot (fst r) [] []) (fun _ =>
          d_cdt_filter_triangles fuel (fst r) (snd r)))
      end))
      (new_context cfg scale x_min y_min).

End WithEnv.
