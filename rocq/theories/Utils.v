(** * Utils: model of src/utils.rs (geometric predicates and checkers).

    [get_circumcircle_info], [check_circumcircles] and [check_delaunay_optimal]
    (src/utils.rs:264-363) need a square root and are modelled in [Quality.v]. *)

From Coq Require Import NArith List Bool.
From Verif Require Import Base Arith Types.
Import ListNotations.
Local Open Scope N_scope.

(** src/utils.rs:9-15 [EdgesIntersectionResult]. *)
Inductive intersection : Type := INone | ICrossing | IOnEdgeTip | ISharedEdges.

(** src/utils.rs:17-22 [Orientation]. *)
Inductive orientation : Type := Colinear | Clockwise | CounterClockwise.

(** src/utils.rs:17: the derived [PartialEq] of [Orientation]. *)
Definition orientation_eqb (a b : orientation) : bool :=
  match a, b with
  | Colinear, Colinear | Clockwise, Clockwise | CounterClockwise, CounterClockwise => true
  | _, _ => false
  end.

(** src/utils.rs:9: the derived [PartialEq], [x == EdgesIntersectionResult::Crossing]. *)
Definition is_crossing (i : intersection) : bool :=
  match i with ICrossing => true | _ => false end.

Section WithEnv.
Context {E : Env}.

(** src/utils.rs:41: [Vertex] equality (glam [PartialEq]: coordinate-wise IEEE [==]). *)
Definition vertex_eqb (a b : vertex) : bool :=
  feq (vx a) (vx b) && feq (vy a) (vy b).

(** src/utils.rs:32: glam [is_nan], any coordinate is NaN. *)
Definition vertex_is_nan (v : vertex) : bool := fis_nan (vx v) || fis_nan (vy v).
(** src/utils.rs:32: glam [is_finite], all coordinates finite. *)
Definition vertex_is_finite (v : vertex) : bool := fis_finite (vx v) && fis_finite (vy v).

(** src/utils.rs:29-37 [validate_vertices]; [true] is [Ok(())], [false] is [Err(InvalidVertex)]. *)
Fixpoint validate_vertices (vs : list vertex) : bool :=
  match vs with
  | [] => true
  | v :: vs' =>
      if vertex_is_nan v || negb (vertex_is_finite v) then false
      else validate_vertices vs'
  end.

(** src/utils.rs:80-91 [triplet_orientation]. *)
Definition triplet_orientation (p q r : vertex) : orientation :=
  let val := fsub (fmul (fsub (vy q) (vy p)) (fsub (vx r) (vx q)))
                  (fmul (fsub (vx q) (vx p)) (fsub (vy r) (vy q))) in
  if feq val f0 then Colinear
  else if flt f0 val then Clockwise
  else CounterClockwise.

(** src/utils.rs:154-159 [on_segment]. *)
Definition on_segment (p q r : vertex) : bool :=
  fle (vx q) (fmax (vx p) (vx r)) && fle (fmin (vx p) (vx r)) (vx q) &&
  fle (vy q) (fmax (vy p) (vy r)) && fle (fmin (vy p) (vy r)) (vy q).

(** src/utils.rs:39-78 [egdes_intersect]. *)
Definition egdes_intersect (e1 e2 : vertex * vertex) : intersection :=
  let (a, b) := e1 in
  let (c, d) := e2 in
  if vertex_eqb a c || vertex_eqb a d || vertex_eqb b c || vertex_eqb b d then ISharedEdges
  else
    let o1 := triplet_orientation a b c in
    let o2 := triplet_orientation a b d in
    let o3 := triplet_orientation c d a in
    let o4 := triplet_orientation c d b in
    if orientation_eqb o1 Colinear && on_segment a c b then IOnEdgeTip
    else if orientation_eqb o2 Colinear && on_segment a d b then IOnEdgeTip
    else if orientation_eqb o3 Colinear && on_segment c a d then IOnEdgeTip
    else if orientation_eqb o4 Colinear && on_segment c b d then IOnEdgeTip
    else if negb (orientation_eqb o1 o2) && negb (orientation_eqb o3 o4) then ICrossing
    else INone.

(** src/utils.rs:122-129 [test_point_edge_side]. *)
Definition test_point_edge_side (e : vertex * vertex) (p : vertex) : F :=
  let (a, b) := e in
  fsub (fmul (fsub (vy p) (vy a)) (fsub (vx b) (vx a)))
       (fmul (fsub (vx p) (vx a)) (fsub (vy b) (vy a))).

(** src/utils.rs:96-99 [EdgeSideTestResult::is_on_right_side]. *)
Definition is_on_right_side (s : F) : bool := flt s f0.
(** src/utils.rs:100-103. *)
Definition is_strictly_on_right_side (s : F) : bool := flt s (fneg feps).
(** src/utils.rs:104-107. *)
Definition is_on_left_side (s : F) : bool := flt f0 s.
(** src/utils.rs:108-111. *)
Definition is_strictly_on_left_side (s : F) : bool := flt feps s.
(** src/utils.rs:112-115. *)
Definition is_colinear (s : F) : bool := feq s f0.
(** src/utils.rs:116-119. *)
Definition is_near_edge (s : F) : bool := flt (fabs s) feps.

(** src/utils.rs:131-137 [is_point_on_right_side_of_edge]. *)
Definition is_point_on_right_side_of_edge (e : vertex * vertex) (p : vertex) : bool :=
  fle (test_point_edge_side e p) f0.

(** src/utils.rs:139-145 [is_point_strictly_on_right_side_of_edge]. *)
Definition is_point_strictly_on_right_side_of_edge (e : vertex * vertex) (p : vertex) : bool :=
  fle (test_point_edge_side e p) (fneg feps).

(** src/utils.rs:147-152 [line_slope]. *)
Definition line_slope (a b : vertex) : F :=
  fdiv (fsub (vy b) (vy a)) (fsub (vx b) (vx a)).

(** src/utils.rs:161-213 [is_vertex_in_triangle_circumcircle]. *)
Definition is_vertex_in_triangle_circumcircle (t1 t2 t3 p : vertex) : bool :=
  let x13 := fsub (vx t1) (vx t3) in
  let x23 := fsub (vx t2) (vx t3) in
  let y13 := fsub (vy t1) (vy t3) in
  let y23 := fsub (vy t2) (vy t3) in
  let x14 := fsub (vx t1) (vx p) in
  let x24 := fsub (vx t2) (vx p) in
  let y14 := fsub (vy t1) (vy p) in
  let y24 := fsub (vy t2) (vy p) in
  let cos_a := fadd (fmul x13 x23) (fmul y13 y23) in
  let cos_b := fadd (fmul x24 x14) (fmul y24 y14) in
  if fle f0 cos_a && fle f0 cos_b then false
  else if flt cos_a f0 && flt cos_b f0 then true
  else
    let sin_a := fsub (fmul x13 y23) (fmul x23 y13) in
    let sin_b := fsub (fmul x24 y14) (fmul x14 y24) in
    let sin_ab := fadd (fmul sin_a cos_b) (fmul sin_b cos_a) in
    flt sin_ab f0.

(** src/utils.rs:229-252 [check_degenerate_triangles]: (flat count, ccw count). *)
Fixpoint check_degenerate_triangles (ts : list (N * N * N)) (vs : list vertex)
  : res (N * N) :=
  match ts with
  | [] => Ret (0, 0)
  | (a, b, c) :: ts' =>
      let* va := getN vs a in
      let* vb := getN vs b in
      let* vc := getN vs c in
      let* fc := check_degenerate_triangles ts' vs in
      let (flat, ccw) := fc in
      match triplet_orientation va vb vc with
      | Colinear => Ret (flat + 1, ccw)
      | CounterClockwise => Ret (flat, ccw + 1)
      | Clockwise => Ret (flat, ccw)
      end
  end.

End WithEnv.
