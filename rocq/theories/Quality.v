(** * Quality: model of the circumcircle checker, src/utils.rs:253-363.

    The checker needs a square root, which [Env] lacks: it is written over any carrier with the
    operations as parameters, and used with the floats of an environment and with the reals.
    Not modelled: the progress log (src/utils.rs:290-299). *)

From Coq Require Import NArith List Bool Reals.
From Verif Require Import Base Arith Types Utils.
Import ListNotations.
Local Open Scope N_scope.

Section Carrier.
Variable S : Type.
Variables add sub mul div : S -> S -> S.
Variable sqrt_ : S -> S.
Variable two : S.
Variable lt : S -> S -> bool.

(** src/utils.rs:264-276 [get_circumcircle_info]: center and radius. *)
Definition get_circumcircle_info (v1 v2 v3 : S * S) : (S * S) * S :=
  let bx := sub (fst v2) (fst v1) in let by_ := sub (snd v2) (snd v1) in
  let cx := sub (fst v3) (fst v1) in let cy := sub (snd v3) (snd v1) in
  let d := mul two (sub (mul bx cy) (mul by_ cx)) in
  let b2 := add (mul bx bx) (mul by_ by_) in
  let c2 := add (mul cx cx) (mul cy cy) in
  let ux := div (sub (mul cy b2) (mul by_ c2)) d in
  let uy := div (sub (mul bx c2) (mul cx b2)) d in
  ((add ux (fst v1), add uy (snd v1)), sqrt_ (add (mul ux ux) (mul uy uy))).

(** src/utils.rs:317-318: [(v - center).length() < radius]; glam: [length] is the square root of
    x * x + y * y. *)
Definition in_info (circle : (S * S) * S) (v : S * S) : bool :=
  let dx := sub (fst v) (fst (fst circle)) in let dy := sub (snd v) (snd (fst circle)) in
  lt (sqrt_ (add (mul dx dx) (mul dy dy))) (snd circle).

(** src/utils.rs:311-323: the loop over the corners of one other triangle; [true] is
    [found_contained_vertex]. *)
Fixpoint corner_in_circle (vs : list (S * S)) (t : N * N * N) (circle : (S * S) * S) (ids : list N) : res bool :=
  match ids with
  | [] => Ret false
  | v :: ids' =>
      let '(a, b, c) := t in
      if (v =? a) || (v =? b) || (v =? c) then corner_in_circle vs t circle ids'
      else
        let* p := getN vs v in
        if in_info circle p then Ret true else corner_in_circle vs t circle ids'
  end.

(** src/utils.rs:309-327: the loop over the other triangles. *)
Fixpoint triangle_in_circle (vs : list (S * S)) (t : N * N * N) (circle : (S * S) * S) (others : list (N * N * N)) : res bool :=
  match others with
  | [] => Ret false
  | (a, b, c) :: others' =>
      let* found := corner_in_circle vs t circle [a; b; c] in
      if found then Ret true else triangle_in_circle vs t circle others'
  end.

(** src/utils.rs:288-328: the loop over the triangles, [all] is the second iterator. *)
Fixpoint count_non_optimal (vs : list (S * S)) (all ts : list (N * N * N)) (count : N) : res N :=
  match ts with
  | [] => Ret count
  | (a, b, c) :: ts' =>
      let* va := getN vs a in
      let* vb := getN vs b in
      let* vc := getN vs c in
      let* found := triangle_in_circle vs (a, b, c) (get_circumcircle_info va vb vc) all in
      count_non_optimal vs all ts' (if found then count + 1 else count)
  end.

(** src/utils.rs:278-331 [check_circumcircles]. *)
Definition check_circumcircles (ts : list (N * N * N)) (vs : list (S * S)) : res N :=
  count_non_optimal vs ts ts 0.

End Carrier.

(** src/utils.rs:350-363 [check_delaunay_optimal]: the two counts of
    [check_degenerate_triangles] and the count of [check_circumcircles]. *)
Definition check_delaunay_optimal {E : Env} (sqrt_ : F -> F) (ts : list (N * N * N)) (vs : list vertex) : res (N * N * N) :=
  let* degen := check_degenerate_triangles ts vs in
  let* bad := check_circumcircles F fadd fsub fmul fdiv sqrt_ f2 flt ts vs in
  Ret (degen, bad).

(** src/utils.rs:281-331: the circumcircle checker, over the real numbers. *)
Definition r_check_circumcircles (ts : list (N * N * N)) (vs : list (R * R)) : res N :=
  check_circumcircles R Rplus Rminus Rmult Rdiv sqrt 2%R (fun a b => if Rlt_dec a b then true else false) ts vs.
