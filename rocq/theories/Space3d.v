(** * Space3d: planar 3d input.

    src/types/vertex.rs:41-85 [Vertex3d], src/triangulation.rs:95-110, 159-178 and
    src/constrained_triangulation.rs:57-76.

    The trait is a class: the code is generic over it.  The crate implements it for glam's
    [Vec3] and [DVec3]; glam is not part of the repository, [glam_vec3] models the documented
    operations in the order in which glam evaluates them (scalar code path). *)

From Coq Require Import ZArith NArith List Bool QArith Reals SpecFloat.
From Verif Require Import Base Arith F64 QEnv Types Triangulation Constrained.
Import ListNotations.
Local Open Scope N_scope.

(** src/types/vertex.rs:41-47.  [S] is the result type of [dot] ([Float]). *)
Class Vertex3d (S : Type) : Type := {
  V3 : Type;
  v3_sub : V3 -> V3 -> V3;
  v3_neg : V3 -> V3;
  v3_normalize : V3 -> V3;
  v3_cross : V3 -> V3 -> V3;
  v3_dot : V3 -> V3 -> S
}.

(** src/triangulation.rs:159-178 [transform_to_2d_planar_coordinate_system]; [vertices[0]] and
    [vertices[1]] panic on shorter lists. *)
Definition transform_to_2d {S : Type} {V : Vertex3d S} (vs : list V3) (plane_normal : V3)
  : res (list (S * S)) :=
  let* v0 := getN vs 0 in
  let* v1 := getN vs 1 in
  let basis_1 := v3_normalize (v3_sub v0 v1) in
  let basis_2 := v3_cross basis_1 (v3_neg plane_normal) in
  Ret (map (fun v => (v3_dot v basis_1, v3_dot v basis_2)) vs).

Section Api.
Context {E : Env}.

(** src/triangulation.rs:95-110 [triangulation_from_3d_planar_vertices]. *)
Definition triangulation_from_3d_planar_vertices {V : Vertex3d F} (fuel : nat) (bins : N)
    (vs : list V3) (plane_normal : V3) : res (list (N * N * N)) :=
  if lenN vs <? 3 then Ret []
  else
    let* planar := transform_to_2d vs plane_normal in
    triangulation_from_2d_vertices fuel bins planar.

(** src/constrained_triangulation.rs:57-76 [constrained_triangulation_from_3d_planar_vertices]. *)
Definition constrained_triangulation_from_3d_planar_vertices {V : Vertex3d F} (fuel : nat) (bins : N)
    (vs : list V3) (plane_normal : V3) (constraints : list edge) : res (list (N * N * N)) :=
  if lenN vs <? 3 then Ret []
  else
    let* planar := transform_to_2d vs plane_normal in
    constrained_triangulation_from_2d_vertices fuel bins planar constraints.

End Api.

(** ** glam's vectors: [DVec3] (f64), [Vec3] (f32)

    glam: [dot a b] = (a.x * b.x) + (a.y * b.y) + (a.z * b.z);
    [cross a b] = (a.y * b.z - b.y * a.z, a.z * b.x - b.z * a.x, a.x * b.y - b.x * a.y);
    [normalize a] = a * (1.0 / sqrt (dot a a)). *)
Section Glam.
Variable S : Type.
Variables add sub mul div : S -> S -> S.
Variables neg sqrt_ : S -> S.
Variable one : S.

(** glam [dot], called at src/types/vertex.rs:63-65, 82-84. *)
Definition gdot (a b : S * S * S) : S :=
  let '(ax, ay, az) := a in let '(bx, by_, bz) := b in
  add (add (mul ax bx) (mul ay by_)) (mul az bz).
(** glam [cross], called at src/types/vertex.rs:57-59, 76-78. *)
Definition gcross (a b : S * S * S) : S * S * S :=
  let '(ax, ay, az) := a in let '(bx, by_, bz) := b in
  (sub (mul ay bz) (mul by_ az), sub (mul az bx) (mul bz ax), sub (mul ax by_) (mul bx ay)).
(** glam [Sub], required at src/types/vertex.rs:42. *)
Definition gsub (a b : S * S * S) : S * S * S :=
  let '(ax, ay, az) := a in let '(bx, by_, bz) := b in (sub ax bx, sub ay by_, sub az bz).
(** glam [Neg], required at src/types/vertex.rs:42. *)
Definition gneg (a : S * S * S) : S * S * S :=
  let '(ax, ay, az) := a in (neg ax, neg ay, neg az).
(** glam [Mul<scalar>], used by [normalize]. *)
Definition gscale (a : S * S * S) (k : S) : S * S * S :=
  let '(ax, ay, az) := a in (mul ax k, mul ay k, mul az k).
(** glam [normalize], called at src/types/vertex.rs:51-53, 70-72. *)
Definition gnormalize (a : S * S * S) : S * S * S := gscale a (div one (sqrt_ (gdot a a))).

(** src/types/vertex.rs:48-85: the [Vertex3d] implementations forward to glam. *)
Definition glam_vec3 : Vertex3d S := {|
  V3 := (S * S * S)%type;
  v3_sub := gsub;
  v3_neg := gneg;
  v3_normalize := gnormalize;
  v3_cross := gcross;
  v3_dot := gdot
|}.
End Glam.

(** The vectors over the float type of the environment, which lacks a square root and the
    literal 1.  [sf_sqrt prec emax] and [sf_one prec emax] give [DVec3] with [Float] = f64 (53,
    1024) and [Vec3] with [Float] = f32 (24, 128).  The other two combinations are in [Input2d.v]. *)
Definition env_vec3 {E : Env} (sqrt_ : F -> F) (one : F) : Vertex3d F :=
  glam_vec3 F fadd fsub fmul fdiv fneg sqrt_ one.

(** The square root and the literal 1 of glam's [normalize] for f64 and f32. *)
Definition sf_sqrt (prec emax : Z) : spec_float -> spec_float := SFsqrt prec emax.
Definition sf_one (prec emax : Z) : spec_float := sf_of_Z prec emax 1.

(** For the exact rationals: a square root which is exact on squares. *)
Definition qsqrt (q : Q) : Q :=
  let r := Qred q in Qmake (Z.sqrt (Qnum r)) (Z.to_pos (Z.sqrt (Zpos (Qden r)))).

(** Real numbers: the transformation without rounding. *)
Definition r_vec3 : Vertex3d R := glam_vec3 R Rplus Rminus Rmult Rdiv Ropp sqrt 1%R.
