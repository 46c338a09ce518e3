(** * Input2d: the input vertex types.

    src/types/vertex.rs:7-38.  The entry points are generic over [Vertex2d]; the crate
    implements it for glam's [Vec2] (two f32) and [DVec2] (two f64), whatever [Float] is. *)

From Coq Require Import ZArith NArith List Bool SpecFloat.
From Verif Require Import Base Arith F64 Types Triangulation Constrained Space3d.
Import ListNotations.
Local Open Scope N_scope.

(** src/types/vertex.rs:8-11 [Vertex2d].  [S] is [Float]. *)
Class Vertex2d (S : Type) : Type := {
  V2 : Type;
  v2_x : V2 -> S;
  v2_y : V2 -> S
}.

Section Api.
Context {E : Env}.
Context {V : Vertex2d F}.

(** src/triangulation.rs:191-213: the only use of the input vertices is to read [x()] and
    [y()], which have no effect: they are read once here. *)
Definition read (v : V2) : vertex := (v2_x v, v2_y v).

(** src/triangulation.rs:112-157 [triangulation_from_2d_vertices<T>]. *)
Definition triangulation_from_vertices (fuel : nat) (bins : N) (vs : list V2)
  : res (list (N * N * N)) :=
  triangulation_from_2d_vertices fuel bins (map read vs).

(** src/constrained_triangulation.rs:107-164 [constrained_triangulation_from_2d_vertices<T>]. *)
Definition constrained_triangulation_from_vertices (fuel : nat) (bins : N) (vs : list V2)
    (constraints : list edge) : res (list (N * N * N)) :=
  constrained_triangulation_from_2d_vertices fuel bins (map read vs) constraints.

End Api.

(** [as Float] between f32 and f64, src/types/vertex.rs:17, 23, 30, 36: to the nearest number
    of the format (precision [prec], maximal exponent [emax]), ties to even. *)
Definition sf_cast (prec emax : Z) (x : spec_float) : spec_float :=
  match x with
  | S754_finite s m e => binary_round prec emax s m e
  | x => x
  end.

(** src/types/vertex.rs:13-25, 26-38: [Vec2] and [DVec2] are pairs of floats; a format to which
    they are converted. *)
Definition vec2_as (prec emax : Z) : Vertex2d spec_float := {|
  V2 := (spec_float * spec_float)%type;
  v2_x := fun v => sf_cast prec emax (fst v);
  v2_y := fun v => sf_cast prec emax (snd v)
|}.

(** [Float] = f64 and [Float] = f32. *)
Definition as_f64 : Vertex2d spec_float := vec2_as 53 1024.
Definition as_f32 : Vertex2d spec_float := vec2_as 24 128.

(** src/types/vertex.rs:48-85: [Vec3] with [Float] = f64, [DVec3] with [Float] = f32.  The
    operations are those of the vector's format, the result of [dot] is converted. *)
Definition vec3_as {E : Env} (sqrt_ : F -> F) (one : F) (S : Type) (conv : F -> S) : Vertex3d S := {|
  V3 := (F * F * F)%type;
  v3_sub := @v3_sub _ (env_vec3 sqrt_ one);
  v3_neg := @v3_neg _ (env_vec3 sqrt_ one);
  v3_normalize := @v3_normalize _ (env_vec3 sqrt_ one);
  v3_cross := @v3_cross _ (env_vec3 sqrt_ one);
  v3_dot := fun a b => conv (@v3_dot _ (env_vec3 sqrt_ one) a b)
|}.
Definition vec3_as_f64 : Vertex3d spec_float :=
  vec3_as (E := env32) (sf_sqrt 24 128) (sf_one 24 128) spec_float (sf_cast 53 1024).
Definition dvec3_as_f32 : Vertex3d spec_float :=
  vec3_as (E := env64) (sf_sqrt 53 1024) (sf_one 53 1024) spec_float (sf_cast 24 128).
