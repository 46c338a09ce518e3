(** * Arith: the arithmetic environment of the model.

    The algorithm is generic over the float type ([Float] = f64 or, with the
    [f32] feature, f32: src/types/f64.rs:1-6, src/types/f32.rs:1-6) and over the
    index type ([IndexType] = u32 or, with [u64_indexes], u64:
    src/types/u32.rs:1, src/types/u64.rs:1).  The model takes both as a record, so
    that a theorem quantified over [Env] covers every configuration (NaN and
    infinities included) and a theorem about a particular instance speaks of that
    arithmetic.  Instances: [F64.v] (IEEE binary64 / binary32), [QExact.v] (exact
    rationals). *)

From Coq Require Import NArith Bool.

(** src/types/f64.rs:4, src/types/f32.rs:4 [Float], src/types/u32.rs:1, src/types/u64.rs:1
    [IndexType], with the operations on them that the code uses. *)
Class Env : Type := {
  (** the float type and its operations *)
  F : Type;
  fadd : F -> F -> F;
  fsub : F -> F -> F;
  fmul : F -> F -> F;
  fdiv : F -> F -> F;
  fneg : F -> F;
  fabs : F -> F;
  (** comparisons [<], [<=], [==] (all false on NaN) *)
  flt : F -> F -> bool;
  fle : F -> F -> bool;
  feq : F -> F -> bool;
  (** [Float::max], [Float::min] *)
  fmax : F -> F -> F;
  fmin : F -> F -> F;
  (** [is_nan], [is_finite] *)
  fis_nan : F -> bool;
  fis_finite : F -> bool;
  (** literals: 0., 2., Float::EPSILON, Float::MAX, Float::MIN, 0.99, 1.42 *)
  f0 : F;
  f2 : F;
  feps : F;
  fMAX : F;
  fMIN : F;
  f099 : F;
  fdelta : F;
  (** [usize as Float] and the saturating [Float as usize] *)
  f_of_N : N -> F;
  f_to_N : F -> N;
  (** [IndexType::MAX] *)
  idmax : N
}.

(** src/types/f64.rs:6, src/types/f32.rs:6: [Vertex] is a pair of floats (glam DVec2/Vec2). *)
Definition vertex {E : Env} : Type := (F * F)%type.
(** src/types/vertex.rs:8-11 [Vertex2d::x]. *)
Definition vx {E : Env} (v : vertex) : F := fst v.
(** src/types/vertex.rs:8-11 [Vertex2d::y]. *)
Definition vy {E : Env} (v : vertex) : F := snd v.
