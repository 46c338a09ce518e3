(** * SpecRound3d: vocabulary for planar 3d input in an arbitrary plane, with rounding.
    Definitions only. *)

From Coq Require Import ZArith NArith List QArith Qreals Reals SpecFloat.
From Verif Require Import Arith F64 Spec GridSpec Space3d Spec3d.
Import ListNotations.
Local Open Scope R_scope.

(** Vectors of rational numbers, and as real vectors. *)
Definition qvec : Type := (Q * Q * Q)%type.
Definition rvec_of (p : qvec) : rvec := let '(x, y, z) := p in (Q2R x, Q2R y, Q2R z).

(** The position of vertex [v]. *)
Definition at3 (l : list qvec) (v : N) : rvec := rvec_of (nth (N.to_nat v) l (0, 0, 0)%Q).

(** The two IEEE formats, f64 and f32, and their relative rounding error. *)
Inductive format : Z -> Z -> Prop :=
| Format_f64 : format 53 1024
| Format_f32 : format 24 128.
Definition roundoff (prec : Z) : R := / IZR (2 ^ prec).

(** The vector [v] of finite floats holds the numbers [p]. *)
Definition vec_is (prec emax : Z) (v : spec_float * spec_float * spec_float) (p : qvec) : Prop :=
  let '(x, y, z) := v in let '(a, b, c) := p in sf_is prec emax x a /\ sf_is prec emax y b /\ sf_is prec emax z c.

(** Coordinates are at most [M] <= 2^27, the normal is not much longer than a unit vector, and
    the first two vertices are at least 2^-40 apart. *)
Record moderate3 (l : list qvec) (n : qvec) (M : R) : Prop := {
  m3_M : M <= IZR (2 ^ 27);
  m3_coords : forall x y z, In (x, y, z) l -> Rabs (Q2R x) <= M /\ Rabs (Q2R y) <= M /\ Rabs (Q2R z) <= M;
  m3_normal : rdot (rvec_of n) (rvec_of n) <= 3 / 2;
  m3_first : exists a b rest, l = a :: b :: rest /\ / IZR (2 ^ 80) <= rdist3 (rvec_of a) (rvec_of b)
}.

(** Both coordinates differ by at most [d]. *)
Definition rclose (d : R) (p : point) (r : R * R) : Prop :=
  Rabs (Q2R (fst p) - fst r) <= d /\ Rabs (Q2R (snd p) - snd r) <= d.

(** The direction from the second to the first vertex is orthogonal to [n] up to [t], the
    sine of the angle to the plane (times the length of [n]). *)
Definition nearly_orthogonal (l : list qvec) (n : qvec) (t : R) : Prop :=
  forall a b rest, l = a :: b :: rest ->
    Rabs (rdot (rminus (rvec_of a) (rvec_of b)) (rvec_of n)) <= t * sqrt (rdist3 (rvec_of a) (rvec_of b)).
