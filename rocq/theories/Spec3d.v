(** * Spec3d: vocabulary for the properties of planar 3d input.  Definitions only. *)

From Coq Require Import ZArith NArith List Bool QArith Reals SpecFloat.
From Verif Require Import Arith F64 QEnv Spec GridSpec Space3d.
Import ListNotations.

(** ** Real vectors *)
Section Real.
Local Open Scope R_scope.
Definition rvec : Type := (R * R * R)%type.
Definition rminus (a b : rvec) : rvec :=
  let '(ax, ay, az) := a in let '(bx, by_, bz) := b in (ax - bx, ay - by_, az - bz).
Definition rdot (a b : rvec) : R :=
  let '(ax, ay, az) := a in let '(bx, by_, bz) := b in ax * bx + ay * by_ + az * bz.
(** The determinant of the three vectors. *)
Definition rtriple (a b c : rvec) : R :=
  let '(ax, ay, az) := a in let '(bx, by_, bz) := b in let '(cx, cy, cz) := c in
  ax * (by_ * cz - bz * cy) - ay * (bx * cz - bz * cx) + az * (bx * cy - by_ * cx).

(** The unit vector n is normal to a plane which contains all the points. *)
Definition planar (vs : list rvec) (n : rvec) : Prop :=
  rdot n n = 1 /\ forall a b, In a vs -> In b vs -> rdot (rminus a b) n = 0.

(** Squared distances in space and in the plane. *)
Definition rdist3 (a b : rvec) : R := rdot (rminus a b) (rminus a b).
Definition rdist2 (a b : R * R) : R :=
  (fst a - fst b) * (fst a - fst b) + (snd a - snd b) * (snd a - snd b).

(** Twice the signed area of a triangle: in the plane; in space, seen from the side to which n
    points (positive iff counter-clockwise). *)
Definition rorient2 (a b c : R * R) : R :=
  (fst b - fst a) * (snd c - snd a) - (snd b - snd a) * (fst c - fst a).
Definition rorient3 (n a b c : rvec) : R := rtriple n (rminus b a) (rminus c a).
End Real.

(** ** Integer vectors *)
Section Integers.
Local Open Scope Z_scope.
Definition zvec : Type := (Z * Z * Z)%type.
Definition zminus3 (a b : zvec) : zvec :=
  let '(ax, ay, az) := a in let '(bx, by_, bz) := b in (ax - bx, ay - by_, az - bz).
Definition zdot (a b : zvec) : Z :=
  let '(ax, ay, az) := a in let '(bx, by_, bz) := b in ax * bx + ay * by_ + az * bz.
Definition zcross (a b : zvec) : zvec :=
  let '(ax, ay, az) := a in let '(bx, by_, bz) := b in
  (ay * bz - az * by_, az * bx - ax * bz, ax * by_ - ay * bx).
Definition zscale (k : Z) (a : zvec) : zvec := let '(x, y, z) := a in (k * x, k * y, k * z).

(** One of the six unit vectors along an axis. *)
Definition axis (u : zvec) : Prop :=
  In u [(1, 0, 0); (-1, 0, 0); (0, 1, 0); (0, -1, 0); (0, 0, 1); (0, 0, -1)].

(** Coordinates of a point in the plane with axes u and n x u. *)
Definition plane_coords (u n : zvec) (p : zvec) : Z * Z := (zdot p u, zdot p (zcross n u)).

(** Twice the signed area of a triangle of points of a plane normal to n, seen from the side
    to which n points. *)
Definition zorient3 (n a b c : zvec) : Z := zdot n (zcross (zminus3 b a) (zminus3 c a)).
End Integers.

(** The arithmetics of [GridSpec.grid] with their square root and the literal 1. *)
Inductive grid3 : forall E : Env, (@F E -> @F E) -> @F E -> (@F E -> Q -> Prop) -> Z -> Z -> Prop :=
| Grid3_exact maxid side : (1 <= side <= 2 ^ 26)%Z -> grid3 (envQ maxid) qsqrt 1%Q Qeq (2 ^ 40) side
| Grid3_f64 maxid k : (0 <= k <= 12)%Z ->
    grid3 (sf_env 53 1024 maxid) (sf_sqrt 53 1024) (sf_one 53 1024) (sf_is 53 1024) (2 ^ 40) (2 ^ k)
| Grid3_f32 maxid k : (0 <= k <= 5)%Z ->
    grid3 (sf_env 24 128 maxid) (sf_sqrt 24 128) (sf_one 24 128) (sf_is 24 128) (2 ^ 13) (2 ^ k).

(** The 3d vertices [vs] and the normal [nv] hold the integer points [l] and the unit vector
    [n], both along an axis; the first two points differ by a power of two along the axis u,
    which is orthogonal to n; the plane coordinates of the points fit in a grid of the
    arithmetic. *)
Record on_grid3 {E : Env} (sqrt_ : F -> F) (one : F) (vs : list (F * F * F)) (nv : F * F * F)
    (l : list zvec) (u n : zvec) (bound : Z) : Prop := {
  g3_data : exists val side mx my, grid3 E sqrt_ one val bound side /\
    (let is3 v p := let '(x, y, z) := v in let '(a, b, c) := p in
       val x (inject_Z a) /\ val y (inject_Z b) /\ val z (inject_Z c) in
     Forall2 is3 vs l /\ is3 nv n) /\
    fits side (map (plane_coords u n) l) mx my;
  g3_axes : axis u /\ axis n /\ zdot u n = 0%Z;
  g3_first : exists p0 p1 rest k, l = p0 :: p1 :: rest /\ (0 <= k)%Z /\ zminus3 p0 p1 = zscale (2 ^ k) u;
  g3_bound : forall x y z, In (x, y, z) l -> (Z.abs x <= bound /\ Z.abs y <= bound /\ Z.abs z <= bound)%Z
}.
