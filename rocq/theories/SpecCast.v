(** * SpecCast: comparing numbers of two floating point formats.

    Definitions only; no proof.  A format is given by its precision and maximal exponent: f64 is
    (53, 1024), f32 is (24, 128); [sf_is] of [GridSpec.v] gives the value of a finite number. *)

From Coq Require Import ZArith List QArith Qabs SpecFloat.
From Verif Require Import GridSpec Spec3d.
Import ListNotations.

Section Formats.
Variables p1 e1 p2 e2 : Z.

(** The number [x] of the first format and the number [y] of the second one are the same. *)
Definition same_number (x y : spec_float) : Prop :=
  (exists q, sf_is p1 e1 x q /\ sf_is p2 e2 y q) \/
  (exists s, x = S754_infinity s /\ y = S754_infinity s) \/ (x = S754_nan /\ y = S754_nan).

(** [y] is the number of the second format nearest to [x]: no number of the second format is
    closer; or [x] is beyond all of them and [y] is the infinity of its sign. *)
Definition nearest_number (x y : spec_float) : Prop :=
  (exists q r, sf_is p1 e1 x q /\ sf_is p2 e2 y r /\
     forall z t, sf_is p2 e2 z t -> (Qabs (q - r) <= Qabs (q - t))%Q) \/
  (exists q s, sf_is p1 e1 x q /\ y = S754_infinity s /\ (if s then q < 0 else 0 < q)%Q /\
     forall z t, sf_is p2 e2 z t -> (Qabs t < Qabs q)%Q) \/
  (exists s, x = S754_infinity s /\ y = S754_infinity s) \/ (x = S754_nan /\ y = S754_nan).
End Formats.

(** Both coordinates of a vertex. *)
Definition both (r : spec_float -> spec_float -> Prop) (v w : spec_float * spec_float) : Prop :=
  r (fst v) (fst w) /\ r (snd v) (snd w).

(** The vertices are pairs of numbers of the format. *)
Definition floats (p e : Z) (vs : list (spec_float * spec_float)) : Prop :=
  forall v, In v vs -> valid_binary p e (fst v) = true /\ valid_binary p e (snd v) = true.

(** Planar 3d input held by vectors of the format (p, e): as [on_grid3] of [Spec3d.v] — integer
    points [l] in a plane normal to the axis [n], the first two of which differ by a power of
    two along the axis [u] — the plane coordinates being in a square of side 2^k, k <= kmax. *)
Record vectors_on_grid (p e kmax : Z) (vs : list (spec_float * spec_float * spec_float))
    (nv : spec_float * spec_float * spec_float) (l : list zvec) (u n : zvec) : Prop := {
  vg_data : let is3 v q := let '(x, y, z) := v in let '(a, b, c) := q in
      sf_is p e x (inject_Z a) /\ sf_is p e y (inject_Z b) /\ sf_is p e z (inject_Z c) in
    Forall2 is3 vs l /\ is3 nv n;
  vg_fits : exists k mx my, (0 <= k <= kmax)%Z /\ fits (2 ^ k) (map (plane_coords u n) l) mx my;
  vg_axes : axis u /\ axis n /\ zdot u n = 0%Z;
  vg_first : exists p0 p1 rest k, l = p0 :: p1 :: rest /\ (0 <= k)%Z /\ zminus3 p0 p1 = zscale (2 ^ k) u;
  vg_bound : forall x y z, In (x, y, z) l -> (Z.abs x <= 2 ^ 13 /\ Z.abs y <= 2 ^ 13 /\ Z.abs z <= 2 ^ 13)%Z
}.
