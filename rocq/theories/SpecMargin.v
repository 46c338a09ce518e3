(** * SpecMargin: vocabulary for the circumcircle checker with rounding.  Definitions only. *)

From Coq Require Import ZArith NArith List QArith Reals SpecFloat.
From Verif Require Import Base Spec GridSpec SpecQuality SpecRound3d.
Import ListNotations.
Local Open Scope R_scope.

(** Integer coordinates up to [G] considered, for the two formats. *)
Inductive checker_range : Z -> Z -> Z -> Prop :=
| Checker_f64 G : (1 <= G <= 2 ^ 14)%Z -> checker_range 53 1024 G
| Checker_f32 G : (1 <= G <= 2 ^ 6)%Z -> checker_range 24 128 G.

(** The vertices [vs] of finite floats hold the integer points [l], of coordinates up to [G]. *)
Definition int_points (prec emax G : Z) (vs : list (spec_float * spec_float)) (l : list (Z * Z)) : Prop :=
  Forall2 (fun v p => sf_is prec emax (fst v) (inject_Z (fst p)) /\ sf_is prec emax (snd v) (inject_Z (snd p))) vs l /\
  forall p, In p l -> (Z.abs (fst p) <= G /\ Z.abs (snd p) <= G)%Z.

(** Their real positions. *)
Definition real_points (l : list (Z * Z)) : list rpoint := map (fun p => (IZR (fst p), IZR (snd p))) l.

(** [v] is not too near the circle through [a], [b] and [c]: the squared distance from the
    center differs from the squared radius by 256 rounding errors of the squares of the radius
    and of the largest coordinate. *)
Definition clear_of_circle (prec G : Z) (a b c v : rpoint) : Prop :=
  forall o, rsqdist o a = rsqdist o b -> rsqdist o a = rsqdist o c ->
    256 * roundoff prec * (rsqdist o a + IZR G * IZR G) <= Rabs (rsqdist o v - rsqdist o a).

(** All the corners are clear of the circles of the other triangles. *)
Definition clear_mesh (prec G : Z) (vs : list rpoint) (ts : list (N * N * N)) : Prop :=
  forall a b c t v, In (a, b, c) ts -> In t ts -> tri_corner t v -> ~ tri_corner (a, b, c) v ->
    clear_of_circle prec G (rat vs a) (rat vs b) (rat vs c) (rat vs v).
