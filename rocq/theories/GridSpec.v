(** * GridSpec: which arithmetics and which inputs the grid theorems speak about.

    Definitions only; no proof.  [numbers E val bound]: in the arithmetic [E], [val x q] says
    that the float [x] is a finite number of value [q]; integers up to [bound] in absolute
    value are handled exactly by every function of the crate. *)

From Coq Require Import ZArith NArith List Bool QArith SpecFloat.
From Verif Require Import Arith F64 QEnv Spec.
Import ListNotations.

(** The value of a finite IEEE number (0 for NaN and infinities, which [sf_is] excludes). *)
Definition sf_value (x : spec_float) : Q :=
  match x with
  | S754_finite s m e =>
      let n := if s then Zneg m else Zpos m in
      if (0 <=? e)%Z then inject_Z (n * 2 ^ e) else (n # Z.to_pos (2 ^ (- e)))
  | _ => 0%Q
  end.

(** [x] is a finite number of the format (precision [prec], maximal exponent [emax]) of
    value [q]. *)
Definition sf_is (prec emax : Z) (x : spec_float) (q : Q) : Prop :=
  valid_binary prec emax x = true /\ sf_is_finite x = true /\ (sf_value x == q)%Q.

(** The three arithmetics: exact rationals, IEEE binary64, IEEE binary32; any index type. *)
Inductive numbers : forall E : Env, (@F E -> Q -> Prop) -> Z -> Prop :=
| Num_exact maxid : numbers (envQ maxid) Qeq (2 ^ 40)
| Num_f64 maxid : numbers (sf_env 53 1024 maxid) (sf_is 53 1024) (2 ^ 40)
| Num_f32 maxid : numbers (sf_env 24 128 maxid) (sf_is 24 128) (2 ^ 13).

(** The sides of the integer grids on which they are exact. *)
Inductive grid : forall E : Env, (@F E -> Q -> Prop) -> Z -> Z -> Prop :=
| Grid_exact maxid side : (1 <= side <= 2 ^ 26)%Z -> grid (envQ maxid) Qeq (2 ^ 40) side
| Grid_f64 maxid k : (0 <= k <= 12)%Z -> grid (sf_env 53 1024 maxid) (sf_is 53 1024) (2 ^ 40) (2 ^ k)
| Grid_f32 maxid k : (0 <= k <= 5)%Z -> grid (sf_env 24 128 maxid) (sf_is 24 128) (2 ^ 13) (2 ^ k).

(** Coordinates on which the orientation and intersection tests are exact: any rational;
    integers up to 2^20 (f64) or 2^6 (f32).  [c x q]: the float [x] is such a coordinate, of
    value [q]. *)
Definition int_coord (prec emax b : Z) (x : spec_float) (q : Q) : Prop :=
  sf_is prec emax x q /\ exists z, (q == inject_Z z)%Q /\ (Z.abs z <= b)%Z.

Inductive exact_coords : forall E : Env, (@F E -> Q -> Prop) -> Prop :=
| Coords_exact maxid : exact_coords (envQ maxid) Qeq
| Coords_f64 maxid : exact_coords (sf_env 53 1024 maxid) (int_coord 53 1024 (2 ^ 20))
| Coords_f32 maxid : exact_coords (sf_env 24 128 maxid) (int_coord 24 128 (2 ^ 6)).

(** The same for the circumcircle test: integers up to 2^9 (f64) or 2^2 (f32). *)
Inductive exact_circle_coords : forall E : Env, (@F E -> Q -> Prop) -> Prop :=
| Circle_exact maxid : exact_circle_coords (envQ maxid) Qeq
| Circle_f64 maxid : exact_circle_coords (sf_env 53 1024 maxid) (int_coord 53 1024 (2 ^ 9))
| Circle_f32 maxid : exact_circle_coords (sf_env 24 128 maxid) (int_coord 24 128 (2 ^ 2)).

(** The vertex [v] is the point [p], with coordinates described by [c]. *)
Definition vertex_is {E : Env} (c : F -> Q -> Prop) (v : vertex) (p : point) : Prop :=
  c (vx v) (fst p) /\ c (vy v) (snd p).

(** The integer points fit in the square of side [side] whose lower left corner is
    (mx, my), and touch its left and lower sides and its right or upper side. *)
Definition fits (side : Z) (l : list (Z * Z)) (mx my : Z) : Prop :=
  (forall p, In p l -> (mx <= fst p <= mx + side)%Z /\ (my <= snd p <= my + side)%Z) /\
  (exists p, In p l /\ fst p = mx) /\ (exists p, In p l /\ snd p = my) /\
  (exists p, In p l /\ (fst p = mx + side \/ snd p = my + side)%Z).

(** The vertex list [vs] holds the integer points [l], which form a grid on which the
    arithmetic is exact.  [bound] is also the largest number of bins per row considered. *)
Definition on_grid {E : Env} (vs : list vertex) (l : list (Z * Z)) (bound : Z) : Prop :=
  exists val side mx my, grid E val bound side /\
    Forall2 (fun v p => val (vx v) (inject_Z (fst p)) /\ val (vy v) (inject_Z (snd p))) vs l /\
    fits side l mx my /\
    forall p, In p l -> (Z.abs (fst p) <= bound /\ Z.abs (snd p) <= bound)%Z.

(** The position of vertex [v] of the integer point list [l]. *)
Definition zpoint (l : list (Z * Z)) (v : N) : point :=
  let p := nth (N.to_nat v) l (0, 0)%Z in (inject_Z (fst p), inject_Z (snd p)).

(** The site of a vertex id: an input position, or one of the four directions left, up,
    right, down (src/infinite.rs:9-24). *)
Definition site_at {E : Env} (at_ : N -> point) (v : N) : site :=
  if (v <? idmax - 3)%N then Place (at_ v)
  else if (v =? idmax - 3)%N then Toward (-1, 0)%Q
  else if (v =? idmax - 2)%N then Toward (0, 1)%Q
  else if (v =? idmax - 1)%N then Toward (1, 0)%Q
  else Toward (0, -1)%Q.
