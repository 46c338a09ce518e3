(** * InputSpec: the inputs on which the crate decides every geometric test correctly.

    Definitions only; no proof.  Two families: integer points on a small grid ([on_grid] of
    [GridSpec.v]), and points in general enough position: no three of them nearly aligned, no
    four of them nearly on a circle, no two of their coordinates nearly equal, where "nearly"
    is a small multiple of the machine epsilon relative to the extent of the whole input. *)

From Coq Require Import ZArith NArith List QArith Qabs.
From Verif Require Import Arith F64 QEnv Spec GridSpec.
Import ListNotations.
Local Open Scope Q_scope.

(** The in-circle determinant (as [zincircle] of [Spec.v]): zero iff the four points are on a
    circle or a line. *)
Definition qincircle (a b c d : point) : Q :=
  (fst a - fst d) * ((snd b - snd d) * sqdist c d - (snd c - snd d) * sqdist b d)
  - (snd a - snd d) * ((fst b - fst d) * sqdist c d - (fst c - fst d) * sqdist b d)
  + sqdist a d * ((fst b - fst d) * (snd c - snd d) - (fst c - fst d) * (snd b - snd d)).

(** The arithmetics, with their machine epsilon.  (The exact rationals are run with the
    tolerances of f64, hence its epsilon.) *)
Inductive precision : forall E : Env, (@F E -> Q -> Prop) -> Z -> Q -> Prop :=
| Prec_exact maxid : precision (envQ maxid) Qeq (2 ^ 40) (1 # 2 ^ 52)
| Prec_f64 maxid : precision (sf_env 53 1024 maxid) (sf_is 53 1024) (2 ^ 40) (1 # 2 ^ 52)
| Prec_f32 maxid : precision (sf_env 24 128 maxid) (sf_is 24 128) (2 ^ 13) (1 # 2 ^ 23).

(** [s] is the larger side of the bounding box of the points. *)
Definition extent (l : list point) (s : Q) : Prop :=
  exists mx my, 0 < s /\
    (forall p, In p l -> mx <= fst p <= mx + s /\ my <= snd p <= my + s) /\
    (exists p, In p l /\ fst p == mx) /\ (exists p, In p l /\ snd p == my) /\
    (exists p, In p l /\ (fst p == mx + s \/ snd p == my + s)).

(** The three points are aligned for an obvious reason: two of them coincide, or they are on
    a vertical or horizontal line. *)
Definition plainly_aligned (a b c : point) : Prop :=
  same_place a b \/ same_place b c \/ same_place a c \/
  (fst a == fst b /\ fst b == fst c) \/ (snd a == snd b /\ snd b == snd c).

(** [c] is one of the other two corners of the axis-parallel box of diagonal [a b]. *)
Definition box_corner (a b c : point) : Prop :=
  (fst c == fst a /\ snd c == snd b) \/ (fst c == fst b /\ snd c == snd a).

(** Well separated points of extent [s]. *)
Record well_separated (eps s : Q) (l : list point) : Prop := {
  ws_x : forall a b, In a l -> In b l -> fst a == fst b \/ 40 * eps * s <= Qabs (fst a - fst b);
  ws_y : forall a b, In a l -> In b l -> snd a == snd b \/ 40 * eps * s <= Qabs (snd a - snd b);
  ws_line : forall a b c, In a l -> In b l -> In c l ->
    plainly_aligned a b c \/ 24 * eps * (s * s) <= Qabs (orient a b c);
  ws_circle : forall a b c d, In a l -> In b l -> In c l -> In d l ->
    clockwise d a b -> clockwise b a c ->
    (box_corner a b c /\ box_corner a b d) \/ 192 * eps * (s * s * (s * s)) <= Qabs (qincircle a b c d)
}.

(** The vertex list [vs] holds the points [l], which are well separated. *)
Definition separated {E : Env} (vs : list vertex) (l : list point) (bound : Z) : Prop :=
  exists val eps s, precision E val bound eps /\
    Forall2 (vertex_is val) vs l /\
    (forall p, In p l -> Qabs (fst p) < inject_Z (2 ^ 58) /\ Qabs (snd p) < inject_Z (2 ^ 58)) /\
    extent l s /\ well_separated eps s l.

(** The position of vertex [v] of the point list [l]. *)
Definition qpoint (l : list point) (v : N) : point :=
  let p := nth (N.to_nat v) l (0, 0) in (fst p, snd p).

(** The inputs of the theorems: the vertices [vs], of positions [at_].  [bound] is the
    largest number of bins per row considered. *)
Inductive exact_input {E : Env} (vs : list vertex) : (N -> point) -> Z -> Prop :=
| Input_grid l bound : on_grid vs l bound -> exact_input vs (zpoint l) bound
| Input_separated l bound : separated vs l bound -> exact_input vs (qpoint l) bound.
