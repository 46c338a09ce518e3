(** * SpecBox: vertices between the corners of a box, number of bins.

    Definitions only; no proof. *)

From Coq Require Import NArith List QArith.
From Verif Require Import Spec.
Import ListNotations.

(** The number of bins per row of the default configuration for [n] vertices,
    src/triangulation.rs:27, 620-622: [n] to the power 0.5 / 2, rounded.  Here without the
    rounding of [powf]: [b - 1/2 <= n ^ (1/4) < b + 1/2]. *)
Definition default_bins (n b : N) : Prop := ((2 * b - 1) ^ 4 <= 16 * n < (2 * b + 1) ^ 4)%N.

(** [a], [b], [c], [d] are the corners of a box with sides parallel to the axes, in
    counter-clockwise order from the lower left one. *)
Definition box_corners (a b c d : point) : Prop :=
  (fst a < fst b /\ snd b == snd a /\ fst c == fst b /\ snd b < snd c /\ fst d == fst a /\ snd d == snd c)%Q.

(** [p] is in the box with lower left corner [a] and upper right corner [c], sides included. *)
Definition in_box (a c p : point) : Prop :=
  (fst a <= fst p <= fst c /\ snd a <= snd p <= snd c)%Q.
