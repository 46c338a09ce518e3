(** * SpecTilesArea: the triangles of one polygon.

    Definitions only; no proof. *)

From Coq Require Import ZArith NArith List Bool QArith.
From Verif Require Import Types Spec SpecDomain SpecWinding.
Import ListNotations.

Section Parts.
Variable at_ : N -> point.

(** The center of gravity of a triangle. *)
Definition center (t : N * N * N) : point :=
  let '(a, b, c) := t in
  (((1#3) * (fst (at_ a) + fst (at_ b) + fst (at_ c)))%Q, ((1#3) * (snd (at_ a) + snd (at_ b) + snd (at_ c)))%Q).

(** The triangles whose center is inside the polygon [P]. *)
Definition in_tile (P : list edge) (out : list (N * N * N)) : list (N * N * N) :=
  filter (fun t => Z.eqb (winding at_ P (center t)) 1%Z) out.
End Parts.
