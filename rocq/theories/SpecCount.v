(** * SpecCount: the numbers in Euler's formula, independent of the model. *)

From Coq Require Import NArith List Bool QArith.
From Verif Require Import Spec.
Import ListNotations.
Local Open Scope N_scope.

(** The edges of the triangles that have a triangle on one side only: the directed edges whose
    reverse is no directed edge. *)
Definition border_edges (out : list (N * N * N)) : list (N * N) :=
  filter (fun e => negb (existsb (fun f => (fst f =? snd e) && (snd f =? fst e)) (directed_edges out)))
    (directed_edges out).

(** The vertices 0..n-1 are at exactly [k] different places: [k] of them are at pairwise different
    places, and each vertex is at the place of one of these. *)
Definition different_places (at_ : N -> point) (n k : N) : Prop :=
  exists l, N.of_nat (length l) = k /\ (forall v, In v l -> v < n) /\
    ForallOrdPairs (fun u v => ~ same_place (at_ u) (at_ v)) l /\
    forall v, v < n -> exists w, In w l /\ same_place (at_ w) (at_ v).

(** A line through the vertex v has all the vertices 0..n-1 on one side (or on it): v is on the
    border of their convex hull. *)
Definition on_hull (at_ : N -> point) (n v : N) : Prop :=
  exists dx dy, ~ (dx == 0 /\ dy == 0)%Q /\
    forall w, w < n -> (dx * (fst (at_ w) - fst (at_ v)) + dy * (snd (at_ w) - snd (at_ v)) <= 0)%Q.

(** The vertices on the border of the convex hull are at exactly [k] different places. *)
Definition hull_places (at_ : N -> point) (n k : N) : Prop :=
  exists l, N.of_nat (length l) = k /\ (forall v, In v l -> v < n /\ on_hull at_ n v) /\
    ForallOrdPairs (fun u v => ~ same_place (at_ u) (at_ v)) l /\
    forall v, v < n -> on_hull at_ n v -> exists w, In w l /\ same_place (at_ w) (at_ v).
