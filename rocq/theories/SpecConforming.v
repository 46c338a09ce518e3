(** * SpecConforming: triangles that fill polygons side by side without gaps or cracks.
    Definitions only; no proof. *)

From Coq Require Import ZArith NArith List QArith.
From Verif Require Import Types Spec SpecCount SpecDomain SpecWinding SpecArea.
Import ListNotations.
Local Open Scope N_scope.

(** All up to duplicate vertices:
    - each side of each polygon is an edge of a triangle on its right;
    - an edge is in the border of the triangles exactly when it is a side of a polygon and no polygon
      has the same side in the opposite direction: along a common side the triangles meet edge to edge;
    - a vertex, of those with numbers less than [n], is used exactly when it is a corner of a polygon
      or strictly inside one. *)
Definition conforming (at_ : N -> point) (n : N) (out : list (N * N * N)) (polys : list (list edge)) : Prop :=
  (forall e, In e (concat polys) -> exists u v, In (u, v) (directed_edges out) /\ along_constraint at_ u v e) /\
  (forall u v, In (u, v) (directed_edges out) ->
     (In (u, v) (border_edges out) <->
      exists e, In e (concat polys) /\ along_constraint at_ u v e /\ ~ exists f, In f (concat polys) /\ along_constraint at_ v u f)) /\
  (forall v, v < n ->
     ((exists t c, In t out /\ tri_corner t c /\ same_place (at_ c) (at_ v)) <->
      exists P, In P polys /\ ((exists e, In e P /\ same_place (at_ (efrom e)) (at_ v)) \/
        (~ on_constraint at_ P (at_ v) /\ winding at_ P (at_ v) = 1%Z)))).
