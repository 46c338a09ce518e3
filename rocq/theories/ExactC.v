(** * ExactC: exactness of the segment intersection tests used by the constrained
    triangulation. *)

From Coq Require Import NArith List Bool Lia QArith Lqa.
From Verif Require Import Base BaseFacts Arith Types Utils Infinite Geom Mesh Exact.
Import ListNotations.
Local Open Scope N_scope.

Section WithEnv.
Context {E : Env}.

Section Pos.
Variables px py : N -> Q.
Notation pos := (hpos px py).
Notation D a b c := (det (pos a) (pos b) (pos c)).

(** The open segments (or rays) a b and c d cross at a point interior to both. *)
Definition crosses (a b c d : N) : Prop :=
  (D a b c * D a b d < 0 /\ D c d a * D c d b < 0)%Q.
End Pos.

Record ExactC (vs : list vertex) (px py : N -> Q) : Prop := {
  XC_fin : forall a b c d va vb vc vd,
    nthN vs a = Some va -> nthN vs b = Some vb -> nthN vs c = Some vc -> nthN vs d = Some vd ->
    is_crossing (egdes_intersect (va, vb) (vc, vd)) = true <-> crosses px py a b c d;
  XC_semi : forall a b f k q va vb vf,
    nthN vs a = Some va -> nthN vs b = Some vb -> nthN vs f = Some vf ->
    infinite_vertex_local_quad_index k = Some q ->
    is_crossing (egdes_intersect (va, vb) (edge_from_semi_infinite_edge vf q)) = true <->
    crosses px py a b f k;
  XC_semi2 : forall f k q f' k' q' vf vf',
    nthN vs f = Some vf -> nthN vs f' = Some vf' ->
    infinite_vertex_local_quad_index k = Some q -> infinite_vertex_local_quad_index k' = Some q' ->
    is_crossing (egdes_intersect (edge_from_semi_infinite_edge vf q)
                                 (edge_from_semi_infinite_edge vf' q')) = true <->
    crosses px py f k f' k'
}.
End WithEnv.
