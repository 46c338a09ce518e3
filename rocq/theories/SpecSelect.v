(** * SpecSelect: the triangles of a list that directed edges select.

    Definitions only; no proof. *)

From Coq Require Import NArith List.
From Verif Require Import Types Spec.
Import ListNotations.

Section Select.
Variable dt : list (N * N * N).
Variable cs : list edge.

(** The directed edge from [a] to [b] belongs to a triangle of the list and its reverse to none. *)
Definition border (a b : N) : Prop := In (a, b) (directed_edges dt) /\ ~ In (b, a) (directed_edges dt).

(** The edge is one of [cs], in one direction or the other. *)
Definition drawn (a b : N) : Prop := In (Edge a b) cs \/ In (Edge b a) cs.

(** Every edge of [cs] is an edge of a triangle of the list, in one direction or the other. *)
Definition edges_already : Prop :=
  forall e, In e cs -> In (efrom e, eto e) (directed_edges dt) \/ In (eto e, efrom e) (directed_edges dt).

(** A triangle (given clockwise) is selected when it lies on the right of an edge of [cs], or when it
    shares with a selected triangle an edge which is not in [cs]. *)
Inductive selected : N * N * N -> Prop :=
| selected_right t a b : In t dt -> In (a, b) (tri_edges t) -> In (Edge a b) cs -> selected t
| selected_next s t a b : selected s -> In t dt -> In (a, b) (tri_edges s) -> In (b, a) (tri_edges t) ->
    ~ drawn a b -> selected t.
End Select.
