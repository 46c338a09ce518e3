(** * SpecCdt: the vocabulary of the claims about the domain filter.

    Nothing here is used by the model. *)

From Coq Require Import NArith List Bool.
From Verif Require Import Base Arith Types Utils Infinite Triangulation Constrained.
Import ListNotations.
Local Open Scope N_scope.

Section Spec.
Context {E : Env}.

(** The triangles the filter must keep: those that can be reached from a triangle having a
    constrained edge among its own directed edges, by crossing edges that are not
    constrained in the direction of the triangle being left. *)
Inductive kept (ts : list tri) (cset : list edge) : N -> Prop :=
| kept_seed i t k :
    nthN ts i = Some t -> In (tedge t k) cset -> kept ts cset i
| kept_step i t k :
    kept ts cset i -> nthN ts i = Some t -> ~ In (tedge t k) cset -> tn t k <> NONE ->
    kept ts cset (tn t k).

(** The finite triangles among those whose ids are listed, in the order of the list. *)
Definition emitted (ts : list tri) (ids : list N) : list (N * N * N) :=
  flat_map (fun i => match nthN ts i with
                     | Some t => if tri_is_finite t then [tverts t] else []
                     | None => [] end) ids.

(** Every neighbor link is empty or designates a triangle of the mesh. *)
Definition links_ok (ts : list tri) : Prop :=
  forall i t k, nthN ts i = Some t -> tn t k = NONE \/ tn t k < lenN ts.

End Spec.
