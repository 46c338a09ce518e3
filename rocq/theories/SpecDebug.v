(** * SpecDebug: vocabulary for the debug recording.  Definitions only. *)

From Coq Require Import NArith List Bool.
From Verif Require Import Base Arith Types Triangulation Debug.
Import ListNotations.
Local Open Scope N_scope.

(** What a configuration asks for. *)
Inductive phase_wanted : phase_record -> phase -> Prop :=
| Any_phase p : phase_wanted PAll p
| That_phase p : phase_wanted (PIn p) p
| One_of_phases ps p : In p ps -> phase_wanted (PInAny ps) p.

Inductive step_wanted : steps_record -> N -> Prop :=
| Any_step s : step_wanted SAll s
| Step_from a s : a <= s -> step_wanted (SFrom a) s
| Step_until b s : s <= b -> step_wanted (SUntil b) s
| Step_between a b s : a <= s <= b -> step_wanted (SBetween a b) s.

Definition wanted {E : Env} (cfg : debug_config) (sn : snapshot) : Prop :=
  phase_wanted (cfg_phase cfg) (sn_phase sn) /\ step_wanted (cfg_steps cfg) (sn_step sn).

(** [l'] are the elements of [l] with the property, in the same order. *)
Inductive selects {A : Type} (P : A -> Prop) : list A -> list A -> Prop :=
| Sel_nil : selects P [] []
| Sel_keep x l l' : P x -> selects P l l' -> selects P (x :: l) (x :: l')
| Sel_drop x l l' : ~ P x -> selects P l l' -> selects P (x :: l) l'.

(** The configuration which records everything and ends at the same step. *)
Definition record_all (cfg : debug_config) : debug_config := Config PAll SAll (cfg_force_end cfg).

(** The same configuration without a forced end; with a forced end at step k. *)
Definition unforced (cfg : debug_config) : debug_config := Config (cfg_phase cfg) (cfg_steps cfg) None.
Definition forced (cfg : debug_config) (k : N) : debug_config := Config (cfg_phase cfg) (cfg_steps cfg) (Some k).

(** Phases which show a change of the triangulation, as opposed to its state after a stage. *)
Definition changes (p : phase) : Prop :=
  p = FirstVertexInsertion \/ p = SplitTriangle \/ p = SplitQuad \/
  p = DelaunayRestoreSwapQuadDiagonals \/ p = ConstrainedSwapQuadDiagonals.

(** Inserting only the first [k] vertices that follow the first one in bin order. *)
Definition wrap_first {E : Env} (k : nat) (fuel : nat) (bins : N) (vs : list vertex) (m : option (list N)) : res state :=
  let* order := bin_sort bins vs in
  match order with
  | [] => Panic
  | first :: rest =>
      let ts := create_initial_triangles first in
      let* l := last_id ts in
      foldM (insert_vertex fuel vs) (firstn k rest) (St ts l m)
  end.

(** The snapshots of the steps before [k]. *)
Definition snapshots_before {E : Env} (k : N) (c : debug_context) : list snapshot :=
  filter (fun sn => sn_step sn <? k) (x_snapshots c).

Definition is_change (p : phase) : bool :=
  match p with
  | FirstVertexInsertion | SplitTriangle | SplitQuad | DelaunayRestoreSwapQuadDiagonals | ConstrainedSwapQuadDiagonals => true
  | _ => false
  end.

(** The last change that a list of snapshots shows up to step [i] leaves the triangles [ts]. *)
Definition shown_after {E : Env} (i : N) (shots : list snapshot) (ts : list tri) : Prop :=
  exists before sn, filter (fun sn => (sn_step sn <=? i) && is_change (sn_phase sn)) shots = before ++ [sn] /\
    sn_triangles sn = ts.
