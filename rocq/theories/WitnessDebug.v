(** * WitnessDebug: a recorded constrained triangulation in f64. *)

From Coq Require Import ZArith NArith List Bool SpecFloat.
From Verif Require Import Base Arith Types Utils Infinite Triangulation Constrained F64 DTOut Refuted Witness Debug SpecDebug.
Import ListNotations.
Local Open Scope N_scope.

Lemma partway : match wrap_first (E := env64) 7 1000 2 (normalized (E := env64) (pts lw)) (Some (rangeN 0 7)) with
  | Ret s => match s_map s with
      | Some mapping =>
          match apply_constraints (E := env64) 1000 (normalized (E := env64) (pts lw)) (s_ts s) (firstn 1 cs_w) mapping with
          | Ret _ => true | _ => false end
      | None => false end
  | _ => false end = true.
Proof. vm_compute. reflexivity. Qed.

Lemma debug_case :
  let run cfg := d_constrained_triangulation_from_2d_vertices (E := env64) cfg 1000 2 (pts lw) cs_w in
  fst (run default_config) = Ret cdt_w /\
  map (fun sn => (sn_step sn, sn_phase sn, sn_event sn)) (x_snapshots (snd (run (Config PAll (SFrom 6) None)))) =
    [(6, SplitTriangle, Split 2); (6, DelaunayRestoreSwapQuadDiagonals, Snapshot);
     (6, DelaunayRestoreSwapQuadDiagonals, Snapshot); (6, BeforeConstraints, Snapshot);
     (7, ConstrainedSwapQuadDiagonals, Snapshot); (10, AfterConstraints, Snapshot); (10, FilterTriangles, Snapshot)] /\
  map (fun sn => (sn_step sn, sn_event sn)) (x_snapshots (snd (run (Config (PInAny [SplitQuad; SplitTriangle]) (SBetween 2 5) None)))) =
    [(2, Split 0); (3, Split 5); (4, Split 1); (5, Split 3)] /\
  fst (run (forced default_config 5)) = Ret [] /\
  map sn_step (x_snapshots (snd (run (forced default_config 5)))) = [0; 2; 3; 3; 4; 4; 5; 6; 6] /\
  fst (run (forced default_config 8)) = constrained_triangulation_from_2d_vertices (E := env64) 1000 2 (pts lw) [Edge 0 3] /\
  exists s mapping r, wrap_first (E := env64) 7 1000 2 (normalized (E := env64) (pts lw)) (Some (rangeN 0 7)) = Ret s /\ s_map s = Some mapping /\
    apply_constraints (E := env64) 1000 (normalized (E := env64) (pts lw)) (s_ts s) (firstn 1 cs_w) mapping = Ret r.
Proof.
  cbv zeta. split; [vm_compute; reflexivity|]. split; [vm_compute; reflexivity|]. split; [vm_compute; reflexivity|].
  split; [vm_compute; reflexivity|]. split; [vm_compute; reflexivity|]. split; [vm_compute; reflexivity|].
  pose proof partway as H.
  destruct (wrap_first (E := env64) 7 1000 2 (normalized (E := env64) (pts lw)) (Some (rangeN 0 7))) as [s| | |]; try discriminate.
  destruct (s_map s) as [mapping|] eqn:M; try discriminate.
  destruct (apply_constraints (E := env64) 1000 (normalized (E := env64) (pts lw)) (s_ts s) (firstn 1 cs_w) mapping) as [r| | |] eqn:A; try discriminate.
  exists s, mapping, r. auto.
Qed.

Lemma context_case :
  let cfg := Config (PIn AfterConstraints) (SFrom 6) None in
  exists c, d_constrained_triangulation_from_2d_vertices (E := env64) cfg 1000 2 (pts lw) cs_w = (Ret cdt_w, c) /\
    x_config c = cfg /\ x_step c = 10 /\ length (x_snapshots c) = 1%nat /\
    d_triangulation_from_2d_vertices (E := env64) cfg 1000 2 (firstn 2 (pts lw)) = (Ret [], default_context).
Proof.
  intros cfg.
  assert (R : fst (d_constrained_triangulation_from_2d_vertices (E := env64) cfg 1000 2 (pts lw) cs_w) = Ret cdt_w) by (vm_compute; reflexivity).
  exists (snd (d_constrained_triangulation_from_2d_vertices (E := env64) cfg 1000 2 (pts lw) cs_w)).
  split; [rewrite <- R; apply surjective_pairing|].
  split; [vm_compute; reflexivity|]. split; [vm_compute; reflexivity|].
  split; [vm_compute; reflexivity|]. reflexivity.
Qed.
