(** * WitnessRound3d: points of an oblique plane, whose plane coordinates are rounded. *)

From Coq Require Import ZArith NArith List Bool QArith Qreals Reals Lra Lia SpecFloat.
From Verif Require Import Base Arith F64 Types Triangulation Constrained Spec GridSpec InputSpec Space3d Spec3d SpecRound3d WitnessSep Witness3d.
Import ListNotations.

(** Six points of the plane x + y + z = 1. *)
Definition lo : list zvec := [(1,0,0); (0,1,0); (5,-2,-2); (-3,1,3); (2,2,-3); (-4,6,-1)]%Z.
Definition lo_v := map pt3 lo.
Definition no_v : spec_float * spec_float * spec_float := v3_normalize (Vertex3d := dvec3) (pt3 (1, 1, 1)%Z).
(** The exact values of these floats. *)
Definition qvec_of (v : spec_float * spec_float * spec_float) : qvec :=
  let '(x, y, z) := v in (sf_value x, sf_value y, sf_value z).
Definition lo_q : list qvec := map (fun p : zvec => let '(x, y, z) := p in (inject_Z x, inject_Z y, inject_Z z)) lo.
Definition no_q : qvec := qvec_of no_v.

Definition lo_2 : list (spec_float * spec_float) :=
  match transform_to_2d (V := dvec3) lo_v no_v with Ret l => l | _ => [] end.
Definition lo_p : list point := map (scale_pt 60) (map (upt 60) lo_2).

Lemma lo_transform : transform_to_2d (V := dvec3) lo_v no_v = Ret lo_2.
Proof. vm_compute. reflexivity. Qed.

Definition lo_s : Z := 13859056439416079360.

Lemma lo_separated : separated (E := env64) lo_2 lo_p (2 ^ 40).
Proof.
  exists (sf_is 53 1024), (1 # 2 ^ 52), (inject_Z lo_s * / inject_Z (2 ^ 60)).
  split; [exact (Prec_f64 u32_max)|]. split; [apply (verts_ok 53 1024 60); vm_compute; reflexivity|].
  split; [apply smallb_ok; vm_compute; reflexivity|].
  split; [apply (boxb_ok 60 _ (-8152386140832988160) (-3765425866358159872)); vm_compute; reflexivity|].
  apply (sepb_ok 60 (2 ^ 52)); [reflexivity|]. vm_compute. reflexivity.
Qed.

Lemma lo_values : Forall2 (vertex_is (E := env64) (sf_is 53 1024)) lo_2 lo_p.
Proof. apply (verts_ok 53 1024 60). vm_compute. reflexivity. Qed.

Lemma lo_vectors : Forall2 (vec_is 53 1024) lo_v lo_q /\ vec_is 53 1024 no_v no_q.
Proof.
  split; [repeat constructor|]; vm_compute; repeat split.
Qed.

Local Open Scope R_scope.
Lemma lo_moderate : moderate3 lo_q no_q 6.
Proof.
  split.
  - change (IZR (2 ^ 27)) with 134217728. lra.
  - intros x y z H. simpl in H.
    decompose [or] H; try contradiction; match goal with Q : (_, _, _) = (x, y, z) |- _ => injection Q as <- <- <- end;
      unfold Q2R; simpl; repeat split; apply Rabs_le; lra.
  - unfold no_q. set (q := no_v). vm_compute in q. unfold q. clear q. unfold qvec_of, rvec_of, rdot.
    rewrite <- !Q2R_mult, <- !Q2R_plus. apply Rle_trans with (Q2R (3 # 2)); [|unfold Q2R; simpl; lra].
    apply Qle_Rle. vm_compute. discriminate.
  - do 3 eexists. split; [reflexivity|]. unfold rdist3, rdot, rminus, rvec_of, Q2R; simpl.
    assert (/ IZR (2 ^ 80) <= / 1) by (apply Rinv_le_contravar; [lra|apply IZR_le; discriminate]). simpl in *. lra.
Qed.

(** The first edge is orthogonal to the rounded normal. *)
Lemma lo_orthogonal : nearly_orthogonal lo_q no_q 0.
Proof.
  intros a b rest E. injection E as <- <- _. unfold no_q. set (q := no_v). vm_compute in q. unfold q. clear q.
  unfold qvec_of, rvec_of, rdot, rminus. rewrite Rmult_0_l.
  match goal with |- Rabs ?X <= 0 => replace X with 0; [rewrite Rabs_R0; lra|] end.
  unfold Q2R; simpl. lra.
Qed.

Definition out_lo : list (N * N * N) := [(1, 5, 4); (0, 4, 2); (1, 3, 5); (0, 3, 1); (0, 2, 3); (0, 1, 4)]%N.
Lemma lo_dt : triangulation_from_3d_planar_vertices (E := env64) (V := dvec3) 100 1 lo_v no_v = Ret out_lo.
Proof. vm_compute. reflexivity. Qed.

Definition cs_lo : list edge := [Edge 0 1; Edge 2 3; Edge 3 4]%N.
Definition cout_lo : list (N * N * N) := [(4, 1, 3); (0, 3, 1); (0, 1, 4); (0, 4, 2); (0, 2, 3); (4, 3, 5)]%N.
Lemma lo_cdt : constrained_triangulation_from_3d_planar_vertices (E := env64) (V := dvec3) 400 1 lo_v no_v cs_lo = Ret cout_lo.
Proof. vm_compute. reflexivity. Qed.
