(** * WitnessCast: vertices of one format for a build with the other. *)

From Coq Require Import ZArith NArith List Bool QArith SpecFloat Lia.
From Verif Require Import Base Arith Types Triangulation Constrained F64 Spec GridSpec GridNum InputSpec Refuted Witness
  WitnessUnique Spec3d Space3d Witness3d Input2d SpecCast.
Import ListNotations.
Local Open Scope N_scope.

(** [Vec2] vertices, and the same numbers in f64. *)
Lemma lw_floats32 : floats 24 128 (pts32 lw).
Proof.
  intros v Hv. unfold pts32 in Hv. apply in_map_iff in Hv. destruct Hv as (p & <- & Hp). simpl in Hp.
  repeat (destruct Hp as [<-|Hp]; [split; vm_compute; reflexivity|]). destruct Hp.
Qed.

Lemma f2_maps {A B C} (P : B -> C -> Prop) (f : A -> B) (g : A -> C) l :
  (forall a, In a l -> P (f a) (g a)) -> Forall2 P (map f l) (map g l).
Proof.
  induction l as [|a l IH]; intros H; simpl; constructor; [apply H; now left|]. apply IH. intros b Hb. apply H. now right.
Qed.

Lemma lw_same : Forall2 (both (same_number 24 128 53 1024)) (pts32 lw) (pts lw).
Proof.
  apply f2_maps. intros p Hp. simpl in Hp.
  decompose [or] Hp; try contradiction; subst p; split; left;
    [exists (inject_Z 0)|exists (inject_Z 0)|exists (inject_Z 4)|exists (inject_Z 0)|exists (inject_Z 0)|exists (inject_Z 4)
    |exists (inject_Z 4)|exists (inject_Z 4)|exists (inject_Z 1)|exists (inject_Z 2)|exists (inject_Z 3)|exists (inject_Z 1)
    |exists (inject_Z 1)|exists (inject_Z 2)]; vm_compute; repeat split; reflexivity.
Qed.

Lemma lw_vec2 : exists t out, triangulation_from_vertices (E := env64) (V := as_f64) 100 2 (pts32 lw) = Ret (t :: out).
Proof. vm_compute. eexists _, _. reflexivity. Qed.

(** Four [DVec2] vertices: two of them are the same in f32. *)
Definition lclose : list (Z * Z) := [(0, 0); (0, 16777216); (16777216, 0); (16777217, 0)]%Z.


Lemma rounding_loses : exists l, NoDup l /\ floats 53 1024 (pts l) /\
  (exists t1 t2, triangulation_from_vertices (E := env64) (V := as_f64) 100 1 (pts l) = Ret [t1; t2]) /\
  exists t, triangulation_from_vertices (E := env32) (V := as_f32) 100 1 (pts l) = Ret [t].
Proof.
  exists lclose. split; [|split; [|split]].
  - repeat constructor; simpl; intuition discriminate.
  - intros v Hv. unfold pts in Hv. apply in_map_iff in Hv. destruct Hv as (p & <- & Hp). simpl in Hp.
    repeat (destruct Hp as [<-|Hp]; [split; vm_compute; reflexivity|]). destruct Hp.
  - eexists _, _. vm_compute. reflexivity.
  - eexists. vm_compute. reflexivity.
Qed.

(** [Vec3] vertices for an f64 build. *)
Lemma l3_vectors : vectors_on_grid 24 128 11 (map pt3_32 l3) (pt3_32 n3) l3 u3 n3.
Proof.
  split.
  - split; [|vm_compute; repeat split; reflexivity]. apply f2_map. intros p Hp. simpl in Hp.
    decompose [or] Hp; try contradiction; subst; vm_compute; repeat split; reflexivity.
  - exists 3%Z, 0%Z, 0%Z. split; [lia|exact l3_fits].
  - exact l3_axes.
  - eexists _, _, _, 3%Z. split; [reflexivity|]. split; [lia|reflexivity].
  - intros x y z Hp. simpl in Hp. decompose [or] Hp; try contradiction; match goal with Q : (_, _, _) = (x, y, z) |- _ => injection Q as <- <- <- end; vm_compute; repeat split; discriminate.
Qed.

Lemma l3_vec3 : exists t out,
  triangulation_from_3d_planar_vertices (E := env64) (V := vec3_as_f64) 100 2 (map pt3_32 l3) (pt3_32 n3) = Ret (t :: out).
Proof. vm_compute. eexists _, _. reflexivity. Qed.
