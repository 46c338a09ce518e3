(** * Witness3d: concrete planar 3d inputs. *)

From Coq Require Import ZArith NArith List Bool QArith SpecFloat Lia.
From Verif Require Import Base Arith F64 QEnv Types Triangulation Constrained Spec GridSpec Space3d Spec3d Witness.
Import ListNotations.

Definition pt3 (p : zvec) : spec_float * spec_float * spec_float :=
  let '(x, y, z) := p in (sf_of_Z 53 1024 x, sf_of_Z 53 1024 y, sf_of_Z 53 1024 z).
Definition pt3_32 (p : zvec) : spec_float * spec_float * spec_float :=
  let '(x, y, z) := p in (sf_of_Z 24 128 x, sf_of_Z 24 128 y, sf_of_Z 24 128 z).

(** glam's [DVec3]. *)
Definition dvec3 : Vertex3d spec_float := env_vec3 (E := env64) (sf_sqrt 53 1024) (sf_one 53 1024).

Definition dt3d (fuel : nat) (bins : N) (l : list zvec) (n : zvec) : res (list (N * N * N)) :=
  triangulation_from_3d_planar_vertices (E := env64) (V := dvec3) fuel bins (map pt3 l) (pt3 n).
Definition cdt3d (fuel : nat) (bins : N) (l : list zvec) (n : zvec) (cs : list (N * N)) : res (list (N * N * N)) :=
  constrained_triangulation_from_3d_planar_vertices (E := env64) (V := dvec3) fuel bins (map pt3 l) (pt3 n)
    (map (fun p => Edge (fst p) (snd p)) cs).

(** Seven points of the plane y = 7, seen from above. *)
Definition l3 : list zvec := [(8,7,0); (0,7,0); (0,7,-8); (8,7,-8); (3,7,-2); (6,7,-5); (1,7,-5)]%Z.
Definition n3 : zvec := (0, 1, 0)%Z.
Definition u3 : zvec := (1, 0, 0)%Z.

Lemma l3_fits : fits 8 (map (plane_coords u3 n3) l3) 0 0.
Proof.
  split; [|split; [|split]].
  - intros p Hp. simpl in Hp. intuition (subst; simpl; lia).
  - exists (0, 0)%Z. simpl. auto.
  - exists (0, 0)%Z. simpl. auto.
  - exists (8, 0)%Z. simpl. auto.
Qed.

Lemma l3_axes : axis u3 /\ axis n3 /\ zdot u3 n3 = 0%Z.
Proof. unfold axis, u3, n3. simpl. auto 8. Qed.

Lemma l3_grid64 : on_grid3 (E := env64) (sf_sqrt 53 1024) (sf_one 53 1024) (map pt3 l3) (pt3 n3) l3 u3 n3 (2 ^ 40).
Proof.
  split.
  - exists (sf_is 53 1024), (2 ^ 3)%Z, 0%Z, 0%Z. split; [apply (Grid3_f64 u32_max 3); lia|]. split; [split|exact l3_fits].
    + apply f2_map. intros p Hp. simpl in Hp.
      decompose [or] Hp; try contradiction; subst; vm_compute; repeat split; reflexivity.
    + vm_compute; repeat split; reflexivity.
  - exact l3_axes.
  - eexists _, _, _, 3%Z. split; [reflexivity|]. split; [lia|reflexivity].
  - intros x y z Hp. simpl in Hp. decompose [or] Hp; try contradiction; match goal with Q : (_, _, _) = (x, y, z) |- _ => injection Q as <- <- <- end; vm_compute; repeat split; discriminate.
Qed.

Lemma l3_grid32 : on_grid3 (E := env32) (sf_sqrt 24 128) (sf_one 24 128) (map pt3_32 l3) (pt3_32 n3) l3 u3 n3 (2 ^ 13).
Proof.
  split.
  - exists (sf_is 24 128), (2 ^ 3)%Z, 0%Z, 0%Z. split; [apply (Grid3_f32 u32_max 3); lia|]. split; [split|exact l3_fits].
    + apply f2_map. intros p Hp. simpl in Hp.
      decompose [or] Hp; try contradiction; subst; vm_compute; repeat split; reflexivity.
    + vm_compute; repeat split; reflexivity.
  - exact l3_axes.
  - eexists _, _, _, 3%Z. split; [reflexivity|]. split; [lia|reflexivity].
  - intros x y z Hp. simpl in Hp. decompose [or] Hp; try contradiction; match goal with Q : (_, _, _) = (x, y, z) |- _ => injection Q as <- <- <- end; vm_compute; repeat split; discriminate.
Qed.

Lemma l3_dt : dt3d 1000 2 l3 n3 =
  Ret [(2, 3, 5); (3, 0, 5); (0, 1, 4); (5, 0, 4); (2, 5, 6); (6, 5, 4); (6, 4, 1); (2, 6, 1)]%N.
Proof. vm_compute. reflexivity. Qed.

(** The constraint from 0 to 2 is not an edge of the unconstrained result. *)
Lemma l3_cdt : cdt3d 1000 2 l3 n3 [(0, 2); (1, 4)]%N =
  Ret [(0, 1, 4); (6, 0, 4); (6, 4, 1); (2, 6, 1); (2, 3, 5); (2, 5, 0); (3, 0, 5); (2, 0, 6)]%N.
Proof. vm_compute. reflexivity. Qed.

(** The same points, after a copy of the second one: the direction of the first axis is NaN. *)
Definition l3b : list zvec := (0, 7, 0)%Z :: (0, 7, 0)%Z :: (8, 7, 0)%Z :: skipn 2 l3.

Lemma equal_first_vertices :
  exists l n a b c out, (forall p, In p l -> zdot p n = 7%Z) /\ zdot n n = 1%Z /\ dt3d 1000 2 l n = Ret out /\
    In (a, b, c) out /\ nth (N.to_nat a) l (0, 0, 0)%Z = nth (N.to_nat b) l (0, 0, 0)%Z.
Proof.
  exists l3b, n3, 0%N, 1%N, 2%N. eexists.
  split; [intros p Hp; simpl in Hp; decompose [or] Hp; try contradiction; subst; reflexivity|].
  split; [reflexivity|]. split; [vm_compute; reflexivity|]. split; [simpl; tauto|reflexivity].
Qed.

(** Nine points of a lattice in the plane of normal (1, 2, 1), away from the origin; the unit
    normal is the one glam computes. *)
Definition l3o : list zvec :=
  map (fun p => let '(i, j) := p in (100 + i, 33 + j, 77 - i - 2 * j)%Z)
    [(0, 0); (0, 1); (0, 2); (1, 0); (1, 1); (1, 2); (2, 0); (2, 1); (2, 2)]%Z.
Definition n3o : zvec := (1, 2, 1)%Z.

Lemma oblique_flat : exists l n a b c out, (forall p, In p l -> zdot p n = 243%Z) /\ NoDup l /\
  triangulation_from_3d_planar_vertices (E := env64) (V := dvec3) 100 1 (map pt3 l)
    (v3_normalize (Vertex3d := dvec3) (pt3 n)) = Ret out /\ In (a, b, c) out /\
  zorient3 n (nth (N.to_nat a) l (0, 0, 0)%Z) (nth (N.to_nat b) l (0, 0, 0)%Z) (nth (N.to_nat c) l (0, 0, 0)%Z) = 0%Z.
Proof.
  exists l3o, n3o, 0%N, 2%N, 1%N. eexists. split; [|split; [|split; [|split]]].
  - intros p Hp. simpl in Hp. decompose [or] Hp; try contradiction; subst; reflexivity.
  - repeat constructor; simpl; intuition discriminate.
  - vm_compute. reflexivity.
  - simpl. tauto.
  - reflexivity.
Qed.
