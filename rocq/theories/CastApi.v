(** * CastApi: the entry points on [Vec2] and [DVec2] vertices. *)

From Coq Require Import ZArith NArith List Bool Lia QArith SpecFloat.
From Flocq Require Import Core.Core IEEE754.BinarySingleNaN.
From Verif Require Import Base Arith F64 QEnv GridSpec InputSpec Spec Types Triangulation Constrained Input2d SpecCast Cast GridApi ApiGrid GridCdt.
Import ListNotations.
Local Open Scope Z_scope.

Definition vlike {E : Env} (v w : vertex) : Prop := like (vx v) (vx w) /\ like (vy v) (vy w).

Lemma sf_zero_is p e (G : Prec_gt_0 p) s q : sf_is p e (S754_zero s) q -> forall s', sf_is p e (S754_zero s') q.
Proof. intros (_ & _ & K) s'. now repeat split. Qed.

Lemma like_sf p e maxid x y q : like (E := sf_env p e maxid) x y -> sf_is p e y q -> sf_is p e x q.
Proof.
  intros [-> |(Hx & Hy)] K; auto. destruct K as (_ & _ & K).
  assert (Zq : (0 == q)%Q) by (destruct Hy as [-> | ->]; exact K).
  destruct Hx as [-> | ->]; repeat split; exact Zq.
Qed.

Lemma like_Q maxid x y q : like (E := envQ maxid) x y -> (y == q)%Q -> (x == q)%Q.
Proof.
  intros [-> |(Hx & Hy)] K; auto. rewrite <- K. destruct Hx as [-> | ->], Hy as [-> | ->]; reflexivity.
Qed.

Lemma input_like {E : Env} (vs ws : list vertex) at_ bound :
  Forall2 vlike vs ws -> exact_input ws at_ bound -> exact_input vs at_ bound.
Proof.
  intros S H. destruct H as [l bound H|l bound H].
  - apply Input_grid. destruct H as (val & side & mx & my & G & F2 & R). exists val, side, mx, my.
    split; auto. split; auto. revert S F2. 
    assert (T : forall x y q, like x y -> val y q -> val x q).
    { destruct G; [apply like_Q|apply like_sf|apply like_sf]. }
    apply F2_trans. intros x y z (A & B) (C & D). split; eapply T; eauto.
  - apply Input_separated. destruct H as (val & eps & s & G & F2 & R). exists val, eps, s.
    split; auto. split; auto. revert S F2.
    assert (T : forall x y q, like x y -> val y q -> val x q).
    { destruct G; [apply like_Q|apply like_sf|apply like_sf]. }
    apply F2_trans. intros x y z (A & B) (C & D). split; eapply T; eauto.
Qed.

Lemma read_like p1 e1 p2 e2 maxid : Prec_gt_0 p1 -> Prec_lt_emax p1 e1 -> Prec_gt_0 p2 -> Prec_lt_emax p2 e2 ->
  forall vs ws, Forall2 (both (same_number p1 e1 p2 e2)) vs ws ->
  Forall2 (vlike (E := sf_env p2 e2 maxid)) (map (read_as p2 e2) vs) ws.
Proof.
  intros G1 L1 G2 L2 vs ws S. apply F2_map. induction S; constructor; auto. destruct H as (A & B). split.
  - apply (same_like maxid p1 e1 p2 e2); auto.
  - apply (same_like maxid p1 e1 p2 e2); auto.
Qed.

Lemma widen_api maxid vs : floats 24 128 vs ->
  exists ws, Forall2 (both (same_number 24 128 53 1024)) vs ws /\ forall fuel bins cs,
    triangulation_from_vertices (E := sf_env 53 1024 maxid) (V := as_f64) fuel bins vs =
    triangulation_from_2d_vertices (E := sf_env 53 1024 maxid) fuel bins ws /\
    constrained_triangulation_from_vertices (E := sf_env 53 1024 maxid) (V := as_f64) fuel bins vs cs =
    constrained_triangulation_from_2d_vertices (E := sf_env 53 1024 maxid) fuel bins ws cs.
Proof. intros H. exists (map (read_as 53 1024) vs). split; [now apply widen|]. intros. split; reflexivity. Qed.

Lemma narrow_api maxid vs : floats 53 1024 vs ->
  exists ws, Forall2 (both (nearest_number 53 1024 24 128)) vs ws /\ forall fuel bins cs,
    triangulation_from_vertices (E := sf_env 24 128 maxid) (V := as_f32) fuel bins vs =
    triangulation_from_2d_vertices (E := sf_env 24 128 maxid) fuel bins ws /\
    constrained_triangulation_from_vertices (E := sf_env 24 128 maxid) (V := as_f32) fuel bins vs cs =
    constrained_triangulation_from_2d_vertices (E := sf_env 24 128 maxid) fuel bins ws cs.
Proof. intros H. exists (map (read_as 24 128) vs). split; [now apply narrow|]. intros. split; reflexivity. Qed.

Lemma own_api maxid p e : Prec_gt_0 p -> Prec_lt_emax p e -> forall vs, floats p e vs -> forall fuel bins cs,
    triangulation_from_vertices (E := sf_env p e maxid) (V := vec2_as p e) fuel bins vs =
    triangulation_from_2d_vertices (E := sf_env p e maxid) fuel bins vs /\
    constrained_triangulation_from_vertices (E := sf_env p e maxid) (V := vec2_as p e) fuel bins vs cs =
    constrained_triangulation_from_2d_vertices (E := sf_env p e maxid) fuel bins vs cs.
Proof.
  intros G L vs H fuel bins cs. pose proof (read_id p e G L vs H) as R.
  unfold triangulation_from_vertices, constrained_triangulation_from_vertices.
  change (map (@read (sf_env p e maxid) (vec2_as p e)) vs) with (map (read_as p e) vs). now rewrite R.
Qed.

(** The guarantees for exact inputs, for vertices of another format. *)
Lemma any_mesh {E : Env} (us : list vertex) at_ bound fuel bins cs : exact_input us at_ bound ->
  (2 * lenN us + 2 <= idmax)%N -> (4 * length us + 12 <= fuel)%nat ->
  (forall out, triangulation_from_2d_vertices fuel bins us = Ret out -> valid_mesh at_ (lenN us) out) /\
  (forall out, constrained_triangulation_from_2d_vertices fuel bins us cs = Ret out -> valid_mesh at_ (lenN us) out /\
     ((3 <= lenN us)%N -> noncrossing at_ cs -> forall c, In c cs -> ~ same_place (at_ (efrom c)) (at_ (eto c)) ->
        respects at_ (lenN us) out (efrom c) (eto c))).
Proof.
  intros G H F. split; [intros out Ho; exact (proj1 (grid_valid us at_ bound G H fuel bins out F Ho))|].
  intros out Ho. revert G H F Ho. intros G. pair_input G. intros H F Ho.
  split; [exact (grid_cdt_valid us px py bound G H fuel bins F cs out Ho)|].
  intros L Nc c Ic Sp. exact (proj1 (grid_cdt_edges us px py bound G H fuel bins F cs c out L Nc Ic Sp Ho)).
Qed.

Lemma mesh_api maxid p1 e1 p2 e2 : Prec_gt_0 p1 -> Prec_lt_emax p1 e1 -> Prec_gt_0 p2 -> Prec_lt_emax p2 e2 ->
  forall vs ws at_ bound fuel bins cs, Forall2 (both (same_number p1 e1 p2 e2)) vs ws ->
  exact_input (E := sf_env p2 e2 maxid) ws at_ bound -> (2 * lenN vs + 2 <= maxid)%N -> (4 * length vs + 12 <= fuel)%nat ->
  (forall out, triangulation_from_vertices (E := sf_env p2 e2 maxid) (V := vec2_as p2 e2) fuel bins vs = Ret out ->
     valid_mesh at_ (lenN vs) out) /\
  (forall out, constrained_triangulation_from_vertices (E := sf_env p2 e2 maxid) (V := vec2_as p2 e2) fuel bins vs cs = Ret out ->
     valid_mesh at_ (lenN vs) out /\
     ((3 <= lenN vs)%N -> noncrossing at_ cs -> forall c, In c cs -> ~ same_place (at_ (efrom c)) (at_ (eto c)) ->
        respects at_ (lenN vs) out (efrom c) (eto c))).
Proof.
  intros G1 L1 G2 L2 vs ws at_ bound fuel bins cs S X Hid Hf.
  pose proof (read_like p1 e1 p2 e2 maxid G1 L1 G2 L2 vs ws S) as R. pose proof (input_like _ _ _ _ R X) as X'.
  assert (Len : length (map (read_as p2 e2) vs) = length vs) by apply map_length.
  assert (LN : lenN (map (read_as p2 e2) vs) = lenN vs) by (unfold lenN; now rewrite Len).
  rewrite <- LN in *. rewrite <- Len in Hf.
  exact (any_mesh (E := sf_env p2 e2 maxid) (map (read_as p2 e2) vs) at_ bound fuel bins cs X' Hid Hf).
Qed.
