(** * DebugEnd: the debug context which a call returns. *)

From Coq Require Import NArith List Bool Lia Permutation.
From Verif Require Import Base BaseFacts Arith Types Utils Infinite Triangulation Constrained AnyDT DTOut Debug SpecDebug DebugFacts.
Import ListNotations.
Local Open Scope N_scope.

Section WithEnv.
Context {E : Env}.

Lemma push_fields p e ts ids nbs c : let c' := push_snapshot_event p e ts ids nbs c in
  x_config c' = x_config c /\ x_scale_factor c' = x_scale_factor c /\ x_x_min c' = x_x_min c /\ x_y_min c' = x_y_min c.
Proof. unfold push_snapshot_event. destruct (negb _); auto. destruct (record_step _ _); auto. Qed.

(** ** The configuration and the frame of the coordinates *)
Section Frame.
Variables (cfg : debug_config) (sc xm ym : F).
Definition framed (c : debug_context) : Prop :=
  x_config c = cfg /\ x_scale_factor c = sc /\ x_x_min c = xm /\ x_y_min c = ym.
Definition frame2 (c1 c2 : debug_context) : Prop := c1 = c2 /\ framed c1.

Lemma frame_push p e ts ids nbs c1 c2 : True -> frame2 c1 c2 ->
  frame2 (push_snapshot_event p e ts ids nbs c1) (push_snapshot_event p e ts ids nbs c2).
Proof.
  intros _ (-> & A & B & C & D0). split; auto. destruct (push_fields p e ts ids nbs c2) as (P1 & P2 & P3 & P4).
  unfold framed. rewrite P1, P2, P3, P4. auto.
Qed.
Lemma frame_advance c1 c2 : frame2 c1 c2 ->
  snd (advance_step c1) = snd (advance_step c2) /\ frame2 (fst (advance_step c1)) (fst (advance_step c2)).
Proof. intros (-> & H). split; auto. split; auto. Qed.
End Frame.

Lemma dt_frame cfg fuel bins vs nvs sc xm ym : 3 <= lenN vs -> normalize_vertices_coordinates vs = (nvs, sc, xm, ym) ->
  framed cfg sc xm ym (snd (d_triangulation_from_2d_vertices cfg fuel bins vs)).
Proof.
  intros H3 NV. rewrite dt_entry, (proj2 (N.ltb_ge _ _) H3), NV.
  apply (sim_inv (framed cfg sc xm ym)); [|repeat split].
  apply (sim_dt (frame2 cfg sc xm ym) (fun _ _ => True)); auto using frame_push, frame_advance.
Qed.

Lemma cdt_frame cfg fuel bins vs cs nvs sc xm ym : 3 <= lenN vs -> normalize_vertices_coordinates vs = (nvs, sc, xm, ym) ->
  framed cfg sc xm ym (snd (d_constrained_triangulation_from_2d_vertices cfg fuel bins vs cs)).
Proof.
  intros H3 NV. rewrite cdt_entry, (proj2 (N.ltb_ge _ _) H3), NV.
  apply (sim_inv (framed cfg sc xm ym)); [|repeat split]. apply sim_bind.
  - apply (sim_wrap (frame2 cfg sc xm ym) (fun _ _ => True)); auto using frame_push, frame_advance.
  - intros s. apply (sim_cdt_tail (frame2 cfg sc xm ym) (fun _ _ => True)); auto using frame_push, frame_advance.
Qed.

(** ** The last step *)
Definition at_step (f : option N) (k : N) (c : debug_context) : Prop := cfg_force_end (x_config c) = f /\ x_step c = k.
Definition step2 f k (c1 c2 : debug_context) : Prop := c1 = c2 /\ at_step f k c1.

Lemma step_push f k p e ts ids nbs c1 c2 : True -> step2 f k c1 c2 ->
  step2 f k (push_snapshot_event p e ts ids nbs c1) (push_snapshot_event p e ts ids nbs c2).
Proof. intros _ (-> & A & B). split; auto. unfold at_step. now rewrite push_config, push_step. Qed.

Lemma bind_inv {A B} (m : D A) (k : A -> D B) c r c' : dbind m k c = (Ret r, c') ->
  exists a c1, m c = (Ret a, c1) /\ k a c1 = (Ret r, c').
Proof. unfold dbind. destruct (m c) as ([a|e| |], c1); try congruence. intros H. now exists a, c1. Qed.

Lemma loop_step {A X} (f : A -> X -> D A) : (forall k a x, sim (step2 None k) (f a x)) ->
  forall l a k c r c', at_step None k c -> dloop f l a c = (Ret r, c') -> at_step None (k + lenN l) c'.
Proof.
  intros Hf l. induction l as [|x l IH]; intros a k c r c' Hc H.
  - cbn in H. injection H as <- <-. unfold lenN. cbn. rewrite N.add_0_r. exact Hc.
  - rewrite dloop_cons in H. destruct Hc as (C1 & C2). unfold advance_step in H. rewrite C1 in H.
    destruct (bind_inv _ _ _ _ _ H) as (a1 & c1 & F1 & F2).
    assert (S : at_step None (k + 1) (snd (f a x (Ctx (x_config c) (x_scale_factor c) (x_x_min c) (x_y_min c)
      (x_snapshots c) (x_step c + 1))))).
    { apply (sim_inv (at_step None (k + 1))); [apply (Hf (k + 1))|]. split; cbn; congruence. }
    rewrite F1 in S. cbn [snd] in S. specialize (IH _ _ _ _ _ S F2).
    replace (k + lenN (x :: l)) with (k + 1 + lenN l) by (unfold lenN; cbn [length]; lia). exact IH.
Qed.

Lemma wrap_step fuel bins vs m k c r c' : at_step None k c -> d_wrap_and_triangulate fuel bins vs m c = (Ret r, c') ->
  at_step None (k + (lenN vs - 1)) c'.
Proof.
  intros Hc H. unfold d_wrap_and_triangulate in H.
  destruct (bind_inv _ _ _ _ _ H) as (order & c1 & B1 & B2). unfold lift in B1. injection B1 as B1 <-.
  destruct (bin_sort_inv _ _ _ B1) as (L & _). destruct order as [|first rest]; [discriminate B2|].
  destruct (bind_inv _ _ _ _ _ B2) as (l & c2 & D1 & D2). unfold lift in D1. injection D1 as D1 <-.
  destruct (bind_inv _ _ _ _ _ D2) as (u & c3 & E1 & E2). unfold push in E1. injection E1 as _ <-.
  assert (S : at_step None k (push_snapshot_event FirstVertexInsertion Snapshot (create_initial_triangles first) [0] [] c)).
  { destruct Hc. unfold at_step. now rewrite push_config, push_step. }
  apply (loop_step (d_insert_vertex fuel vs)) with (2 := S) in E2.
  - replace (k + (lenN vs - 1)) with (k + lenN rest); [exact E2|]. unfold lenN. rewrite <- L. cbn [length]. lia.
  - intros k0 a x. apply (sim_insert_vertex (step2 None k0) (fun _ _ => True)); auto using step_push.
Qed.

Lemma apply_step fuel vs ts cs m k c r c' : at_step None k c -> d_apply_constraints fuel vs ts cs m c = (Ret r, c') ->
  at_step None (k + lenN cs) c'.
Proof.
  intros Hc H. unfold d_apply_constraints in H.
  destruct (bind_inv _ _ _ _ _ H) as (v2t & c1 & B1 & B2). unfold lift in B1. injection B1 as B1 <-.
  destruct (bind_inv _ _ _ _ _ B2) as (s & c2 & D1 & D2). unfold dret in D2. injection D2 as _ <-.
  eapply loop_step; [|exact Hc|exact D1].
  intros k0 a x. apply (sim_apply_constraint (step2 None k0) (fun _ _ => True)); auto using step_push.
Qed.

Lemma push_at k p e ts ids nbs c c' u : at_step None k c -> push p e ts ids nbs c = (Ret u, c') -> at_step None k c'.
Proof. intros (A & B) H. unfold push in H. injection H as _ <-. unfold at_step. now rewrite push_config, push_step. Qed.

Lemma dt_steps cfg fuel bins vs out c : cfg_force_end cfg = None -> 3 <= lenN vs ->
  d_triangulation_from_2d_vertices cfg fuel bins vs = (Ret out, c) -> x_step c = lenN vs - 1.
Proof.
  intros Hf H3 H. rewrite dt_entry, (proj2 (N.ltb_ge _ _) H3) in H.
  destruct (normalize_vertices_coordinates vs) as (((nvs, sc), xm), ym) eqn:NV.
  assert (L : lenN nvs = lenN vs) by (unfold lenN; now rewrite (normalize_length _ _ _ _ _ NV)).
  unfold dt_body in H. destruct (bind_inv _ _ _ _ _ H) as (s & c1 & B1 & B2).
  apply wrap_step with (k := 0) in B1; [|split; [exact Hf|reflexivity]].
  unfold d_filter_triangles in B2. destruct (bind_inv _ _ _ _ _ B2) as (u & c2 & D1 & D2).
  apply (push_at _ _ _ _ _ _ _ _ _ B1) in D1. unfold dret in D2. injection D2 as _ <-.
  destruct D1 as (_ & D1). rewrite D1, L. apply N.add_0_l.
Qed.

Lemma cdt_steps cfg fuel bins vs cs out c : cfg_force_end cfg = None -> 3 <= lenN vs ->
  d_constrained_triangulation_from_2d_vertices cfg fuel bins vs cs = (Ret out, c) -> x_step c = lenN vs - 1 + lenN cs.
Proof.
  intros Hf H3 H. rewrite cdt_entry, (proj2 (N.ltb_ge _ _) H3) in H.
  destruct (normalize_vertices_coordinates vs) as (((nvs, sc), xm), ym) eqn:NV.
  assert (L : lenN nvs = lenN vs) by (unfold lenN; now rewrite (normalize_length _ _ _ _ _ NV)).
  unfold cdt_body in H. destruct (bind_inv _ _ _ _ _ H) as (s & c1 & B1 & B2).
  apply wrap_step with (k := 0) in B1; [|split; [exact Hf|reflexivity]].
  unfold cdt_tail in B2. destruct (bind_inv _ _ _ _ _ B2) as (u & c2 & D1 & D2).
  apply (push_at _ _ _ _ _ _ _ _ _ B1) in D1. destruct (s_map s) as [mp|]; [|discriminate D2].
  destruct (bind_inv _ _ _ _ _ D2) as (r & c3 & E1 & E2). apply (apply_step _ _ _ _ _ _ _ _ _ D1) in E1.
  destruct (bind_inv _ _ _ _ _ E2) as (u2 & c4 & F1 & F2). apply (push_at _ _ _ _ _ _ _ _ _ E1) in F1.
  unfold d_cdt_filter_triangles in F2.
  destruct (bind_inv _ _ _ _ _ F2) as (x & c5 & G1 & G2). unfold lift in G1. injection G1 as G1 <-.
  destruct (bind_inv _ _ _ _ _ G2) as (x2 & c7 & J1 & J2). unfold lift in J1. injection J1 as J1 <-.
  destruct (bind_inv _ _ _ _ _ J2) as (u3 & c6 & K1 & K2). apply (push_at _ _ _ _ _ _ _ _ _ F1) in K1.
  unfold dret in K2. injection K2 as _ <-.
  destruct K1 as (_ & K1). rewrite K1, L. now rewrite N.add_0_l.
Qed.

(** ** The whole context *)
Lemma framed_end cfg vs nvs sc xm ym c : normalize_vertices_coordinates vs = (nvs, sc, xm, ym) -> framed cfg sc xm ym c ->
  x_config c = cfg /\ normalize_vertices_coordinates vs = (normalized vs, x_scale_factor c, x_x_min c, x_y_min c) /\
  normalized vs = map (fun v => (fdiv (fsub (vx v) (x_x_min c)) (x_scale_factor c), fdiv (fsub (vy v) (x_y_min c)) (x_scale_factor c))) vs.
Proof.
  intros NV (A & B & C & D0). split; [exact A|]. rewrite B, C, D0. unfold normalized. rewrite NV. split; [reflexivity|].
  unfold normalize_vertices_coordinates in NV. destruct (compute_bounds vs) as (((p, q), r), s). cbv zeta in NV.
  cbn [fst]. injection NV as <- <- <- <-. reflexivity.
Qed.

Lemma dt_context cfg fuel bins vs c r : d_triangulation_from_2d_vertices cfg fuel bins vs = (r, c) ->
  (lenN vs < 3 -> c = Ctx (Config PAll SAll None) f0 f0 f0 [] 0) /\
  (3 <= lenN vs -> x_config c = cfg /\
    normalize_vertices_coordinates vs = (normalized vs, x_scale_factor c, x_x_min c, x_y_min c) /\
    normalized vs = map (fun v => (fdiv (fsub (vx v) (x_x_min c)) (x_scale_factor c), fdiv (fsub (vy v) (x_y_min c)) (x_scale_factor c))) vs /\
    (cfg_force_end cfg = None -> (exists out, r = Ret out) -> x_step c = lenN vs - 1)).
Proof.
  intros H. split; intros L.
  - rewrite dt_entry, (proj2 (N.ltb_lt _ _) L) in H. now injection H as _ <-.
  - destruct (normalize_vertices_coordinates vs) as (((nvs, sc), xm), ym) eqn:NV.
    pose proof (dt_frame cfg fuel bins vs nvs sc xm ym L NV) as K. rewrite H in K. cbn [snd] in K.
    destruct (framed_end _ _ _ _ _ _ _ NV K) as (A & B & C). rewrite <- B, NV. repeat split; auto.
    intros Hf (out & ->). exact (dt_steps cfg fuel bins vs out c Hf L H).
Qed.

Lemma cdt_context cfg fuel bins vs cs c r : d_constrained_triangulation_from_2d_vertices cfg fuel bins vs cs = (r, c) ->
  (lenN vs < 3 -> c = Ctx (Config PAll SAll None) f0 f0 f0 [] 0) /\
  (3 <= lenN vs -> x_config c = cfg /\
    normalize_vertices_coordinates vs = (normalized vs, x_scale_factor c, x_x_min c, x_y_min c) /\
    normalized vs = map (fun v => (fdiv (fsub (vx v) (x_x_min c)) (x_scale_factor c), fdiv (fsub (vy v) (x_y_min c)) (x_scale_factor c))) vs /\
    (cfg_force_end cfg = None -> (exists out, r = Ret out) -> x_step c = lenN vs - 1 + lenN cs)).
Proof.
  intros H. split; intros L.
  - rewrite cdt_entry, (proj2 (N.ltb_lt _ _) L) in H. now injection H as _ <-.
  - destruct (normalize_vertices_coordinates vs) as (((nvs, sc), xm), ym) eqn:NV.
    pose proof (cdt_frame cfg fuel bins vs cs nvs sc xm ym L NV) as K. rewrite H in K. cbn [snd] in K.
    destruct (framed_end _ _ _ _ _ _ _ NV K) as (A & B & C). rewrite <- B, NV. repeat split; auto.
    intros Hf (out & ->). exact (cdt_steps cfg fuel bins vs cs out c Hf L H).
Qed.
End WithEnv.
