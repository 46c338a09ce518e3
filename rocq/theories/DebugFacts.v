(** * DebugFacts: the instrumented functions of [Debug.v]. *)

From Coq Require Import NArith List Bool Lia Sorted.
From Verif Require Import Base BaseFacts Arith Types Utils Infinite Triangulation Constrained Debug SpecDebug.
Import ListNotations.
Local Open Scope N_scope.

Section WithEnv.
Context {E : Env}.

(** ** Two contexts in a relation which recording preserves *)
Section Sim.
Variable R : debug_context -> debug_context -> Prop.
(** The phases and events that are pushed. *)
Variable P : phase -> event -> Prop.
Hypothesis Rpush : forall p e ts ids nbs c1 c2, P p e -> R c1 c2 ->
  R (push_snapshot_event p e ts ids nbs c1) (push_snapshot_event p e ts ids nbs c2).

Definition sim {A} (m : D A) : Prop := forall c1 c2, R c1 c2 ->
  fst (m c1) = fst (m c2) /\ R (snd (m c1)) (snd (m c2)).

Lemma sim_lift {A} (r : res A) : sim (lift r).
Proof. intros c1 c2 H. now split. Qed.
Lemma sim_ret {A} (a : A) : sim (dret a).
Proof. intros c1 c2 H. now split. Qed.
Lemma sim_bind {A B} (m : D A) (k : A -> D B) : sim m -> (forall a, sim (k a)) -> sim (dbind m k).
Proof.
  intros Hm Hk c1 c2 H. unfold dbind. destruct (Hm c1 c2 H) as (Q & H').
  destruct (m c1) as (r1, c1'). destruct (m c2) as (r2, c2'). simpl in Q, H'. subst r2.
  destruct r1; simpl; auto. now apply Hk.
Qed.
Lemma sim_push p e ts ids nbs : P p e -> sim (push p e ts ids nbs).
Proof. intros Hp c1 c2 H. split; auto. simpl. now apply Rpush. Qed.

Hypothesis P1 : forall v, P SplitTriangle (Split v).
Hypothesis P2 : forall v, P SplitQuad (Split v).
Hypothesis P3 : P DelaunayRestoreSwapQuadDiagonals Snapshot.
Hypothesis P4 : P ConstrainedSwapQuadDiagonals Snapshot.

Ltac sim_step :=
  first
  [ apply sim_lift | apply sim_ret | apply sim_push; auto | assumption
  | apply sim_bind; [|intros]
  | match goal with |- sim (match ?x with _ => _ end) => destruct x end ].

Lemma sim_split_quad ts tid ei ed v st : sim (d_split_quad ts tid ei ed v st).
Proof. unfold d_split_quad. repeat sim_step. Qed.
Lemma sim_split_triangle ts tid v st : sim (d_split_triangle ts tid v st).
Proof. unfold d_split_triangle. repeat sim_step. Qed.
Lemma sim_check_and_swap ts vs v t1 t2 st : sim (d_check_and_swap ts vs v t1 t2 st).
Proof. unfold d_check_and_swap. repeat sim_step. Qed.
Lemma sim_restore_delaunay fuel : forall ts vs v st, sim (d_restore_delaunay fuel ts vs v st).
Proof.
  induction fuel as [|fuel IH]; intros ts vs v [|(t1, t2) st]; cbn [d_restore_delaunay]; repeat sim_step; solve [apply sim_check_and_swap|apply IH].
Qed.
Lemma sim_finish_insert fuel vs m vid r : sim (d_finish_insert fuel vs m vid r).
Proof. unfold d_finish_insert. repeat sim_step. apply sim_restore_delaunay. Qed.
Lemma sim_insert_vertex fuel vs s vid : sim (d_insert_vertex fuel vs s vid).
Proof.
  unfold d_insert_vertex. repeat sim_step;
    solve [apply sim_restore_delaunay].
Qed.
Lemma sim_swap_quad_diagonal ts v2t d q : sim (d_swap_quad_diagonal ts v2t d q).
Proof. unfold d_swap_quad_diagonal. repeat sim_step. Qed.
Lemma sim_remove fuel : forall ts vs v2t cv inters news nc, sim (d_remove_crossed_edges fuel ts vs v2t cv inters news nc).
Proof.
  induction fuel as [|fuel IH]; intros ts vs v2t cv [|d inters] news nc; cbn [d_remove_crossed_edges]; repeat sim_step;
    solve [apply sim_swap_quad_diagonal|apply IH].
Qed.
Lemma sim_restore_constrained fuel : forall ts vs v2t ce news hist, sim (d_restore_constrained fuel ts vs v2t ce news hist).
Proof.
  induction fuel as [|fuel IH]; intros ts vs v2t ce [|d news] hist; cbn [d_restore_constrained]; repeat sim_step;
    solve [apply sim_swap_quad_diagonal|apply IH].
Qed.
Lemma sim_apply_constraint fuel vs mapping s raw : sim (d_apply_constraint fuel vs mapping s raw).
Proof.
  unfold d_apply_constraint. repeat sim_step; solve [apply sim_remove|apply sim_restore_constrained].
Qed.

(** The loops, for relations which the counting of steps preserves. *)
Hypothesis Radvance : forall c1 c2, R c1 c2 ->
  snd (advance_step c1) = snd (advance_step c2) /\ R (fst (advance_step c1)) (fst (advance_step c2)).

Lemma sim_advance : sim advance.
Proof.
  intros c1 c2 H. destruct (Radvance c1 c2 H) as (Q & H'). unfold advance.
  destruct (advance_step c1), (advance_step c2). simpl in *. split; [congruence|auto].
Qed.
Lemma sim_dloop {A X} (f : A -> X -> D A) : (forall a x, sim (f a x)) -> forall l a, sim (dloop f l a).
Proof.
  intros Hf l. induction l as [|x l IH]; intros a; simpl; [apply sim_ret|].
  apply sim_bind; [apply sim_advance|]. intros [|]; [apply sim_ret|]. apply sim_bind; auto.
Qed.

Hypothesis P5 : P FirstVertexInsertion Snapshot.
Hypothesis P6 : P BeforeConstraints Snapshot.
Hypothesis P7 : P AfterConstraints Snapshot.
Hypothesis P8 : P FilterTriangles Snapshot.

Lemma sim_wrap fuel bins vs m : sim (d_wrap_and_triangulate fuel bins vs m).
Proof.
  unfold d_wrap_and_triangulate. repeat sim_step. apply sim_dloop. intros. apply sim_insert_vertex.
Qed.
Lemma sim_dt fuel bins vs : sim (dbind (d_wrap_and_triangulate fuel bins vs None) (fun s => d_filter_triangles (s_ts s))).
Proof. apply sim_bind; [apply sim_wrap|]. intros s. unfold d_filter_triangles. repeat sim_step. Qed.
Lemma sim_apply_constraints fuel vs ts cs m : sim (d_apply_constraints fuel vs ts cs m).
Proof. unfold d_apply_constraints. repeat sim_step. apply sim_dloop. intros. apply sim_apply_constraint. Qed.
Lemma sim_cdt_tail fuel nvs cs s : sim (dbind (push BeforeConstraints Snapshot (s_ts s) [] []) (fun _ =>
      match s_map s with
      | None => lift Panic
      | Some mapping =>
          dbind (d_apply_constraints fuel nvs (s_ts s) cs mapping) (fun r =>
          dbind (push AfterConstraints Snapshot (fst r) [] []) (fun _ =>
          d_cdt_filter_triangles fuel (fst r) (snd r)))
      end)).
Proof. unfold d_cdt_filter_triangles. repeat sim_step. apply sim_dloop. intros. apply sim_apply_constraint. Qed.
End Sim.

(** ** Erasing the debug context *)
Definition erases {A} (m : D A) (r : res A) : Prop := forall c, fst (m c) = r.

Lemma erases_lift {A} (r : res A) : erases (lift r) r.
Proof. now intros c. Qed.
Lemma erases_ret {A} (a : A) : erases (dret a) (Ret a).
Proof. now intros c. Qed.
Lemma erases_bind {A B} (m : D A) r (k : A -> D B) (k' : A -> res B) :
  erases m r -> (forall a, r = Ret a -> erases (k a) (k' a)) -> erases (dbind m k) (bind r k').
Proof.
  intros Hm Hk c. unfold dbind. pose proof (Hm c) as Q. destruct (m c) as (r', c'). simpl in Q. subst r'.
  destruct r; simpl; auto. now apply Hk.
Qed.
(** A step of the instrumented function which the plain function lacks. *)
Lemma erases_skip {A B} (m : D A) (k : A -> D B) r : (forall c, exists a, fst (m c) = Ret a) ->
  (forall a, erases (k a) r) -> erases (dbind m k) r.
Proof.
  intros Hm Hk c. unfold dbind. destruct (Hm c) as (a & Q). destruct (m c) as (r', c'). simpl in Q. subst r'. apply Hk.
Qed.
Lemma erases_push {B} p e ts ids nbs (k : unit -> D B) r : (forall a, erases (k a) r) -> erases (dbind (push p e ts ids nbs) k) r.
Proof. apply erases_skip. intros c. now exists tt. Qed.

Lemma erases_last {A} (r : res A) p e (ts : A -> list tri) ids nbs :
  erases (dbind (lift r) (fun x => dbind (push p e (ts x) ids nbs) (fun _ => dret x))) r.
Proof. intros c. now destruct r. Qed.

Lemma get_cases {A} (l : list A) i : (exists a, getN l i = Ret a) \/ getN l i = Panic.
Proof. unfold getN. destruct (nthN l i); eauto. Qed.

Lemma erases_split_quad ts tid ei ed v st : erases (d_split_quad ts tid ei ed v st) (split_quad_into_four ts tid ei ed v st).
Proof.
  unfold d_split_quad. destruct (get_cases ts tid) as [(t & Q)|Q]; rewrite Q.
  - apply erases_skip; [intros c; now exists t|]. intros t0. apply (erases_last _ _ _ _ _ _).
  - intros c. unfold split_quad_into_four. rewrite Q. reflexivity.
Qed.
Lemma erases_split_triangle ts tid v st : erases (d_split_triangle ts tid v st) (split_triangle_into_three ts tid v st).
Proof.
  unfold d_split_triangle. apply (erases_last _ _ _ _ _ _).
Qed.
Lemma erases_check_and_swap ts vs v t1 t2 st : erases (d_check_and_swap ts vs v t1 t2 st) (check_and_swap ts vs v t1 t2 st).
Proof.
  unfold d_check_and_swap, check_and_swap. apply erases_bind; [apply erases_lift|]. intros t2' _.
  destruct (quad_of_pair t2' t1 v) as ((q, n3), n4). apply erases_bind; [apply erases_lift|]. intros [|] _; [|apply erases_ret].
  destruct (get_cases ts t1) as [(t & Q)|Q]; rewrite Q.
  - apply erases_skip; [intros c; now exists t|]. intros t0. apply (erases_last _ _ _ _ _ _).
  - intros c. unfold swap_pair. rewrite Q. reflexivity.
Qed.
Lemma erases_restore_delaunay fuel : forall ts vs v st, erases (d_restore_delaunay fuel ts vs v st) (restore_delaunay fuel ts vs v st).
Proof.
  induction fuel as [|fuel IH]; intros ts vs v [|(t1, t2) st]; cbn [d_restore_delaunay restore_delaunay];
    try apply erases_ret; try apply erases_lift.
  apply erases_bind; [apply erases_check_and_swap|]. intros (ts', st') _. apply IH.
Qed.
Lemma erases_finish_insert fuel vs m vid r : erases (d_finish_insert fuel vs m vid r) (finish_insert fuel vs m vid r).
Proof.
  unfold d_finish_insert, finish_insert. destruct r as (ts, st). simpl fst. simpl snd.
  apply erases_bind; [apply erases_restore_delaunay|]. intros ts' _.
  apply erases_bind; [apply erases_lift|]. intros l _. apply erases_ret.
Qed.
Lemma erases_insert_vertex fuel vs s vid : erases (d_insert_vertex fuel vs s vid) (insert_vertex fuel vs s vid).
Proof.
  unfold d_insert_vertex, insert_vertex. apply erases_bind; [apply erases_lift|]. intros p _.
  apply erases_bind; [apply erases_lift|]. intros [t|t ei ed|] _; [| |apply erases_lift].
  - apply erases_bind; [apply erases_split_triangle|]. intros r _. apply erases_finish_insert.
  - apply erases_bind; [apply erases_lift|]. intros [|] _.
    + apply erases_bind; [apply erases_lift|]. intros m _. apply erases_ret.
    + apply erases_bind; [apply erases_lift|]. intros [|] _.
      * apply erases_bind; [apply erases_lift|]. intros m _. apply erases_ret.
      * apply erases_bind; [apply erases_split_quad|]. intros r _. apply erases_finish_insert.
Qed.
Lemma erases_swap_quad ts v2t d q : erases (d_swap_quad_diagonal ts v2t d q) (swap_quad_diagonal ts v2t d q).
Proof.
  unfold d_swap_quad_diagonal. destruct (get_cases ts (d_to d)) as [(t & Q)|Q]; rewrite Q.
  - apply erases_skip; [intros c; now exists t|]. intros t0.
    destruct (get_cases ts (d_from d)) as [(t' & Q')|Q']; rewrite Q'.
    + apply erases_skip; [intros c; now exists t'|]. intros t0'. apply (erases_last _ _ _ _ _ _).
    + intros c. unfold swap_quad_diagonal. rewrite Q, Q'. reflexivity.
  - intros c. unfold swap_quad_diagonal. rewrite Q. reflexivity.
Qed.
Lemma erases_remove fuel : forall ts vs v2t cv inters news nc,
  erases (d_remove_crossed_edges fuel ts vs v2t cv inters news nc) (remove_crossed_edges fuel ts vs v2t cv inters news nc).
Proof.
  induction fuel as [|fuel IH]; intros ts vs v2t cv [|d inters] news nc; cbn [d_remove_crossed_edges remove_crossed_edges];
    try apply erases_ret; try apply erases_lift.
  destruct (lenN inters <? nc); [apply erases_lift|].
  apply erases_bind; [apply erases_lift|]. intros q _. apply erases_bind; [apply erases_lift|]. intros x _.
  destruct (negb (is_crossing x)); [apply IH|].
  apply erases_bind; [apply erases_swap_quad|]. intros ((ts', v2t'), upd) _.
  apply erases_bind; [apply erases_lift|]. intros y _. destruct (is_crossing y); apply IH.
Qed.
Lemma erases_restore_constrained fuel : forall ts vs v2t ce news hist,
  erases (d_restore_constrained fuel ts vs v2t ce news hist) (restore_constrained fuel ts vs v2t ce news hist).
Proof.
  induction fuel as [|fuel IH]; intros ts vs v2t ce [|d news] hist; cbn [d_restore_constrained restore_constrained];
    try apply erases_ret; try apply erases_lift.
  destruct (undirected_equals (d_edge d) ce); [apply IH|].
  apply erases_bind; [apply erases_lift|]. intros q _. apply erases_bind; [apply erases_lift|]. intros sw _.
  destruct (sw && _); [|apply IH].
  apply erases_bind; [apply erases_swap_quad|]. intros ((ts', v2t'), upd) _. apply IH.
Qed.
Lemma erases_apply_constraint fuel vs m s raw : erases (d_apply_constraint fuel vs m s raw) (apply_constraint fuel vs m s raw).
Proof.
  unfold d_apply_constraint, apply_constraint.
  apply erases_bind; [apply erases_lift|]. intros a _. apply erases_bind; [apply erases_lift|]. intros b _.
  destruct ((a =? b) || _); [apply erases_ret|].
  apply erases_bind; [apply erases_lift|]. intros cv _. apply erases_bind; [apply erases_lift|]. intros [|d inters] _; [apply erases_ret|].
  apply erases_bind; [apply erases_remove|]. intros ((ts, v2t), news) _.
  apply erases_bind; [apply erases_restore_constrained|]. intros (ts', v2t') _. apply erases_ret.
Qed.

(** The kept triangles and the returned indices. *)
Lemma explore_kept fuel : forall ts cset stk visited out,
  explore fuel ts cset stk visited (map tverts out) =
  let* (v, o) := explore_triangles fuel ts cset stk visited out in Ret (v, map tverts o).
Proof.
  induction fuel as [|fuel IH]; intros ts cset [|n stk] visited out; cbn [explore explore_triangles]; auto.
  destruct (negb (nexists n)); auto.
  destruct (getN visited n) as [[|]| | |]; simpl; auto. destruct (getN ts n) as [t| | |]; simpl; auto.
  destruct (setN visited n true) as [v'| | |]; simpl; auto. rewrite <- IH. f_equal.
  unfold emit, emit_triangle. now destruct (tri_is_finite t).
Qed.

Lemma filter_kept fuel ts cset : forall rest i visited out,
  filter_loop fuel ts cset rest i visited (map tverts out) =
  let* o := filter_loop_triangles fuel ts cset rest i visited out in Ret (map tverts o).
Proof.
  induction rest as [|t rest IH]; intros i visited out; cbn [filter_loop filter_loop_triangles].
  - simpl. now rewrite map_rev.
  - destruct (getN visited i) as [[|]| | |]; simpl; auto. destruct (has_constrained_edge cset t); auto.
    destruct (setN visited i true) as [v'| | |]; simpl; auto.
    replace (emit t (map tverts out)) with (map tverts (emit_triangle t out)) by (unfold emit, emit_triangle; now destruct (tri_is_finite t)).
    rewrite explore_kept. destruct (explore_triangles _ _ _ _ _ _) as [(v, o)| | |]; simpl; auto.
Qed.

Lemma cdt_filter_kept fuel ts cset : cdt_filter_triangles fuel ts cset =
  let* o := filter_loop_triangles fuel ts cset ts 0 (repeat false (length ts)) [] in Ret (map tverts o).
Proof. exact (filter_kept fuel ts cset ts 0 _ []). Qed.

Lemma erases_cdt_filter fuel ts cset : erases (d_cdt_filter_triangles fuel ts cset) (cdt_filter_triangles fuel ts cset).
Proof.
  unfold d_cdt_filter_triangles. rewrite cdt_filter_kept.
  destruct (filter_loop_triangles _ _ _ _ _ _ _) as [o| | |]; try now intros c.
Qed.

(** ** The loops, without a forced end *)
Definition keeps_config {A} (m : D A) : Prop := forall c, x_config (snd (m c)) = x_config c.

Lemma push_config p e ts ids nbs c : x_config (push_snapshot_event p e ts ids nbs c) = x_config c.
Proof. unfold push_snapshot_event. destruct (negb _); auto. destruct (record_step _ _); auto. Qed.
Lemma push_step p e ts ids nbs c : x_step (push_snapshot_event p e ts ids nbs c) = x_step c.
Proof. unfold push_snapshot_event. destruct (negb _); auto. destruct (record_step _ _); auto. Qed.

(** Invariants of one context, through relations of a context with itself. *)
Lemma sim_inv {A} (I : debug_context -> Prop) (m : D A) :
  (sim (fun c1 c2 => c1 = c2 /\ I c1) m) -> forall c, I c -> I (snd (m c)).
Proof. intros H c Hc. destruct (H c c) as (_ & _ & K); auto. Qed.

Definition erases_unforced {A} (m : D A) (r : res A) : Prop :=
  forall c, cfg_force_end (x_config c) = None -> fst (m c) = r /\ cfg_force_end (x_config (snd (m c))) = None.

Lemma unforced_inv {A} (m : D A) r :
  (sim (fun c1 c2 => c1 = c2 /\ cfg_force_end (x_config c1) = None) m) -> erases m r -> erases_unforced m r.
Proof. intros S H c Hc. split; [apply H|]. exact (sim_inv (fun c => cfg_force_end (x_config c) = None) m S c Hc). Qed.

Lemma unforced_push p e ts ids nbs c1 c2 : True -> c1 = c2 /\ cfg_force_end (x_config c1) = None ->
  push_snapshot_event p e ts ids nbs c1 = push_snapshot_event p e ts ids nbs c2 /\
  cfg_force_end (x_config (push_snapshot_event p e ts ids nbs c1)) = None.
Proof. intros _ (-> & H). now rewrite push_config. Qed.

Lemma eu_bind {A B} (m : D A) r (k : A -> D B) (k' : A -> res B) :
  erases_unforced m r -> (forall a, r = Ret a -> erases_unforced (k a) (k' a)) -> erases_unforced (dbind m k) (bind r k').
Proof.
  intros Hm Hk c Hc. unfold dbind. destruct (Hm c Hc) as (Q & Hc'). destruct (m c) as (r', c'). simpl in Q, Hc'. subst r'.
  destruct r; simpl; auto. now apply Hk.
Qed.
Lemma eu_push {B} p e ts ids nbs (k : unit -> D B) r :
  (forall a, erases_unforced (k a) r) -> erases_unforced (dbind (push p e ts ids nbs) k) r.
Proof. intros Hk c Hc. apply Hk. now rewrite push_config. Qed.
Lemma eu_lift {A} (r : res A) : erases_unforced (lift r) r.
Proof. now intros c. Qed.
Lemma eu_ret {A} (a : A) : erases_unforced (dret a) (Ret a).
Proof. now intros c. Qed.

Lemma dloop_cons {A X} (f : A -> X -> D A) x l a c :
  dloop f (x :: l) a c = let (c', stop) := advance_step c in
    if stop then (Ret a, c') else dbind (f a x) (fun a' => dloop f l a') c'.
Proof. cbn [dloop]. unfold dbind at 1, advance. destruct (advance_step c) as (c', [|]); reflexivity. Qed.

Lemma eu_dloop {A X} (f : A -> X -> D A) (g : A -> X -> res A) :
  (forall a x, erases_unforced (f a x) (g a x)) -> forall l a, erases_unforced (dloop f l a) (foldM g l a).
Proof.
  intros Hf l. induction l as [|x l IH]; intros a; [apply eu_ret|].
  intros c Hc. rewrite dloop_cons. unfold advance_step. rewrite Hc. cbn [foldM].
  apply (eu_bind (f a x) (g a x)); [apply Hf|intros; apply IH|exact Hc].
Qed.

Lemma eu_insert fuel vs s vid : erases_unforced (d_insert_vertex fuel vs s vid) (insert_vertex fuel vs s vid).
Proof.
  apply unforced_inv; [|apply erases_insert_vertex].
  apply (sim_insert_vertex _ (fun _ _ => True)); auto using unforced_push.
Qed.
Lemma eu_apply fuel vs m s raw : erases_unforced (d_apply_constraint fuel vs m s raw) (apply_constraint fuel vs m s raw).
Proof.
  apply unforced_inv; [|apply erases_apply_constraint].
  apply (sim_apply_constraint _ (fun _ _ => True)); auto using unforced_push.
Qed.

Lemma eu_wrap fuel bins vs m : erases_unforced (d_wrap_and_triangulate fuel bins vs m) (wrap_and_triangulate fuel bins vs m).
Proof.
  unfold d_wrap_and_triangulate, wrap_and_triangulate. apply eu_bind; [apply eu_lift|].
  intros [|first rest] _; [apply eu_lift|]. apply eu_bind; [apply eu_lift|]. intros l _. apply eu_push. intros _.
  apply eu_dloop. intros. apply eu_insert.
Qed.

Lemma eu_cdt_filter fuel ts cset : erases_unforced (d_cdt_filter_triangles fuel ts cset) (cdt_filter_triangles fuel ts cset).
Proof.
  unfold d_cdt_filter_triangles. rewrite cdt_filter_kept.
  destruct (filter_loop_triangles _ _ _ _ _ _ _) as [o| | |]; intros c Hc; simpl; auto. now rewrite push_config.
Qed.

Lemma dt_transparent cfg fuel bins vs : cfg_force_end cfg = None ->
  fst (d_triangulation_from_2d_vertices cfg fuel bins vs) = triangulation_from_2d_vertices fuel bins vs.
Proof.
  intros H. unfold d_triangulation_from_2d_vertices, triangulation_from_2d_vertices. destruct (lenN vs <? 3); auto.
  destruct (normalize_vertices_coordinates vs) as (((nvs, sc), xm), ym).
  refine (proj1 (eu_bind _ _ _ (fun s => Ret (filter_triangles (s_ts s))) (eu_wrap fuel bins nvs None) _ _ _)); auto.
  intros s _. apply eu_push. intros _. apply eu_ret.
Qed.

Lemma cdt_transparent cfg fuel bins vs cs : cfg_force_end cfg = None ->
  fst (d_constrained_triangulation_from_2d_vertices cfg fuel bins vs cs) = constrained_triangulation_from_2d_vertices fuel bins vs cs.
Proof.
  intros H. unfold d_constrained_triangulation_from_2d_vertices, constrained_triangulation_from_2d_vertices. destruct (lenN vs <? 3); auto.
  destruct (normalize_vertices_coordinates vs) as (((nvs, sc), xm), ym).
  refine (proj1 (eu_bind _ _ _ _ (eu_wrap fuel bins nvs _) _ _ _)); auto.
  intros s _. apply eu_push. intros _. destruct (s_map s) as [m|]; [|apply eu_lift].
  unfold d_apply_constraints, apply_constraints.
  match goal with |- erases_unforced (dbind ?x ?k) (bind (bind ?y ?f) ?g) => idtac end.
  apply eu_bind.
  - apply eu_bind; [apply eu_lift|]. intros v2t _. apply eu_bind; [|intros; apply eu_ret].
    apply eu_dloop. intros. apply eu_apply.
  - intros (ts, cset) _. apply eu_push. intros _. apply eu_cdt_filter.
Qed.

(** ** The entry points as one computation *)
Definition dt_body (fuel : nat) (bins : N) (nvs : list vertex) : D (list (N * N * N)) :=
  dbind (d_wrap_and_triangulate fuel bins nvs None) (fun s => d_filter_triangles (s_ts s)).
Definition cdt_tail (fuel : nat) (nvs : list vertex) (cs : list edge) (s : state) : D (list (N * N * N)) :=
  dbind (push BeforeConstraints Snapshot (s_ts s) [] []) (fun _ =>
    match s_map s with
    | None => lift Panic
    | Some mapping =>
        dbind (d_apply_constraints fuel nvs (s_ts s) cs mapping) (fun r =>
        dbind (push AfterConstraints Snapshot (fst r) [] []) (fun _ =>
        d_cdt_filter_triangles fuel (fst r) (snd r)))
    end).
Definition cdt_body (fuel : nat) (bins : N) (n : nat) (nvs : list vertex) (cs : list edge) : D (list (N * N * N)) :=
  dbind (d_wrap_and_triangulate fuel bins nvs (Some (rangeN 0 n))) (cdt_tail fuel nvs cs).

Lemma dt_entry cfg fuel bins vs : d_triangulation_from_2d_vertices cfg fuel bins vs =
  if lenN vs <? 3 then (Ret [], default_context)
  else let '(nvs, sc, xm, ym) := normalize_vertices_coordinates vs in dt_body fuel bins nvs (new_context cfg sc xm ym).
Proof. reflexivity. Qed.
Lemma cdt_entry cfg fuel bins vs cs : d_constrained_triangulation_from_2d_vertices cfg fuel bins vs cs =
  if lenN vs <? 3 then (Ret [], default_context)
  else let '(nvs, sc, xm, ym) := normalize_vertices_coordinates vs in cdt_body fuel bins (length vs) nvs cs (new_context cfg sc xm ym).
Proof. reflexivity. Qed.

(** ** Recording *)
Section Recording.
Variable cfg : debug_config.

Definition wantedb (sn : snapshot) : bool :=
  record_phase (cfg_phase cfg) (sn_phase sn) && record_step (cfg_steps cfg) (sn_step sn).

Lemma phase_eqb_eq p q : phase_eqb p q = true <-> p = q.
Proof. destruct p, q; simpl; split; congruence. Qed.

Lemma record_phase_iff r p : record_phase r p = true <-> phase_wanted r p.
Proof.
  destruct r as [| |q|ps]; simpl.
  - split; [discriminate|]. inversion 1.
  - split; auto. constructor.
  - rewrite phase_eqb_eq. split; [intros ->; constructor|]. now inversion 1.
  - rewrite existsb_exists. split.
    + intros (x & Hx & Q). apply phase_eqb_eq in Q. subst. now constructor.
    + inversion 1; subst. exists p. split; auto. now apply phase_eqb_eq.
Qed.
Lemma record_step_iff r s : record_step r s = true <-> step_wanted r s.
Proof.
  destruct r as [| |a|b|a b]; simpl.
  - split; [discriminate|]. inversion 1.
  - split; auto. constructor.
  - rewrite N.leb_le. split; [now constructor|]. now inversion 1.
  - rewrite N.leb_le. split; [now constructor|]. now inversion 1.
  - rewrite andb_true_iff, !N.leb_le. split; [now constructor|]. now inversion 1.
Qed.
Lemma wantedb_iff sn : wantedb sn = true <-> wanted cfg sn.
Proof. unfold wantedb, wanted. now rewrite andb_true_iff, record_phase_iff, record_step_iff. Qed.

Lemma filter_selects l : selects (wanted cfg) l (filter wantedb l).
Proof.
  induction l as [|x l IH]; simpl; [constructor|]. destruct (wantedb x) eqn:Q.
  - constructor; auto. now apply wantedb_iff.
  - constructor; auto. rewrite <- wantedb_iff. congruence.
Qed.

Definition recording (c1 c2 : debug_context) : Prop :=
  x_config c1 = cfg /\ x_config c2 = record_all cfg /\ x_step c1 = x_step c2 /\
  x_snapshots c1 = filter wantedb (x_snapshots c2).

Lemma recording_push p e ts ids nbs c1 c2 : True -> recording c1 c2 ->
  recording (push_snapshot_event p e ts ids nbs c1) (push_snapshot_event p e ts ids nbs c2).
Proof.
  intros _ (C1 & C2 & St & Sn). unfold recording. rewrite !push_config, !push_step. repeat (split; [assumption|]).
  unfold push_snapshot_event. rewrite C1, C2. simpl. rewrite filter_app. simpl.
  unfold wantedb at 2. simpl. rewrite <- St.
  destruct (record_phase (cfg_phase cfg) p); simpl; [|now rewrite app_nil_r].
  destruct (record_step (cfg_steps cfg) (x_step c1)); simpl; [now rewrite Sn|now rewrite app_nil_r].
Qed.
Lemma recording_advance c1 c2 : recording c1 c2 ->
  snd (advance_step c1) = snd (advance_step c2) /\ recording (fst (advance_step c1)) (fst (advance_step c2)).
Proof.
  intros (C1 & C2 & St & Sn). unfold advance_step, recording. simpl. rewrite C1, C2, St. simpl. auto.
Qed.
Lemma recording_new sc xm ym : recording (new_context cfg sc xm ym) (new_context (record_all cfg) sc xm ym).
Proof. repeat split. Qed.

Lemma dt_recording fuel bins vs :
  fst (d_triangulation_from_2d_vertices cfg fuel bins vs) = fst (d_triangulation_from_2d_vertices (record_all cfg) fuel bins vs) /\
  selects (wanted cfg) (x_snapshots (snd (d_triangulation_from_2d_vertices (record_all cfg) fuel bins vs)))
    (x_snapshots (snd (d_triangulation_from_2d_vertices cfg fuel bins vs))).
Proof.
  rewrite !dt_entry. destruct (lenN vs <? 3); [split; [auto|constructor]|].
  destruct (normalize_vertices_coordinates vs) as (((nvs, sc), xm), ym).
  destruct (sim_dt recording (fun _ _ => True) recording_push (fun _ => I) (fun _ => I) I recording_advance I I fuel bins nvs _ _ (recording_new sc xm ym))
    as (Q & _ & _ & _ & Sn).
  split; [exact Q|]. unfold dt_body. rewrite Sn. apply filter_selects.
Qed.

Lemma cdt_recording fuel bins vs cs :
  fst (d_constrained_triangulation_from_2d_vertices cfg fuel bins vs cs) =
  fst (d_constrained_triangulation_from_2d_vertices (record_all cfg) fuel bins vs cs) /\
  selects (wanted cfg) (x_snapshots (snd (d_constrained_triangulation_from_2d_vertices (record_all cfg) fuel bins vs cs)))
    (x_snapshots (snd (d_constrained_triangulation_from_2d_vertices cfg fuel bins vs cs))).
Proof.
  rewrite !cdt_entry. destruct (lenN vs <? 3); [split; [auto|constructor]|].
  destruct (normalize_vertices_coordinates vs) as (((nvs, sc), xm), ym).
  assert (S : sim recording (cdt_body fuel bins (length vs) nvs cs)).
  { apply sim_bind.
    - apply (sim_wrap recording (fun _ _ => True)); auto using recording_push, recording_advance.
    - intros s. apply (sim_cdt_tail recording (fun _ _ => True)); auto using recording_push, recording_advance. }
  destruct (S _ _ (recording_new sc xm ym)) as (Q & _ & _ & _ & Sn).
  split; [exact Q|]. rewrite Sn. apply filter_selects.
Qed.
End Recording.
End WithEnv.
