(** * DebugReplay: a complete recording shows the triangles after every step. *)

From Coq Require Import NArith List Bool Lia Sorted.
From Verif Require Import Base BaseFacts Arith Types Utils Infinite Triangulation Constrained AnyDT DTOut ApiGrid Debug SpecDebug DebugFacts DebugTrace.
Import ListNotations.
Local Open Scope N_scope.

Section WithEnv.
Context {E : Env}.

Lemma is_change_iff p : is_change p = true <-> changes p.
Proof. unfold changes. destruct p; simpl; intuition discriminate. Qed.

Definition all_recorded (c : debug_context) : Prop := cfg_phase (x_config c) = PAll /\ cfg_steps (x_config c) = SAll.
Definition tracks (ts : list tri) (c : debug_context) : Prop := all_recorded c /\
  exists before sn, filter (fun sn => is_change (sn_phase sn)) (x_snapshots c) = before ++ [sn] /\ sn_triangles sn = ts.

Lemma tracks_change p e ts ids nbs c : is_change p = true -> all_recorded c -> tracks ts (push_snapshot_event p e ts ids nbs c).
Proof.
  intros Hp (H1 & H2). split; [unfold all_recorded; now rewrite push_config|].
  rewrite push_all by assumption. rewrite filter_app. simpl. rewrite Hp. eauto.
Qed.
Lemma tracks_other p e ts ids nbs ts0 c : is_change p = false -> tracks ts0 c -> tracks ts0 (push_snapshot_event p e ts ids nbs c).
Proof.
  intros Hp ((H1 & H2) & b & sn & H3 & H4). split; [unfold all_recorded; now rewrite push_config|].
  rewrite push_all by assumption. rewrite filter_app. simpl. rewrite Hp, app_nil_r. eauto.
Qed.

(** From a context which shows [ts], the computation ends in one which shows [post a]. *)
Definition shows_change {A} (ts : list tri) (m : D A) (post : A -> list tri) : Prop :=
  forall c a c', tracks ts c -> m c = (Ret a, c') -> tracks (post a) c'.

Lemma sc_bind {A B} ts (m : D A) (k : A -> D B) mid post :
  shows_change ts m mid -> (forall a, shows_change (mid a) (k a) post) -> shows_change ts (dbind m k) post.
Proof.
  intros Hm Hk c b c' T Q. unfold dbind in Q. destruct (m c) as (r, d) eqn:M. destruct r as [a| | |]; try discriminate.
  exact (Hk a d b c' (Hm c a d T M) Q).
Qed.
Lemma sc_lift {A} ts (r : res A) : shows_change ts (lift r) (fun _ => ts).
Proof. intros c a c' T Q. injection Q as _ <-. exact T. Qed.
Lemma sc_ret {A} ts (a : A) post : post a = ts -> shows_change ts (dret a) post.
Proof. intros H c b c' T Q. injection Q as <- <-. now rewrite H. Qed.
Lemma sc_fail {A} ts (r : res A) post : (forall a, r <> Ret a) -> shows_change ts (lift r) post.
Proof. intros H c a c' T Q. injection Q as Q _. now destruct (H a). Qed.
Lemma sc_push p e ts0 ts ids nbs : is_change p = true -> shows_change ts0 (push p e ts ids nbs) (fun _ => ts).
Proof. intros H c a c' T Q. injection Q as <- <-. apply tracks_change; auto. apply T. Qed.
Lemma sc_lift_bind {A B} ts (r : res A) (k : A -> D B) post : (forall a, r = Ret a -> shows_change ts (k a) post) -> shows_change ts (dbind (lift r) k) post.
Proof.
  intros H c b c' T Q. unfold dbind, lift in Q. destruct r as [a| | |]; try discriminate. now apply (H a eq_refl c b c').
Qed.

Lemma sc_split_quad ts tid ei ed v st : shows_change ts (d_split_quad ts tid ei ed v st) fst.
Proof.
  unfold d_split_quad. apply sc_lift_bind. intros t _. apply sc_lift_bind. intros r _.
  eapply sc_bind; [now apply sc_push|]. intros u. now apply sc_ret.
Qed.
Lemma sc_split_triangle ts tid v st : shows_change ts (d_split_triangle ts tid v st) fst.
Proof.
  unfold d_split_triangle. apply sc_lift_bind. intros r _. eapply sc_bind; [now apply sc_push|]. intros u. now apply sc_ret.
Qed.
Lemma sc_check_and_swap ts vs v t1 t2 st : shows_change ts (d_check_and_swap ts vs v t1 t2 st) fst.
Proof.
  unfold d_check_and_swap. apply sc_lift_bind. intros t _. destruct (quad_of_pair t t1 v) as ((q, n3), n4).
  apply sc_lift_bind. intros [|] _; [|now apply sc_ret]. apply sc_lift_bind. intros t0 _. apply sc_lift_bind. intros r _.
  eapply sc_bind; [now apply sc_push|]. intros u. now apply sc_ret.
Qed.
Lemma sc_restore fuel : forall ts vs v st, shows_change ts (d_restore_delaunay fuel ts vs v st) (fun x => x).
Proof.
  induction fuel as [|fuel IH]; intros ts vs v [|(t1, t2) st]; cbn [d_restore_delaunay]; try now apply sc_ret.
  - now apply sc_fail.
  - eapply sc_bind; [apply sc_check_and_swap|]. intros r. apply IH.
Qed.
Lemma sc_finish fuel vs m vid r : shows_change (fst r) (d_finish_insert fuel vs m vid r) s_ts.
Proof.
  unfold d_finish_insert. eapply sc_bind; [apply sc_restore|]. intros ts. apply sc_lift_bind. intros l _. now apply sc_ret.
Qed.
Lemma sc_insert fuel vs s vid : shows_change (s_ts s) (d_insert_vertex fuel vs s vid) s_ts.
Proof.
  unfold d_insert_vertex. apply sc_lift_bind. intros p _. apply sc_lift_bind. intros [t|t ei ed|] _; [| |now apply sc_fail].
  - eapply sc_bind; [apply sc_split_triangle|]. intros r. apply sc_finish.
  - apply sc_lift_bind. intros [|] _; [apply sc_lift_bind; intros; now apply sc_ret|].
    apply sc_lift_bind. intros [|] _; [apply sc_lift_bind; intros; now apply sc_ret|].
    eapply sc_bind; [apply sc_split_quad|]. intros r. apply sc_finish.
Qed.
Lemma sc_swap_quad ts v2t d q : shows_change ts (d_swap_quad_diagonal ts v2t d q) (fun r => fst (fst r)).
Proof.
  unfold d_swap_quad_diagonal. apply sc_lift_bind. intros t _. apply sc_lift_bind. intros t' _. apply sc_lift_bind. intros r _.
  cbv zeta. eapply sc_bind; [now apply sc_push|]. intros u. now apply sc_ret.
Qed.
Lemma sc_remove fuel : forall ts vs v2t cv inters news nc,
  shows_change ts (d_remove_crossed_edges fuel ts vs v2t cv inters news nc) (fun r => fst (fst r)).
Proof.
  induction fuel as [|fuel IH]; intros ts vs v2t cv [|d inters] news nc; cbn [d_remove_crossed_edges]; try now apply sc_ret.
  - now apply sc_fail.
  - destruct (lenN inters <? nc); [now apply sc_fail|]. apply sc_lift_bind. intros q _. apply sc_lift_bind. intros x _.
    destruct (negb (is_crossing x)); [apply IH|]. eapply sc_bind; [apply sc_swap_quad|]. intros ((ts', v2t'), upd). simpl.
    apply sc_lift_bind. intros y _. destruct (is_crossing y); apply IH.
Qed.
Lemma sc_restore_constrained fuel : forall ts vs v2t ce news hist,
  shows_change ts (d_restore_constrained fuel ts vs v2t ce news hist) fst.
Proof.
  induction fuel as [|fuel IH]; intros ts vs v2t ce [|d news] hist; cbn [d_restore_constrained]; try now apply sc_ret.
  - now apply sc_fail.
  - destruct (undirected_equals (d_edge d) ce); [apply IH|]. apply sc_lift_bind. intros q _. apply sc_lift_bind. intros sw _.
    destruct (sw && _); [|apply IH]. eapply sc_bind; [apply sc_swap_quad|]. intros ((ts', v2t'), upd). simpl. apply IH.
Qed.
Lemma sc_apply fuel vs m s raw : shows_change (c_ts s) (d_apply_constraint fuel vs m s raw) c_ts.
Proof.
  unfold d_apply_constraint. apply sc_lift_bind. intros a _. apply sc_lift_bind. intros b _. cbv zeta.
  destruct ((a =? b) || _); [now apply sc_ret|]. apply sc_lift_bind. intros cv _. apply sc_lift_bind. intros [|d inters] _; [now apply sc_ret|].
  eapply sc_bind; [apply sc_remove|]. intros ((ts, v2t), news). simpl.
  eapply sc_bind; [apply sc_restore_constrained|]. intros (ts', v2t'). now apply sc_ret.
Qed.
Lemma sc_dloop {A X} (f : A -> X -> D A) (mesh : A -> list tri) :
  (forall a x, shows_change (mesh a) (f a x) mesh) -> forall l a, shows_change (mesh a) (dloop f l a) mesh.
Proof.
  intros Hf l. induction l as [|x l IH]; intros a; [now apply sc_ret|]. intros c b c' T Q. rewrite dloop_cons in Q.
  assert (T' : tracks (mesh a) (fst (advance_step c))) by exact T.
  destruct (advance_step c) as (d, [|]); [injection Q as <- <-; exact T'|]. simpl in T'.
  exact (sc_bind (mesh a) (f a x) (fun a' => dloop f l a') mesh mesh (Hf a x) IH d b c' T' Q).
Qed.
Lemma wrap_tracks fuel bins nvs m c s c' : all_recorded c -> d_wrap_and_triangulate fuel bins nvs m c = (Ret s, c') -> tracks (s_ts s) c'.
Proof.
  intros R. unfold d_wrap_and_triangulate. destruct (bin_sort bins nvs) as [order| | |]; try discriminate.
  rewrite dbind_ret. destruct order as [|first rest]; [discriminate|]. cbv zeta.
  replace (last_id (create_initial_triangles first)) with (Ret (as_id 3)) by reflexivity. rewrite dbind_ret, dbind_push.
  apply (sc_dloop (d_insert_vertex fuel nvs) s_ts); [intros; apply sc_insert|]. now apply tracks_change.
Qed.

Lemma filter_filter {A} (f g : A -> bool) l : filter f (filter g l) = filter (fun x => g x && f x) l.
Proof. induction l as [|x l IH]; simpl; auto. destruct (g x); simpl; [destruct (f x); now rewrite IH|exact IH]. Qed.
Lemma filter_ext_in' {A} (f g : A -> bool) l : (forall x, In x l -> f x = g x) -> filter f l = filter g l.
Proof. apply filter_ext_in. Qed.

(** From the run with a forced end to the complete run. *)
Lemma forced_shown i ts cu cf : snapshots_before (i + 1) cf = snapshots_before (i + 1) cu ->
  (forall sn, In sn (x_snapshots cf) -> changes (sn_phase sn) -> sn_step sn < i + 1) ->
  tracks ts cf -> shown_after i (x_snapshots cu) ts.
Proof.
  intros B C (_ & b & sn & H1 & H2). exists b, sn. split; [|exact H2]. rewrite <- H1.
  transitivity (filter (fun sn => is_change (sn_phase sn)) (snapshots_before (i + 1) cu)).
  - unfold snapshots_before. rewrite filter_filter. apply filter_ext_in'. intros x _. f_equal.
    apply eq_true_iff_eq. rewrite N.leb_le, N.ltb_lt. lia.
  - rewrite <- B. unfold snapshots_before. rewrite filter_filter. apply filter_ext_in'. intros x Hx.
    destruct (is_change (sn_phase x)) eqn:Q; [|now rewrite andb_false_r]. rewrite andb_true_r.
    apply N.ltb_lt. apply C; auto. now apply is_change_iff.
Qed.

Lemma dt_replay fuel bins vs i s : 3 <= lenN vs ->
  wrap_first (N.to_nat i) fuel bins (normalized vs) None = Ret s ->
  shown_after i (x_snapshots (snd (d_triangulation_from_2d_vertices default_config fuel bins vs))) (s_ts s).
Proof.
  intros L W. apply (forced_shown i _ _ (snd (d_triangulation_from_2d_vertices (forced default_config (i + 1)) fuel bins vs))).
  - rewrite dt_forced_snapshots. reflexivity.
  - intros sn H C. apply (dt_forced_still default_config (i + 1) fuel bins vs sn); auto. lia.
  - rewrite dt_entry. replace (lenN vs <? 3) with false by (symmetry; now apply N.ltb_ge). unfold normalized in W.
    destruct (normalize_vertices_coordinates vs) as (((nvs, sc), xm), ym). simpl in W.
    destruct (wrap_forced (i + 1) fuel bins nvs None (new_context (forced default_config (i + 1)) sc xm ym) eq_refl eq_refl) as (K & _).
    replace (i + 1 - 1) with i in K by lia. rewrite W in K. unfold dt_body, dbind.
    destruct (d_wrap_and_triangulate fuel bins nvs None _) as (r, c) eqn:Q. simpl in K. subst r. simpl.
    apply tracks_other; [reflexivity|]. eapply wrap_tracks; [|exact Q]. now split.
Qed.

Lemma cdt_replay fuel bins vs cs i s mapping ts cset : 3 <= lenN vs ->
  wrap_first (N.to_nat i) fuel bins (normalized vs) (Some (rangeN 0 (length vs))) = Ret s ->
  s_map s = Some mapping ->
  apply_constraints fuel (normalized vs) (s_ts s) (firstn (N.to_nat (i + 1 - lenN vs)) cs) mapping = Ret (ts, cset) ->
  shown_after i (x_snapshots (snd (d_constrained_triangulation_from_2d_vertices default_config fuel bins vs cs))) ts.
Proof.
  intros L W Hm Ha. apply (forced_shown i _ _ (snd (d_constrained_triangulation_from_2d_vertices (forced default_config (i + 1)) fuel bins vs cs))).
  - rewrite cdt_forced_snapshots. reflexivity.
  - intros sn H C. apply (cdt_forced_still default_config (i + 1) fuel bins vs cs sn); auto. lia.
  - rewrite cdt_entry. replace (lenN vs <? 3) with false by (symmetry; now apply N.ltb_ge).
    rewrite <- (normalized_lenN vs) in Ha. unfold normalized in W, Ha.
    destruct (normalize_vertices_coordinates vs) as (((nvs, sc), xm), ym). simpl in W, Ha.
    destruct (wrap_forced (i + 1) fuel bins nvs (Some (rangeN 0 (length vs))) (new_context (forced default_config (i + 1)) sc xm ym) eq_refl eq_refl) as (K & K2 & K3).
    replace (i + 1 - 1) with i in K by lia. rewrite W in K. unfold cdt_body. unfold dbind at 1.
    destruct (d_wrap_and_triangulate fuel bins nvs _ _) as (r, c) eqn:Q. simpl in K, K2, K3. subst r. specialize (K3 s eq_refl).
    assert (T : tracks (s_ts s) c) by (eapply wrap_tracks; [|exact Q]; now split).
    unfold cdt_tail. rewrite dbind_push, Hm.
    set (c1 := push_snapshot_event BeforeConstraints Snapshot (s_ts s) [] [] c).
    assert (T1 : tracks (s_ts s) c1) by now apply tracks_other.
    unfold apply_constraints in Ha. unfold d_apply_constraints.
    destruct (index_triangles (repeat 0 (length nvs)) 0 (s_ts s)) as [v2t| | |]; try discriminate. cbn [bind] in Ha.
    destruct (dloop_forced (d_apply_constraint fuel nvs mapping) (apply_constraint fuel nvs mapping) (i + 1) (erases_apply_constraint fuel nvs mapping)
      (quiet_apply fuel nvs mapping) cs (CSt (s_ts s) v2t []) c1) as (L1 & _).
    { unfold c1. rewrite push_config, K2. reflexivity. }
    replace (x_step c1) with (x_step c) in L1 by (unfold c1; now rewrite push_step). rewrite K3 in L1.
    destruct (foldM (apply_constraint fuel nvs mapping) (firstn (N.to_nat (i + 1 - lenN nvs)) cs) _) as [st| | |] eqn:Fm; try discriminate.
    cbn [bind] in Ha. injection Ha as <- <-.
    destruct (dloop (d_apply_constraint fuel nvs mapping) cs {| c_ts := s_ts s; c_v2t := v2t; c_set := [] |} c1) as (r, c2) eqn:Dl.
    simpl in L1. subst r.
    assert (T2 : tracks (c_ts st) c2).
    { apply (sc_dloop (d_apply_constraint fuel nvs mapping) c_ts (fun a x => sc_apply fuel nvs mapping a x) cs (CSt (s_ts s) v2t []) c1 st c2 T1 Dl). }
    unfold dbind at 1. unfold dbind at 1. simpl lift. unfold lift. unfold dbind at 1. rewrite Dl. simpl dret. unfold dret at 1.
    rewrite dbind_push. simpl fst. simpl snd.
    match goal with |- tracks _ (snd (d_cdt_filter_triangles _ _ _ ?x)) => set (c3 := x) end.
    assert (T3 : tracks (c_ts st) c3) by now apply tracks_other.
    apply (inv_cdt_filter (tracks (c_ts st)) (fun p _ => is_change p = false)); auto.
    intros p e ts0 ids nbs d Hp Hd. now apply tracks_other.
Qed.
End WithEnv.
