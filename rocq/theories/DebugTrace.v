(** * DebugTrace: the forced end, and what the snapshots show. *)

From Coq Require Import NArith List Bool Lia Sorted.
From Verif Require Import Base BaseFacts Arith Types Utils Infinite Triangulation Constrained AnyDT DTOut ApiGrid Debug SpecDebug DebugFacts.
Import ListNotations.
Local Open Scope N_scope.

Section WithEnv.
Context {E : Env}.

(** ** Invariants of one context *)
Section Invariant.
Variable I : debug_context -> Prop.
Variable P : phase -> event -> Prop.
Hypothesis Ipush : forall p e ts ids nbs c, P p e -> I c -> I (push_snapshot_event p e ts ids nbs c).

Lemma inv_push p e ts ids nbs c1 c2 : P p e -> c1 = c2 /\ I c1 ->
  push_snapshot_event p e ts ids nbs c1 = push_snapshot_event p e ts ids nbs c2 /\ I (push_snapshot_event p e ts ids nbs c1).
Proof. intros Hp (-> & H). auto. Qed.

Lemma inv_bind {A B} (m : D A) (k : A -> D B) c : I (snd (m c)) -> (forall a c', fst (m c) = Ret a -> c' = snd (m c) -> I c' -> I (snd (k a c'))) ->
  I (snd (dbind m k c)).
Proof. intros Hm Hk. unfold dbind. destruct (m c) as (r, c'). simpl in *. destruct r; simpl; auto. Qed.

Lemma inv_restore fuel ts vs v st c : P DelaunayRestoreSwapQuadDiagonals Snapshot -> I c -> I (snd (d_restore_delaunay fuel ts vs v st c)).
Proof. intros H3. apply sim_inv. apply (sim_restore_delaunay _ P); auto using inv_push. Qed.

Lemma inv_insert fuel vs s vid c :
  P SplitTriangle (Split vid) -> P SplitQuad (Split vid) -> P DelaunayRestoreSwapQuadDiagonals Snapshot ->
  I c -> I (snd (d_insert_vertex fuel vs s vid c)).
Proof.
  intros H1 H2 H3 Hc. unfold d_insert_vertex.
  assert (F : forall m r c', I c' -> I (snd (d_finish_insert fuel vs m vid r c'))).
  { intros m r c' H. unfold d_finish_insert. apply inv_bind; [now apply inv_restore|]. intros a c'' _ _ H'.
    now apply inv_bind. }
  apply inv_bind; auto. intros p c1 _ _ I1. apply inv_bind; auto. intros [t|t ei ed|] c2 _ _ I2; auto.
  - apply inv_bind; [|intros; now apply F]. unfold d_split_triangle. apply inv_bind; auto. intros r c3 _ _ I3.
    apply inv_bind; auto. simpl. now apply Ipush.
  - apply inv_bind; auto. intros [|] c3 _ _ I3; [now apply inv_bind|].
    apply inv_bind; auto. intros [|] c4 _ _ I4; [now apply inv_bind|].
    apply inv_bind; [|intros; now apply F]. unfold d_split_quad. apply inv_bind; auto. intros t0 c5 _ _ I5.
    apply inv_bind; auto. intros r c6 _ _ I6. apply inv_bind; auto. simpl. now apply Ipush.
Qed.

Lemma inv_apply fuel vs m s raw c : P ConstrainedSwapQuadDiagonals Snapshot -> I c -> I (snd (d_apply_constraint fuel vs m s raw c)).
Proof. intros H4. apply sim_inv. apply (sim_apply_constraint _ P); auto using inv_push. Qed.

(** A loop whose body may rely on what holds after the step is counted. *)
Lemma inv_dloop {A X} (f : A -> X -> D A) :
  (forall c, I c -> I (fst (advance_step c))) ->
  (forall a x c, I c -> snd (advance_step c) = false -> I (snd (f a x (fst (advance_step c))))) ->
  forall l a c, I c -> I (snd (dloop f l a c)).
Proof.
  intros Ha Hf l. induction l as [|x l IH]; intros a c Hc; auto. rewrite dloop_cons.
  pose proof (Ha c Hc) as K. pose proof (Hf a x c Hc) as K'. destruct (advance_step c) as (c', [|]); auto.
  simpl in K, K'. apply inv_bind; auto.
Qed.

Lemma inv_cdt_filter fuel ts cset c : P FilterTriangles Snapshot -> I c -> I (snd (d_cdt_filter_triangles fuel ts cset c)).
Proof.
  intros H8 Hc. unfold d_cdt_filter_triangles. apply inv_bind; auto. intros a c1 _ _ I1. apply inv_bind; auto.
  intros b c2 _ _ I2. apply inv_bind; auto. simpl. auto.
Qed.
End Invariant.

Lemma dbind_ret {A B} (a : A) (k : A -> D B) c : dbind (lift (Ret a)) k c = k a c.
Proof. reflexivity. Qed.
Lemma dbind_push {B} p e ts ids nbs (k : unit -> D B) c :
  dbind (push p e ts ids nbs) k c = k tt (push_snapshot_event p e ts ids nbs c).
Proof. reflexivity. Qed.

Lemma dbind_inv {A B} (m : D A) (k : A -> D B) c b : fst (dbind m k c) = Ret b ->
  exists a c', m c = (Ret a, c') /\ dbind m k c = k a c'.
Proof. unfold dbind. destruct (m c) as (r, c'). destruct r; try discriminate. eauto. Qed.

(** ** The forced end: the result *)
Definition quiet {A} (m : D A) : Prop := forall c, x_config (snd (m c)) = x_config c /\ x_step (snd (m c)) = x_step c.

Lemma quiet_insert fuel vs s vid : quiet (d_insert_vertex fuel vs s vid).
Proof.
  intros c. apply (inv_insert (fun c' => x_config c' = x_config c /\ x_step c' = x_step c) (fun _ _ => True)); auto.
  intros. now rewrite push_config, push_step.
Qed.
Lemma quiet_apply fuel vs m s raw : quiet (d_apply_constraint fuel vs m s raw).
Proof.
  intros c. apply (inv_apply (fun c' => x_config c' = x_config c /\ x_step c' = x_step c) (fun _ _ => True)); auto.
  intros. now rewrite push_config, push_step.
Qed.

Lemma dloop_forced {A X} (f : A -> X -> D A) (g : A -> X -> res A) k :
  (forall a x, erases (f a x) (g a x)) -> (forall a x, quiet (f a x)) ->
  forall l a c, cfg_force_end (x_config c) = Some k ->
  fst (dloop f l a c) = foldM g (firstn (N.to_nat (k - 1 - x_step c)) l) a /\
  x_config (snd (dloop f l a c)) = x_config c /\
  (forall a', fst (dloop f l a c) = Ret a' -> k - 1 - x_step (snd (dloop f l a c)) = k - 1 - x_step c - lenN l).
Proof.
  intros Hf Hq l. induction l as [|x l IH]; intros a c Hc.
  { simpl. rewrite firstn_nil. repeat split; auto. intros. unfold lenN. simpl. lia. }
  rewrite dloop_cons. unfold advance_step. rewrite Hc. destruct (k <=? x_step c + 1) eqn:Q.
  - apply N.leb_le in Q. replace (k - 1 - x_step c) with 0 by lia. simpl. repeat split; auto. intros. lia.
  - apply N.leb_gt in Q.
    set (c' := Ctx (x_config c) (x_scale_factor c) (x_x_min c) (x_y_min c) (x_snapshots c) (x_step c + 1)).
    replace (N.to_nat (k - 1 - x_step c)) with (S (N.to_nat (k - 1 - x_step c'))) by (unfold c'; simpl; lia).
    cbn [firstn foldM]. unfold dbind. pose proof (Hf a x c') as E1. destruct (Hq a x c') as (E2 & E3).
    destruct (f a x c') as (r, c''). simpl in E1, E2, E3. subst r.
    destruct (g a x) as [a'| | |]; simpl; try now (repeat split; auto; discriminate).
    destruct (IH a' c'') as (K1 & K2 & K3); [now rewrite E2|]. rewrite E3 in K1, K3. rewrite E2 in K2.
    split; [exact K1|]. split; [exact K2|]. intros b Hb. rewrite (K3 b Hb). unfold lenN. simpl. lia.
Qed.

Lemma wrap_forced k fuel bins nvs m c : cfg_force_end (x_config c) = Some k -> x_step c = 0 ->
  fst (d_wrap_and_triangulate fuel bins nvs m c) = wrap_first (N.to_nat (k - 1)) fuel bins nvs m /\
  x_config (snd (d_wrap_and_triangulate fuel bins nvs m c)) = x_config c /\
  (forall s, fst (d_wrap_and_triangulate fuel bins nvs m c) = Ret s ->
     k - 1 - x_step (snd (d_wrap_and_triangulate fuel bins nvs m c)) = k - lenN nvs).
Proof.
  intros Hc Hs. unfold d_wrap_and_triangulate, wrap_first.
  destruct (bin_sort bins nvs) as [order| | |] eqn:B; try now (repeat split; auto; discriminate).
  destruct (bin_sort_inv _ _ _ B) as (L & _). rewrite !dbind_ret. cbn [bind].
  destruct order as [|first rest]; [now (repeat split; auto; discriminate)|].
  cbv zeta. replace (last_id (create_initial_triangles first)) with (Ret (as_id 3)) by reflexivity. rewrite !dbind_ret, !dbind_push.
  cbn [bind]. set (l := as_id 3).
  set (c' := push_snapshot_event FirstVertexInsertion Snapshot (create_initial_triangles first) [0] [] c).
  destruct (dloop_forced (d_insert_vertex fuel nvs) (insert_vertex fuel nvs) k (erases_insert_vertex fuel nvs)
     (quiet_insert fuel nvs) rest (St (create_initial_triangles first) l m) c') as (K1 & K2 & K3).
  { unfold c'. now rewrite push_config. }
  replace (x_step c') with 0 in K1, K3 by (unfold c'; now rewrite push_step).
  replace (x_config c') with (x_config c) in K2 by (unfold c'; now rewrite push_config).
  rewrite N.sub_0_r in K1. split; [exact K1|]. split; [exact K2|]. intros s H. rewrite (K3 s H). unfold lenN in *. simpl in L. lia.
Qed.

Lemma dt_forced cfg k fuel bins vs :
  fst (d_triangulation_from_2d_vertices (forced cfg k) fuel bins vs) =
  if lenN vs <? 3 then Ret []
  else let* s := wrap_first (N.to_nat (k - 1)) fuel bins (normalized vs) None in
       Ret (filter_triangles (s_ts s)).
Proof.
  rewrite dt_entry. destruct (lenN vs <? 3); auto. unfold normalized.
  destruct (normalize_vertices_coordinates vs) as (((nvs, sc), xm), ym). simpl fst. unfold dt_body, dbind.
  destruct (wrap_forced k fuel bins nvs None (new_context (forced cfg k) sc xm ym) eq_refl eq_refl) as (K & _ & _).
  destruct (d_wrap_and_triangulate _ _ _ _ _) as (r, c'). simpl in K. rewrite <- K. now destruct r.
Qed.

Lemma cdt_forced cfg k fuel bins vs cs :
  fst (d_constrained_triangulation_from_2d_vertices (forced cfg k) fuel bins vs cs) =
  if lenN vs <? 3 then Ret []
  else let nvs := normalized vs in
       let* s := wrap_first (N.to_nat (k - 1)) fuel bins nvs (Some (rangeN 0 (length vs))) in
       match s_map s with
       | None => Panic
       | Some mapping =>
           let* r := apply_constraints fuel nvs (s_ts s) (firstn (N.to_nat (k - lenN nvs)) cs) mapping in
           cdt_filter_triangles fuel (fst r) (snd r)
       end.
Proof.
  rewrite cdt_entry. destruct (lenN vs <? 3); auto. unfold normalized.
  destruct (normalize_vertices_coordinates vs) as (((nvs, sc), xm), ym). simpl fst. unfold cdt_body. cbv zeta.
  destruct (wrap_forced k fuel bins nvs (Some (rangeN 0 (length vs))) (new_context (forced cfg k) sc xm ym) eq_refl eq_refl) as (K & K2 & K3).
  unfold dbind at 1. destruct (d_wrap_and_triangulate _ _ _ _ _) as (r, c'). simpl in K, K2, K3. rewrite <- K.
  destruct r as [s| | |]; simpl; auto. specialize (K3 s eq_refl).
  unfold cdt_tail. unfold dbind at 1. simpl push.
  destruct (s_map s) as [mapping|]; [|reflexivity].
  unfold push. unfold d_apply_constraints, apply_constraints. unfold dbind at 1 2.
  set (c1 := push_snapshot_event BeforeConstraints Snapshot (s_ts s) [] [] c').
  simpl lift. destruct (index_triangles (repeat 0 (length nvs)) 0 (s_ts s)) as [v2t| | |]; simpl; auto. unfold dbind at 1 2.
  destruct (dloop_forced (d_apply_constraint fuel nvs mapping) (apply_constraint fuel nvs mapping) k (erases_apply_constraint fuel nvs mapping)
     (quiet_apply fuel nvs mapping) cs (CSt (s_ts s) v2t []) c1) as (L1 & L2 & _).
  { unfold c1. rewrite push_config, K2. reflexivity. }
  unfold c1 in L1 at 2. rewrite push_step, K3 in L1. rewrite <- L1.
  destruct (dloop _ cs _ c1) as (r, c2). simpl. destruct r as [s'| | |]; simpl; auto. apply erases_cdt_filter.
Qed.

Lemma wrap_first_all k fuel bins nvs m : lenN nvs <= k -> wrap_first (N.to_nat (k - 1)) fuel bins nvs m = wrap_and_triangulate fuel bins nvs m.
Proof.
  intros H. unfold wrap_first, wrap_and_triangulate. destruct (bin_sort bins nvs) as [order| | |] eqn:B; simpl; auto.
  destruct (bin_sort_inv _ _ _ B) as (L & _). destruct order as [|first rest]; auto.
  rewrite firstn_all2; auto. unfold lenN in H. simpl in L. lia.
Qed.

Lemma dt_forced_late cfg k fuel bins vs : lenN vs <= k ->
  fst (d_triangulation_from_2d_vertices (forced cfg k) fuel bins vs) = triangulation_from_2d_vertices fuel bins vs.
Proof.
  intros H. rewrite dt_forced. unfold triangulation_from_2d_vertices. destruct (lenN vs <? 3); auto.
  rewrite wrap_first_all by now rewrite normalized_lenN. unfold normalized.
  now destruct (normalize_vertices_coordinates vs) as (((nvs, sc), xm), ym).
Qed.
Lemma cdt_forced_late cfg k fuel bins vs cs : lenN vs <= k ->
  fst (d_constrained_triangulation_from_2d_vertices (forced cfg k) fuel bins vs cs) =
  constrained_triangulation_from_2d_vertices fuel bins vs (firstn (N.to_nat (k - lenN vs)) cs).
Proof.
  intros H. rewrite cdt_forced. unfold constrained_triangulation_from_2d_vertices. destruct (lenN vs <? 3); auto.
  cbv zeta. rewrite wrap_first_all, normalized_lenN by now rewrite normalized_lenN. unfold normalized.
  destruct (normalize_vertices_coordinates vs) as (((nvs, sc), xm), ym). simpl fst.
  destruct (wrap_and_triangulate _ _ _ _) as [s| | |]; simpl; auto. destruct (s_map s); auto.
  destruct (apply_constraints _ _ _ _ _) as [(ts, cset)| | |]; auto.
Qed.

(** ** The forced end: the snapshots *)
Section Before.
Variables (cfg : debug_config) (k : N).

Definition past (X : list snapshot) (c : debug_context) : Prop := snapshots_before k c = X /\ k <= x_step c.

Lemma past_push X p e ts ids nbs c : past X c -> past X (push_snapshot_event p e ts ids nbs c).
Proof.
  intros (H & L). split; [|now rewrite push_step]. unfold snapshots_before in *. rewrite <- H. unfold push_snapshot_event.
  destruct (negb _); auto. destruct (record_step _ _); auto. simpl. rewrite filter_app. simpl.
  replace (x_step c <? k) with false by (symmetry; now apply N.ltb_ge). apply app_nil_r.
Qed.
Lemma past_advance X c : past X c -> past X (fst (advance_step c)).
Proof. intros (H & L). split; [exact H|]. simpl. lia. Qed.
Lemma past_insert X fuel vs s vid c : past X c -> past X (snd (d_insert_vertex fuel vs s vid c)).
Proof. apply (inv_insert _ (fun _ _ => True)); auto using past_push. Qed.
Lemma past_apply X fuel vs m s raw c : past X c -> past X (snd (d_apply_constraint fuel vs m s raw c)).
Proof. apply (inv_apply _ (fun _ _ => True)); auto using past_push. Qed.
Lemma past_dloop X {A B} (f : A -> B -> D A) : (forall a x c, past X c -> past X (snd (f a x c))) ->
  forall l a c, past X c -> past X (snd (dloop f l a c)).
Proof. intros Hf l a c. apply inv_dloop; auto using past_advance. Qed.

Definition together (c1 c2 : debug_context) : Prop :=
  x_config c1 = forced cfg k /\ x_config c2 = unforced cfg /\ x_step c1 = x_step c2 /\
  x_snapshots c1 = x_snapshots c2 /\ x_step c1 < k.

Lemma together_push p e ts ids nbs c1 c2 : True -> together c1 c2 ->
  together (push_snapshot_event p e ts ids nbs c1) (push_snapshot_event p e ts ids nbs c2).
Proof.
  intros _ (C1 & C2 & S & N & L). unfold together. rewrite !push_config, !push_step. repeat (split; [assumption|]).
  split; [|assumption]. unfold push_snapshot_event. rewrite C1, C2. simpl. rewrite <- S.
  destruct (negb _); auto. destruct (record_step _ _); auto. simpl. now rewrite N.
Qed.

(** Either both runs are still at the same step before [k], or both are past it. *)
Definition outcome {A} (o1 o2 : res A * debug_context) : Prop :=
  (fst o1 = fst o2 /\ together (snd o1) (snd o2)) \/ (exists X, past X (snd o1) /\ past X (snd o2)).

Lemma outcome_sim {A} (m : D A) : sim together m -> forall c1 c2, together c1 c2 -> outcome (m c1) (m c2).
Proof. intros S c1 c2 H. left. now apply S. Qed.
Lemma outcome_bind {A B} (m : D A) (g : A -> D B) c1 c2 :
  outcome (m c1) (m c2) -> (forall a d1 d2, together d1 d2 -> outcome (g a d1) (g a d2)) ->
  (forall X a c, past X c -> past X (snd (g a c))) -> outcome (dbind m g c1) (dbind m g c2).
Proof.
  intros O Hk Hp. unfold dbind. destruct (m c1) as (r1, d1), (m c2) as (r2, d2). destruct O as [(Q & T)|(X & P1 & P2)]; simpl in *.
  - subst r2. destruct r1; simpl; auto; left; auto.
  - right. exists X. split; [destruct r1|destruct r2]; simpl; auto.
Qed.
Lemma outcome_dloop {A B} (f : A -> B -> D A) :
  (forall a x, sim together (f a x)) -> (forall X a x c, past X c -> past X (snd (f a x c))) ->
  forall l a c1 c2, together c1 c2 -> outcome (dloop f l a c1) (dloop f l a c2).
Proof.
  intros Hs Hp l. induction l as [|x l IH]; intros a c1 c2 T; [now left|].
  rewrite !dloop_cons. destruct T as (C1 & C2 & S & N & L).
  unfold advance_step at 1 2. rewrite C1, C2. simpl. rewrite <- S. destruct (k <=? x_step c1 + 1) eqn:Q.
  - right. apply N.leb_le in Q. exists (snapshots_before k c1).
    match goal with |- context [dbind _ _ ?c] => set (d := c) end.
    assert (P2 : past (snapshots_before k c1) d).
    { split; [unfold snapshots_before; simpl; now rewrite N|exact Q]. }
    split; [split; [reflexivity|exact Q]|].
    unfold dbind. pose proof (Hp _ a x d P2) as P3. destruct (f a x d) as (r, d'). simpl in P3. destruct r; simpl; auto.
    apply past_dloop; auto.
  - apply N.leb_gt in Q. apply outcome_bind; auto.
    + apply outcome_sim; [apply Hs|]. repeat split; auto.
    + intros X b c. apply past_dloop. auto.
Qed.
Lemma outcome_before {A} (o1 o2 : res A * debug_context) : outcome o1 o2 -> snapshots_before k (snd o1) = snapshots_before k (snd o2).
Proof.
  intros [(_ & _ & _ & _ & N & _)|(X & (P1 & _) & (P2 & _))]; [|congruence]. unfold snapshots_before. now rewrite N.
Qed.

Lemma outcome_wrap fuel bins nvs m c1 c2 : together c1 c2 ->
  outcome (d_wrap_and_triangulate fuel bins nvs m c1) (d_wrap_and_triangulate fuel bins nvs m c2).
Proof.
  intros T. unfold d_wrap_and_triangulate. destruct (bin_sort bins nvs) as [order| | |]; try now left.
  rewrite !dbind_ret. destruct order as [|first rest]; [now left|]. cbv zeta.
  destruct (last_id (create_initial_triangles first)) as [l| | |]; try now left. rewrite !dbind_ret, !dbind_push.
  apply outcome_dloop; [| |now apply together_push].
  - intros a x. apply (sim_insert_vertex _ (fun _ _ => True)); auto using together_push.
  - intros. now apply past_insert.
Qed.
Lemma outcome_push {B} p e ts ids nbs (g : D B) c1 c2 : together c1 c2 ->
  (forall d1 d2, together d1 d2 -> outcome (g d1) (g d2)) ->
  outcome (dbind (push p e ts ids nbs) (fun _ => g) c1) (dbind (push p e ts ids nbs) (fun _ => g) c2).
Proof. intros T H. rewrite !dbind_push. apply H. now apply together_push. Qed.
Lemma past_cdt_filter X fuel ts cset c : past X c -> past X (snd (d_cdt_filter_triangles fuel ts cset c)).
Proof. apply (inv_cdt_filter _ (fun _ _ => True)); auto using past_push. Qed.
Lemma past_bind X {A B} (m : D A) (g : A -> D B) c : past X (snd (m c)) -> (forall a c', past X c' -> past X (snd (g a c'))) ->
  past X (snd (dbind m g c)).
Proof. intros H1 H2. apply inv_bind; auto. Qed.

Lemma past_filter X ts c : past X c -> past X (snd (d_filter_triangles ts c)).
Proof. intros H. unfold d_filter_triangles. rewrite dbind_push. now apply past_push. Qed.
Lemma past_constraints X fuel nvs ts cs mapping c : past X c -> past X (snd (d_apply_constraints fuel nvs ts cs mapping c)).
Proof.
  intros H. unfold d_apply_constraints. apply past_bind; auto. intros v2t c' H'. apply past_bind; auto.
  apply past_dloop; auto. intros. now apply past_apply.
Qed.
Lemma past_tail X fuel nvs cs s c : past X c -> past X (snd (cdt_tail fuel nvs cs s c)).
Proof.
  intros H. unfold cdt_tail. rewrite dbind_push. destruct (s_map s) as [mapping|]; [|now apply past_push].
  apply past_bind; [apply past_constraints; now apply past_push|]. intros a c' H'. rewrite dbind_push.
  apply past_cdt_filter. now apply past_push.
Qed.

Lemma outcome_dt fuel bins nvs c1 c2 : together c1 c2 -> outcome (dt_body fuel bins nvs c1) (dt_body fuel bins nvs c2).
Proof.
  intros T. unfold dt_body. apply outcome_bind; [now apply outcome_wrap| |intros; now apply past_filter].
  intros s d1 d2 T'. unfold d_filter_triangles. apply outcome_push; auto. intros. now left.
Qed.
Lemma outcome_cdt fuel bins n nvs cs c1 c2 : together c1 c2 -> outcome (cdt_body fuel bins n nvs cs c1) (cdt_body fuel bins n nvs cs c2).
Proof.
  intros T. unfold cdt_body. apply outcome_bind; [now apply outcome_wrap| |intros; now apply past_tail].
  intros s d1 d2 T'. unfold cdt_tail. apply outcome_push; auto. intros e1 e2 T2. destruct (s_map s) as [mapping|]; [|now left].
  apply outcome_bind.
  - unfold d_apply_constraints. destruct (index_triangles _ _ _) as [v2t| | |]; try now left. rewrite !dbind_ret.
    apply outcome_bind; [|intros; now left|auto]. apply outcome_dloop; auto.
    + intros a x. apply (sim_apply_constraint _ (fun _ _ => True)); auto using together_push.
    + intros. now apply past_apply.
  - intros r f1 f2 T3. apply outcome_push; auto. intros g1 g2 T4. left. 
    apply (sim_bind together); auto using sim_lift. intros a. apply sim_bind; auto using sim_lift. intros b.
    apply sim_bind; [|intros; apply sim_ret]. apply (sim_push _ (fun _ _ => True)); auto using together_push.
  - intros X r c H. rewrite dbind_push. apply past_cdt_filter. now apply past_push.
Qed.
End Before.

Lemma filter_false {A} (f : A -> bool) l : (forall x, In x l -> f x = false) -> filter f l = [].
Proof. induction l as [|x l IH]; simpl; auto. intros H. rewrite H by now left. auto. Qed.
Lemma before_0 c : snapshots_before 0 c = [].
Proof. apply filter_false. intros x _. apply N.ltb_ge. lia. Qed.

Lemma dt_forced_snapshots cfg k fuel bins vs :
  snapshots_before k (snd (d_triangulation_from_2d_vertices (forced cfg k) fuel bins vs)) =
  snapshots_before k (snd (d_triangulation_from_2d_vertices (unforced cfg) fuel bins vs)).
Proof.
  destruct (N.eq_dec k 0) as [->|K]; [now rewrite !before_0|].
  rewrite !dt_entry. destruct (lenN vs <? 3); auto. destruct (normalize_vertices_coordinates vs) as (((nvs, sc), xm), ym).
  apply (outcome_before cfg). apply outcome_dt. repeat split. simpl. lia.
Qed.
Lemma cdt_forced_snapshots cfg k fuel bins vs cs :
  snapshots_before k (snd (d_constrained_triangulation_from_2d_vertices (forced cfg k) fuel bins vs cs)) =
  snapshots_before k (snd (d_constrained_triangulation_from_2d_vertices (unforced cfg) fuel bins vs cs)).
Proof.
  destruct (N.eq_dec k 0) as [->|K]; [now rewrite !before_0|].
  rewrite !cdt_entry. destruct (lenN vs <? 3); auto. destruct (normalize_vertices_coordinates vs) as (((nvs, sc), xm), ym).
  apply (outcome_before cfg). apply outcome_cdt. repeat split. simpl. lia.
Qed.

(** ** Invariants of the whole list of snapshots *)
Lemma push_snapshots p e ts ids nbs c : x_snapshots (push_snapshot_event p e ts ids nbs c) = x_snapshots c \/
  exists ch, x_snapshots (push_snapshot_event p e ts ids nbs c) = x_snapshots c ++ [Snap (x_step c) p e ch ts].
Proof. unfold push_snapshot_event. destruct (negb _); auto. destruct (record_step _ _); auto. simpl. eauto. Qed.

(** No change after the forced end. *)
Section NoChange.
Variable k : N.
Definition still (c : debug_context) : Prop := cfg_force_end (x_config c) = Some k /\
  Forall (fun sn => changes (sn_phase sn) -> sn_step sn < k) (x_snapshots c).

Lemma still_push p e ts ids nbs c : (changes p -> x_step c < k) -> still c -> still (push_snapshot_event p e ts ids nbs c).
Proof.
  intros Hp (H & S). split; [now rewrite push_config|].
  destruct (push_snapshots p e ts ids nbs c) as [->|(ch & ->)]; auto. apply Forall_app. split; auto.
Qed.
Lemma still_advance c : still c -> still (fst (advance_step c)).
Proof. intros H. exact H. Qed.
Lemma still_dloop {A X} (f : A -> X -> D A) :
  (forall a x c, still c /\ x_step c < k -> still (snd (f a x c)) /\ x_step (snd (f a x c)) < k) ->
  forall l a c, still c -> still (snd (dloop f l a c)).
Proof.
  intros Hf l a c. apply inv_dloop; [apply still_advance|]. intros b x d H Q. apply Hf. split; [exact H|].
  unfold advance_step in *. destruct H as (H & _). simpl in *. rewrite H in Q. apply N.leb_gt in Q. exact Q.
Qed.
Lemma strict_push p e ts ids nbs c : still c /\ x_step c < k -> still (push_snapshot_event p e ts ids nbs c) /\ x_step (push_snapshot_event p e ts ids nbs c) < k.
Proof. intros (H & L). split; [|now rewrite push_step]. now apply still_push. Qed.

Ltac quietly := let H := fresh in intros H; unfold changes in H; intuition discriminate.

Lemma still_wrap fuel bins nvs m c : x_step c < k -> still c -> still (snd (d_wrap_and_triangulate fuel bins nvs m c)).
Proof.
  intros L H. unfold d_wrap_and_triangulate. apply inv_bind; auto. intros order c1 _ -> _.
  change (snd (lift (bin_sort bins nvs) c)) with c.
  destruct order as [|first rest]; [exact H|]. cbv zeta. apply inv_bind; auto. intros l c2 _ -> _. rewrite dbind_push.
  apply still_dloop; [|now apply still_push]. intros a x d.
  apply (inv_insert (fun c => still c /\ x_step c < k) (fun _ _ => True)); auto using strict_push.
Qed.
Lemma still_tail fuel nvs cs s c : still c -> still (snd (cdt_tail fuel nvs cs s c)).
Proof.
  intros H. unfold cdt_tail. rewrite dbind_push.
  assert (H1 : still (push_snapshot_event BeforeConstraints Snapshot (s_ts s) [] [] c)) by (apply still_push; auto; quietly).
  destruct (s_map s) as [mapping|]; [|exact H1].
  apply inv_bind.
  - unfold d_apply_constraints. apply inv_bind; auto. intros v2t c1 _ _ H2. apply inv_bind; [|auto].
    apply still_dloop; auto. intros a x d.
    apply (inv_apply (fun c => still c /\ x_step c < k) (fun _ _ => True)); auto using strict_push.
  - intros r c1 _ _ H2. rewrite dbind_push.
    apply (inv_cdt_filter still (fun p _ => p = FilterTriangles)); auto.
    + intros p e ts ids nbs d ->. apply still_push. quietly.
    + apply still_push; auto. quietly.
Qed.
End NoChange.

Lemma dt_forced_still cfg k fuel bins vs sn : 1 <= k ->
  In sn (x_snapshots (snd (d_triangulation_from_2d_vertices (forced cfg k) fuel bins vs))) -> changes (sn_phase sn) -> sn_step sn < k.
Proof.
  intros K. rewrite dt_entry. destruct (lenN vs <? 3); [contradiction|]. destruct (normalize_vertices_coordinates vs) as (((nvs, sc), xm), ym).
  intros H. assert (S : still k (snd (dt_body fuel bins nvs (new_context (forced cfg k) sc xm ym)))).
  { unfold dt_body. apply inv_bind.
    - apply still_wrap; [simpl; lia|]. split; [reflexivity|constructor].
    - intros s c _ _ H1. unfold d_filter_triangles. rewrite dbind_push. apply still_push; auto.
      intros Q. unfold changes in Q. intuition discriminate. }
  destruct S as (_ & S). rewrite Forall_forall in S. now apply S.
Qed.
Lemma cdt_forced_still cfg k fuel bins vs cs sn : 1 <= k ->
  In sn (x_snapshots (snd (d_constrained_triangulation_from_2d_vertices (forced cfg k) fuel bins vs cs))) -> changes (sn_phase sn) -> sn_step sn < k.
Proof.
  intros K. rewrite cdt_entry. destruct (lenN vs <? 3); [contradiction|]. destruct (normalize_vertices_coordinates vs) as (((nvs, sc), xm), ym).
  intros H. assert (S : still k (snd (cdt_body fuel bins (length vs) nvs cs (new_context (forced cfg k) sc xm ym)))).
  { unfold cdt_body. apply inv_bind.
    - apply still_wrap; [simpl; lia|]. split; [reflexivity|constructor].
    - intros s c _ _ H1. now apply still_tail. }
  destruct S as (_ & S). rewrite Forall_forall in S. now apply S.
Qed.

(** ** The split events and the order of the steps *)
Section Trace.
Variable order : list N.
Definition split_at (sn : snapshot) : Prop := forall v, sn_event sn = Split v -> nthN order (sn_step sn) = Some v.
Definition traced (c : debug_context) : Prop :=
  Forall split_at (x_snapshots c) /\ StronglySorted N.le (map sn_step (x_snapshots c)) /\
  Forall (fun sn => sn_step sn <= x_step c) (x_snapshots c).

Lemma sorted_snoc l x : StronglySorted N.le l -> Forall (fun y => y <= x) l -> StronglySorted N.le (l ++ [x]).
Proof.
  induction 1 as [|y l S IH F]; intros H; simpl; [repeat constructor|]. inversion H; subst. constructor; auto.
  apply Forall_app. split; auto.
Qed.
Lemma traced_push p e ts ids nbs c : (forall v, e = Split v -> nthN order (x_step c) = Some v) -> traced c ->
  traced (push_snapshot_event p e ts ids nbs c).
Proof.
  intros He (T1 & T2 & T3). unfold traced. rewrite push_step.
  destruct (push_snapshots p e ts ids nbs c) as [->|(ch & ->)]; auto. split; [|split].
  - apply Forall_app. split; auto.
  - rewrite map_app. simpl. apply sorted_snoc; auto. now apply Forall_map.
  - apply Forall_app. split; auto. repeat constructor. simpl. lia.
Qed.
Lemma traced_advance c : traced c -> traced (fst (advance_step c)).
Proof.
  intros (T1 & T2 & T3). split; [exact T1|]. split; [exact T2|]. simpl. eapply Forall_impl; [|exact T3].
  intros sn H. simpl in *. lia.
Qed.

Lemma traced_insert fuel nvs s vid c : nthN order (x_step c) = Some vid -> traced c ->
  traced (snd (d_insert_vertex fuel nvs s vid c)).
Proof.
  intros Hv T.
  apply (inv_insert (fun c' => traced c' /\ x_step c' = x_step c) (fun _ e => forall v, e = Split v -> v = vid)).
  - intros p e ts ids nbs d He (Hd & Hs). split; [|now rewrite push_step]. apply traced_push; auto.
    intros v Q. rewrite Hs, (He v Q). exact Hv.
  - intros v Q. congruence.
  - intros v Q. congruence.
  - intros v Q. congruence.
  - split; [exact T|reflexivity].
Qed.
Lemma traced_apply fuel nvs m s raw c : traced c -> traced (snd (d_apply_constraint fuel nvs m s raw c)).
Proof.
  apply (inv_apply traced (fun _ e => e = Snapshot)); auto. intros p e ts ids nbs d -> H. apply traced_push; auto. discriminate.
Qed.
Lemma traced_dloop {A} (f : A -> N -> D A) :
  (forall a x c, nthN order (x_step c) = Some x -> traced c -> traced (snd (f a x c))) -> (forall a x, quiet (f a x)) ->
  forall l a c pre, order = pre ++ l -> x_step c + 1 = lenN pre -> traced c -> traced (snd (dloop f l a c)).
Proof.
  intros Hf Hq l. induction l as [|x l IH]; intros a c pre Ho Hs T; [exact T|]. rewrite dloop_cons.
  pose proof (traced_advance c T) as T'. assert (S' : x_step (fst (advance_step c)) = lenN pre) by exact Hs.
  destruct (advance_step c) as (c', [|]); [exact T'|]. simpl in T', S'. unfold dbind.
  assert (T2 : traced (snd (f a x c'))).
  { apply Hf; auto. rewrite S', Ho. unfold lenN. rewrite nthN_nth_error, nth_error_app2; [|lia].
    replace (N.to_nat (N.of_nat (length pre)) - length pre)%nat with 0%nat by lia. reflexivity. }
  destruct (Hq a x c') as (_ & Q2). destruct (f a x c') as (r, c''). simpl in T2, Q2. destruct r as [a'| | |]; auto.
  apply (IH a' c'' (pre ++ [x])); auto.
  - now rewrite <- app_assoc.
  - rewrite Q2, S'. unfold lenN. rewrite app_length. simpl. lia.
Qed.
Lemma traced_dloop' {A X} (f : A -> X -> D A) :
  (forall a x c, traced c -> traced (snd (f a x c))) -> forall l a c, traced c -> traced (snd (dloop f l a c)).
Proof. intros Hf l a c. apply inv_dloop; auto using traced_advance. Qed.
Lemma traced_tail fuel nvs cs s c : traced c -> traced (snd (cdt_tail fuel nvs cs s c)).
Proof.
  intros H. unfold cdt_tail. rewrite dbind_push.
  assert (H1 : traced (push_snapshot_event BeforeConstraints Snapshot (s_ts s) [] [] c)) by (apply traced_push; auto; discriminate).
  destruct (s_map s) as [mapping|]; [|exact H1]. apply inv_bind.
  - unfold d_apply_constraints. apply inv_bind; auto. intros v2t c1 _ _ H2. apply inv_bind; [|auto].
    apply traced_dloop'; auto. intros. now apply traced_apply.
  - intros r c1 _ _ H2. rewrite dbind_push. apply (inv_cdt_filter traced (fun _ e => e = Snapshot)); auto.
    + intros p e ts ids nbs d -> Hd. apply traced_push; auto. discriminate.
    + apply traced_push; auto. discriminate.
Qed.
End Trace.

Lemma traced_wrap bins fuel nvs m c order : bin_sort bins nvs = Ret order -> x_step c = 0 -> x_snapshots c = [] ->
  traced order (snd (d_wrap_and_triangulate fuel bins nvs m c)).
Proof.
  intros B S N. assert (T : traced order c) by (unfold traced; rewrite N; repeat constructor).
  unfold d_wrap_and_triangulate. rewrite B, dbind_ret. destruct order as [|first rest]; [exact T|].
  cbv zeta. apply inv_bind; auto. intros l c1 _ -> _. rewrite dbind_push.
  apply (traced_dloop (first :: rest) (d_insert_vertex fuel nvs)) with (pre := [first]); auto.
  - intros. now apply traced_insert.
  - apply quiet_insert.
  - rewrite push_step. simpl. rewrite S. reflexivity.
  - apply traced_push; auto. discriminate.
Qed.
Lemma no_order_wrap bins fuel nvs m c : (forall order, bin_sort bins nvs <> Ret order) -> x_snapshots c = [] ->
  (forall s, fst (d_wrap_and_triangulate fuel bins nvs m c) <> Ret s) /\ x_snapshots (snd (d_wrap_and_triangulate fuel bins nvs m c)) = [].
Proof.
  intros B N. unfold d_wrap_and_triangulate. destruct (bin_sort bins nvs) as [order| | |]; [now destruct (B order)| | |];
    (split; [discriminate|exact N]).
Qed.

(** In any run, every split shows the vertex whose turn it is. *)
Lemma dt_trace cfg fuel bins vs sn v :
  In sn (x_snapshots (snd (d_triangulation_from_2d_vertices cfg fuel bins vs))) -> sn_event sn = Split v ->
  exists order, bin_sort bins (normalized vs) = Ret order /\ nthN order (sn_step sn) = Some v.
Proof.
  rewrite dt_entry. destruct (lenN vs <? 3); [contradiction|]. unfold normalized. destruct (normalize_vertices_coordinates vs) as (((nvs, sc), xm), ym).
  simpl fst. intros H Q. destruct (bin_sort bins nvs) as [order| | |] eqn:B.
  - exists order. split; [reflexivity|].
    assert (T : traced order (snd (dt_body fuel bins nvs (new_context cfg sc xm ym)))).
    { unfold dt_body. apply inv_bind; [now apply traced_wrap|]. intros s c _ _ T. unfold d_filter_triangles. rewrite dbind_push.
      apply traced_push; auto. discriminate. }
    destruct T as (T & _ & _). rewrite Forall_forall in T. now apply (T sn H).
  - exfalso. unfold dt_body, d_wrap_and_triangulate in H. rewrite B in H. exact H.
  - exfalso. unfold dt_body, d_wrap_and_triangulate in H. rewrite B in H. exact H.
  - exfalso. unfold dt_body, d_wrap_and_triangulate in H. rewrite B in H. exact H.
Qed.
Lemma cdt_trace cfg fuel bins vs cs sn v :
  In sn (x_snapshots (snd (d_constrained_triangulation_from_2d_vertices cfg fuel bins vs cs))) -> sn_event sn = Split v ->
  exists order, bin_sort bins (normalized vs) = Ret order /\ nthN order (sn_step sn) = Some v.
Proof.
  rewrite cdt_entry. destruct (lenN vs <? 3); [contradiction|]. unfold normalized. destruct (normalize_vertices_coordinates vs) as (((nvs, sc), xm), ym).
  simpl fst. intros H Q. destruct (bin_sort bins nvs) as [order| | |] eqn:B.
  - exists order. split; [reflexivity|].
    assert (T : traced order (snd (cdt_body fuel bins (length vs) nvs cs (new_context cfg sc xm ym)))).
    { unfold cdt_body. apply inv_bind; [now apply traced_wrap|]. intros s c _ _ T. now apply traced_tail. }
    destruct T as (T & _ & _). rewrite Forall_forall in T. now apply (T sn H).
  - exfalso. unfold cdt_body, d_wrap_and_triangulate in H. rewrite B in H. exact H.
  - exfalso. unfold cdt_body, d_wrap_and_triangulate in H. rewrite B in H. exact H.
  - exfalso. unfold cdt_body, d_wrap_and_triangulate in H. rewrite B in H. exact H.
Qed.
Lemma dt_sorted cfg fuel bins vs : StronglySorted N.le (map sn_step (x_snapshots (snd (d_triangulation_from_2d_vertices cfg fuel bins vs)))).
Proof.
  rewrite dt_entry. destruct (lenN vs <? 3); [constructor|]. destruct (normalize_vertices_coordinates vs) as (((nvs, sc), xm), ym).
  destruct (bin_sort bins nvs) as [order| | |] eqn:B.
  - assert (T : traced order (snd (dt_body fuel bins nvs (new_context cfg sc xm ym)))); [|apply T].
    unfold dt_body. apply inv_bind; [now apply traced_wrap|]. intros s c _ _ T. unfold d_filter_triangles. rewrite dbind_push.
    apply traced_push; auto. discriminate.
  - unfold dt_body, d_wrap_and_triangulate. rewrite B. constructor.
  - unfold dt_body, d_wrap_and_triangulate. rewrite B. constructor.
  - unfold dt_body, d_wrap_and_triangulate. rewrite B. constructor.
Qed.
Lemma cdt_sorted cfg fuel bins vs cs : StronglySorted N.le (map sn_step (x_snapshots (snd (d_constrained_triangulation_from_2d_vertices cfg fuel bins vs cs)))).
Proof.
  rewrite cdt_entry. destruct (lenN vs <? 3); [constructor|]. destruct (normalize_vertices_coordinates vs) as (((nvs, sc), xm), ym).
  destruct (bin_sort bins nvs) as [order| | |] eqn:B.
  - assert (T : traced order (snd (cdt_body fuel bins (length vs) nvs cs (new_context cfg sc xm ym)))); [|apply T].
    unfold cdt_body. apply inv_bind; [now apply traced_wrap|]. intros s c _ _ T. now apply traced_tail.
  - unfold cdt_body, d_wrap_and_triangulate. rewrite B. constructor.
  - unfold cdt_body, d_wrap_and_triangulate. rewrite B. constructor.
  - unfold cdt_body, d_wrap_and_triangulate. rewrite B. constructor.
Qed.

(** ** The last snapshot shows the output *)
Lemma push_all p e ts ids nbs c : cfg_phase (x_config c) = PAll -> cfg_steps (x_config c) = SAll ->
  x_snapshots (push_snapshot_event p e ts ids nbs c) = x_snapshots c ++ [Snap (x_step c) p e (ids ++ filter nexists nbs) ts].
Proof. intros H1 H2. unfold push_snapshot_event. rewrite H1, H2. reflexivity. Qed.

Definition shows (out : list (N * N * N)) (c : debug_context) : Prop :=
  exists before sn, x_snapshots c = before ++ [sn] /\ sn_phase sn = FilterTriangles /\ map tverts (sn_triangles sn) = out.

Lemma config_kept {A} (m : D A) : (forall c0, sim (fun c1 c2 => c1 = c2 /\ x_config c1 = c0) m) -> forall c, x_config (snd (m c)) = x_config c.
Proof. intros H c. apply (sim_inv (fun c' => x_config c' = x_config c) m (H _)). reflexivity. Qed.
Lemma config_push c0 p e ts ids nbs c1 c2 : True -> c1 = c2 /\ x_config c1 = c0 ->
  push_snapshot_event p e ts ids nbs c1 = push_snapshot_event p e ts ids nbs c2 /\ x_config (push_snapshot_event p e ts ids nbs c1) = c0.
Proof. intros _ (-> & H). now rewrite push_config. Qed.
Lemma config_advance c0 c1 c2 : c1 = c2 /\ x_config c1 = c0 ->
  snd (advance_step c1) = snd (advance_step c2) /\ fst (advance_step c1) = fst (advance_step c2) /\ x_config (fst (advance_step c1)) = c0.
Proof. intros (-> & H). auto. Qed.

Lemma dt_shows cfg fuel bins vs out : cfg_phase cfg = PAll -> cfg_steps cfg = SAll -> 3 <= lenN vs ->
  fst (d_triangulation_from_2d_vertices cfg fuel bins vs) = Ret out -> shows out (snd (d_triangulation_from_2d_vertices cfg fuel bins vs)).
Proof.
  intros H1 H2 L. rewrite dt_entry. replace (lenN vs <? 3) with false by (symmetry; now apply N.ltb_ge).
  destruct (normalize_vertices_coordinates vs) as (((nvs, sc), xm), ym). unfold dt_body, dbind.
  assert (K : x_config (snd (d_wrap_and_triangulate fuel bins nvs None (new_context cfg sc xm ym))) = cfg).
  { rewrite config_kept; [reflexivity|]. intros c0. apply (sim_wrap _ (fun _ _ => True)); auto using config_push, config_advance. }
  destruct (d_wrap_and_triangulate fuel bins nvs None _) as (r, c). simpl in K. destruct r as [s| | |]; try discriminate.
  unfold d_filter_triangles. rewrite dbind_push. simpl. intros Q. injection Q as <-.
  rewrite <- K in H1, H2. unfold shows. rewrite push_all by assumption. eexists _, _. repeat split.
Qed.
Lemma cdt_shows cfg fuel bins vs cs out : cfg_phase cfg = PAll -> cfg_steps cfg = SAll -> 3 <= lenN vs ->
  fst (d_constrained_triangulation_from_2d_vertices cfg fuel bins vs cs) = Ret out ->
  shows out (snd (d_constrained_triangulation_from_2d_vertices cfg fuel bins vs cs)).
Proof.
  intros H1 H2 L. rewrite cdt_entry. replace (lenN vs <? 3) with false by (symmetry; now apply N.ltb_ge).
  destruct (normalize_vertices_coordinates vs) as (((nvs, sc), xm), ym). unfold cdt_body. unfold dbind at 1 2.
  assert (K : x_config (snd (d_wrap_and_triangulate fuel bins nvs (Some (rangeN 0 (length vs))) (new_context cfg sc xm ym))) = cfg).
  { rewrite config_kept; [reflexivity|]. intros c0. apply (sim_wrap _ (fun _ _ => True)); auto using config_push, config_advance. }
  destruct (d_wrap_and_triangulate fuel bins nvs _ _) as (r, c). simpl in K. destruct r as [s| | |]; try discriminate.
  unfold cdt_tail. rewrite dbind_push. destruct (s_map s) as [mapping|]; [|discriminate].
  set (c0 := push_snapshot_event BeforeConstraints Snapshot (s_ts s) [] [] c).
  assert (K1 : x_config (snd (d_apply_constraints fuel nvs (s_ts s) cs mapping c0)) = cfg).
  { rewrite config_kept; [unfold c0; now rewrite push_config|]. intros c0'. apply (sim_apply_constraints _ (fun _ _ => True)); auto using config_push, config_advance. }
  intros Q. destruct (dbind_inv _ _ _ _ Q) as (r & c1 & Q1 & Q2). rewrite Q2 in *. clear Q2. rewrite Q1 in K1. simpl in K1. clear Q1.
  rewrite dbind_push in *. revert Q.
  match goal with |- context [d_cdt_filter_triangles _ _ _ ?c] => set (c2 := c) end.
  assert (K2 : x_config c2 = cfg) by (unfold c2; now rewrite push_config).
  unfold d_cdt_filter_triangles. rewrite cdt_filter_kept.
  destruct (filter_loop_triangles fuel (fst r) (snd r) (fst r) 0 _ []) as [kept| | |]; try discriminate.
  cbn [bind]. rewrite !dbind_ret, dbind_push. simpl. intros Q. injection Q as <-.
  rewrite <- K2 in H1, H2. unfold shows. rewrite push_all by assumption. eexists _, _. repeat split.
Qed.

(** ** Both entry points *)
Lemma forced_end_result cfg k fuel bins (vs : list vertex) (cs : list edge) :
  3 <= lenN vs ->
  fst (d_triangulation_from_2d_vertices (forced cfg k) fuel bins vs) =
    (let* s := wrap_first (N.to_nat (k - 1)) fuel bins (normalized vs) None in Ret (filter_triangles (s_ts s))) /\
  (lenN vs <= k ->
    fst (d_triangulation_from_2d_vertices (forced cfg k) fuel bins vs) = triangulation_from_2d_vertices fuel bins vs /\
    fst (d_constrained_triangulation_from_2d_vertices (forced cfg k) fuel bins vs cs) =
      constrained_triangulation_from_2d_vertices fuel bins vs (firstn (N.to_nat (k - lenN vs)) cs)).
Proof.
  intros H. split.
  - rewrite dt_forced. now replace (lenN vs <? 3) with false by (symmetry; now apply N.ltb_ge).
  - intros K. split; [now apply dt_forced_late|now apply cdt_forced_late].
Qed.
Lemma forced_end_snapshots cfg k fuel bins (vs : list vertex) (cs : list edge) :
  snapshots_before k (snd (d_triangulation_from_2d_vertices (forced cfg k) fuel bins vs)) =
    snapshots_before k (snd (d_triangulation_from_2d_vertices (unforced cfg) fuel bins vs)) /\
  snapshots_before k (snd (d_constrained_triangulation_from_2d_vertices (forced cfg k) fuel bins vs cs)) =
    snapshots_before k (snd (d_constrained_triangulation_from_2d_vertices (unforced cfg) fuel bins vs cs)) /\
  forall sn, 1 <= k -> changes (sn_phase sn) ->
    In sn (x_snapshots (snd (d_triangulation_from_2d_vertices (forced cfg k) fuel bins vs))) \/
    In sn (x_snapshots (snd (d_constrained_triangulation_from_2d_vertices (forced cfg k) fuel bins vs cs))) ->
    sn_step sn < k.
Proof.
  split; [apply dt_forced_snapshots|]. split; [apply cdt_forced_snapshots|]. intros sn K C [H|H].
  - eapply dt_forced_still; eauto.
  - eapply cdt_forced_still; eauto.
Qed.
Lemma trace_facts cfg fuel bins (vs : list vertex) (cs : list edge) shots :
  shots = x_snapshots (snd (d_triangulation_from_2d_vertices cfg fuel bins vs)) \/
  shots = x_snapshots (snd (d_constrained_triangulation_from_2d_vertices cfg fuel bins vs cs)) ->
  StronglySorted N.le (map sn_step shots) /\
  forall sn v, In sn shots -> sn_event sn = Split v ->
    exists order, bin_sort bins (normalized vs) = Ret order /\ nthN order (sn_step sn) = Some v.
Proof.
  intros [->| ->]; (split; [apply dt_sorted || apply cdt_sorted|]); intros sn v H Q.
  - eapply dt_trace; eauto.
  - eapply cdt_trace; eauto.
Qed.
Lemma last_snapshot cfg fuel bins (vs : list vertex) (cs : list edge) out run :
  cfg_phase cfg = PAll -> cfg_steps cfg = SAll -> 3 <= lenN vs ->
  run = d_triangulation_from_2d_vertices cfg fuel bins vs \/
  run = d_constrained_triangulation_from_2d_vertices cfg fuel bins vs cs ->
  fst run = Ret out -> shows out (snd run).
Proof. intros H1 H2 L [->| ->] Q; [now apply dt_shows|now apply cdt_shows]. Qed.
End WithEnv.
