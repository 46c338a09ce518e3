(** * AnyCDT: facts about the constrained part of the model that hold for every arithmetic. *)

From Coq Require Import NArith List Bool Lia Permutation.
From Verif Require Import Base BaseFacts Arith Types Utils Infinite Triangulation Constrained SpecCdt AnyDT.
Import ListNotations.
Local Open Scope N_scope.

Section Any.
Context {E : Env}.

(** ** Vertices of the mesh through constraint insertion *)

Definition ed_all (P : N -> Prop) (d : edge_data) : Prop :=
  P (efrom (d_edge d)) /\ P (eto (d_edge d)).

Lemma ed_all_tedge P t k x y : tri_all P t -> ed_all P (ED x y (tedge t k)).
Proof. intros T; split; apply (tri_all_tv P t _ T). Qed.

Lemma loop_around_all P ts vs ce cv next : forall n first from tid d,
  mesh_all P ts -> loop_around n first ts vs from tid ce cv next = Ret (FirstIntersection d) ->
  ed_all P d.
Proof.
  induction n as [|n IH]; intros first from tid d M H; simpl in H; [discriminate|].
  destruct (negb first && (tid =? from)); [discriminate|]. inv_Ret H.
  destruct (verts_contains a (eto ce)); [discriminate|]. inv_Ret H.
  destruct (is_crossing a0).
  - destruct (nexists _); [|discriminate]. inversion H; subst.
    apply ed_all_tedge. eapply mesh_all_get; eauto.
  - destruct (nexists _); [|discriminate]. eapply IH; eauto.
Qed.

Lemma search_first_all P ts vs ce cv start d :
  mesh_all P ts -> search_first_intersected_quad ts vs ce cv start = Ret (FirstIntersection d) ->
  ed_all P d.
Proof.
  intros M H. unfold search_first_intersected_quad in H. inv_Ret H. destruct a.
  - discriminate.
  - inversion H; subst. eapply loop_around_all; eauto.
  - inv_Ret H. eapply loop_around_all; eauto.
Qed.

Lemma next_intersection_all P vs cv t tid fe : forall is d,
  tri_all P t -> next_intersection is vs cv t tid fe = Ret (Some d) -> ed_all P d.
Proof.
  induction is as [|i is IH]; intros d T H; simpl in H; [discriminate|].
  destruct (undirected_equals _ fe); [eauto|]. inv_Ret H.
  destruct (is_crossing a && nexists (tn t i)); [|eauto]. inversion H; subst.
  now apply ed_all_tedge.
Qed.

Lemma register_loop_all P ts vs ce cv : forall n cur acc l,
  mesh_all P ts -> Forall (ed_all P) acc ->
  register_loop n ts vs ce cv cur acc = Ret l -> Forall (ed_all P) l.
Proof.
  induction n as [|n IH]; intros cur acc l M A H; simpl in H.
  - inversion H; subst. now apply Forall_rev.
  - inv_Ret H. destruct (verts_contains a (eto ce)).
    + inversion H; subst. now apply Forall_rev.
    + inv_Ret H. destruct a0 as [d|]; [|discriminate].
      apply (IH _ _ _ M) in H; auto. constructor; auto.
      eapply next_intersection_all; [|exact Hm0]. eapply mesh_all_get; eauto.
Qed.

Lemma register_all P ts vs ce cv v2t l :
  mesh_all P ts -> register_intersected_edges ts vs ce cv v2t = Ret l -> Forall (ed_all P) l.
Proof.
  intros M H. unfold register_intersected_edges in H. inv_Ret H. inv_Ret H.
  destruct a0; try discriminate.
  - inversion H; constructor.
  - eapply register_loop_all; [exact M| |exact H]. constructor; [|constructor].
    eapply search_first_all; eauto.
Qed.

Lemma to_quad_all P ts d q :
  mesh_all P ts -> ed_all P d -> to_quad ts d = Ret q ->
  P (q1 q) /\ P (q2 q) /\ P (q3 q) /\ P (q4 q).
Proof.
  intros M (A & B) H. unfold to_quad in H. inv_all H. inversion H; subst; simpl.
  repeat split; auto; apply get_opposite_vertex_all; eapply mesh_all_get; eauto.
Qed.

Lemma d_edge_update a b c e d : d_edge (update_edge_data a b c e d) = d_edge d.
Proof.
  unfold update_edge_data.
  repeat match goal with |- context [if ?x then _ else _] => destruct x end; reflexivity.
Qed.

Lemma tri_all_set_neighbors P t a b c : tri_all P t -> tri_all P (set_neighbors t a b c).
Proof. intros (? & ? & ?); repeat split; auto. Qed.

Lemma mesh_all_unn P ts n o w ts' :
  mesh_all P ts -> update_neighbor_neighbor n o w ts = Ret ts' ->
  mesh_all P ts' /\ lenN ts' = lenN ts.
Proof.
  intros M H. unfold update_neighbor_neighbor in H. destruct (nexists n).
  - inv_Ret H. split.
    + eapply mesh_all_set; [exact M| |exact H]. apply tri_all_update. eapply mesh_all_get; eauto.
    + eapply setN_lenN; eauto.
  - inversion H; subst; auto.
Qed.

Lemma set_v2t_len v2t v t v2t' : set_v2t v2t v t = Ret v2t' -> lenN v2t' = lenN v2t.
Proof.
  unfold set_v2t. destruct (is_finite v); intros H.
  - eapply setN_lenN; eauto.
  - inversion H; auto.
Qed.

Lemma swap_quad_all P ts v2t d q ts' v2t' upd :
  mesh_all P ts -> P (q1 q) -> P (q2 q) -> P (q3 q) -> P (q4 q) ->
  swap_quad_diagonal ts v2t d q = Ret (ts', v2t', upd) ->
  mesh_all P ts' /\ lenN ts' = lenN ts /\ lenN v2t' = lenN v2t /\
  (forall x, d_edge (upd x) = d_edge x) /\
  d_from d < lenN ts /\ d_to d < lenN ts.
Proof.
  intros M A B C D H. unfold swap_quad_diagonal in H. inv_all H. inversion H; subst; clear H.
  assert (M1 : mesh_all P a2) by (eapply mesh_all_set; [exact M| |exact Hm2]; repeat split; auto).
  assert (M2 : mesh_all P a4) by (eapply mesh_all_set; [exact M1| |exact Hm4]; repeat split; auto).
  assert (M3 : mesh_all P a6).
  { eapply mesh_all_set; [exact M2| |exact Hm6]. apply tri_all_set_neighbors.
    eapply mesh_all_get; [exact M2|exact Hm5]. }
  assert (M4 : mesh_all P a8).
  { eapply mesh_all_set; [exact M3| |exact Hm8]. apply tri_all_set_neighbors.
    eapply mesh_all_get; [exact M3|exact Hm7]. }
  destruct (mesh_all_unn _ _ _ _ _ _ M4 Hm9) as (M5 & L5).
  destruct (mesh_all_unn _ _ _ _ _ _ M5 Hm10) as (M6 & L6).
  apply setN_lenN in Hm2. apply setN_lenN in Hm4. apply setN_lenN in Hm6. apply setN_lenN in Hm8.
  apply set_v2t_len in Hm11. apply set_v2t_len in Hm12.
  apply getN_Ret in Hm. apply getN_Ret in Hm0. apply nthN_lt in Hm. apply nthN_lt in Hm0.
  split; [exact M6|]. split; [lia|]. split; [lia|]. split; [|auto].
  intros x. apply d_edge_update.
Qed.

Lemma Forall_map_edge P (upd : edge_data -> edge_data) l :
  (forall x, d_edge (upd x) = d_edge x) -> Forall (ed_all P) l -> Forall (ed_all P) (map upd l).
Proof.
  intros U F. induction F; simpl; constructor; auto. unfold ed_all. now rewrite U.
Qed.

Lemma remove_crossed_all P vs cv : forall fuel ts v2t inters news nc ts' v2t' news',
  mesh_all P ts -> Forall (ed_all P) inters -> Forall (ed_all P) news ->
  remove_crossed_edges fuel ts vs v2t cv inters news nc = Ret (ts', v2t', news') ->
  mesh_all P ts' /\ lenN ts' = lenN ts /\ lenN v2t' = lenN v2t /\ Forall (ed_all P) news'.
Proof.
  induction fuel as [|fuel IH]; intros ts v2t inters news nc ts' v2t' news' M FI FN H;
  destruct inters as [|d inters]; cbn [remove_crossed_edges] in H; try discriminate.
  - inversion H; subst; auto.
  - inversion H; subst; auto.
  - destruct (lenN inters <? nc); [discriminate|]. inv_Ret H. inv_Ret H.
    inversion FI as [|? ? Fd FI']; subst.
    destruct (to_quad_all _ _ _ _ M Fd Hm) as (Q1 & Q2 & Q3 & Q4).
    destruct (negb (is_crossing a0)).
    + eapply IH; [exact M| |exact FN|exact H]. apply Forall_app; split; auto.
    + inv_Ret H. destruct a1 as ((ts1, v1), upd). inv_Ret H.
      destruct (swap_quad_all _ _ _ _ _ _ _ _ M Q1 Q2 Q3 Q4 Hm1) as (M1 & L1 & L2 & U & _).
      assert (Fd' : ed_all P (ED (d_from d) (d_to d) (Edge (q3 a) (q4 a)))) by (split; auto).
      assert (FI1 := Forall_map_edge P upd _ U FI').
      assert (FN1 := Forall_map_edge P upd _ U FN).
      destruct (is_crossing a1);
      apply IH in H; auto; try (apply Forall_app; split; auto);
      destruct H as (R1 & R2 & R3 & R4); repeat split; auto; try lia; try (apply R1; assumption).
Qed.

Lemma restore_constrained_all P vs ce : forall fuel ts v2t news hist ts' v2t',
  mesh_all P ts -> Forall (ed_all P) news ->
  restore_constrained fuel ts vs v2t ce news hist = Ret (ts', v2t') ->
  mesh_all P ts' /\ lenN ts' = lenN ts /\ lenN v2t' = lenN v2t.
Proof.
  induction fuel as [|fuel IH]; intros ts v2t news hist ts' v2t' M FN H;
  destruct news as [|d news]; cbn [restore_constrained] in H; try discriminate.
  - inversion H; subst; auto.
  - inversion H; subst; auto.
  - inversion FN as [|? ? Fd FN']; subst.
    destruct (undirected_equals (d_edge d) ce); [eauto|]. inv_Ret H. inv_Ret H.
    destruct (to_quad_all _ _ _ _ M Fd Hm) as (Q1 & Q2 & Q3 & Q4).
    destruct (a0 && negb (history_mem hist (d_from d, d_to d))); [|eauto].
    inv_Ret H. destruct a1 as ((ts1, v1), upd).
    destruct (swap_quad_all _ _ _ _ _ _ _ _ M Q1 Q2 Q3 Q4 Hm1) as (M1 & L1 & L2 & U & _).
    apply IH in H; auto.
    + destruct H as (R1 & R2 & R3). split; [exact R1|]. split; lia.
    + apply Forall_app; split; [now apply Forall_map_edge|]. constructor; [split; auto|constructor].
Qed.

Lemma apply_constraint_all P fuel vs mapping s raw s' :
  mesh_all P (c_ts s) -> apply_constraint fuel vs mapping s raw = Ret s' ->
  mesh_all P (c_ts s') /\ lenN (c_ts s') = lenN (c_ts s).
Proof.
  intros M H. unfold apply_constraint in H. inv_Ret H. inv_Ret H.
  destruct ((a =? a0) || edge_mem (c_set s) (Edge a a0)); [inversion H; subst; auto|].
  inv_Ret H. inv_Ret H. destruct a2 as [|d l].
  - inversion H; subst; auto.
  - pose proof (register_all P _ _ _ _ _ _ M Hm2) as F. inv_Ret H. destruct a2 as ((ts1, v1), news).
    inv_Ret H. destruct a2 as (ts2, v2). inversion H; subst; simpl.
    destruct (remove_crossed_all P _ _ _ _ _ _ _ _ _ _ _ M F (Forall_nil _) Hm3) as (M1 & L1 & _ & F1).
    destruct (restore_constrained_all P _ _ _ _ _ _ _ _ _ M1 F1 Hm4) as (M2 & L2 & _).
    split; auto. lia.
Qed.

Lemma apply_constraints_all P fuel vs ts cs mapping ts' cset :
  mesh_all P ts -> apply_constraints fuel vs ts cs mapping = Ret (ts', cset) ->
  mesh_all P ts' /\ lenN ts' = lenN ts.
Proof.
  intros M H. unfold apply_constraints in H. inv_Ret H. inv_Ret H. inversion H; subst.
  assert (G := foldM_invariant (apply_constraint fuel vs mapping)
    (fun s => mesh_all P (c_ts s) /\ lenN (c_ts s) = lenN ts) (fun _ => True)).
  apply (G (fun s x s' HP _ HS =>
     let '(conj A B) := HP in
     let '(conj A' B') := apply_constraint_all P _ _ _ _ _ _ A HS in
     conj A' (eq_trans B' B)) cs (CSt ts a [])); auto.
Qed.

(** ** The domain filter *)

Lemma edge_eqb_eq a b : edge_eqb a b = true <-> a = b.
Proof.
  unfold edge_eqb. rewrite andb_true_iff, !N.eqb_eq. destruct a, b; simpl. split.
  - intros (-> & ->); reflexivity.
  - intros X; inversion X; auto.
Qed.

Lemma edge_mem_In s e : edge_mem s e = true <-> In e s.
Proof.
  unfold edge_mem. rewrite existsb_exists. split.
  - intros (x & I & X). apply edge_eqb_eq in X. now subst.
  - intros I. exists e. split; auto. now apply edge_eqb_eq.
Qed.

Lemma edge_mem_notIn s e : edge_mem s e = false <-> ~ In e s.
Proof. rewrite <- edge_mem_In. destruct (edge_mem s e); split; intros; congruence || tauto. Qed.

Lemma In_unconstrained cset t n :
  In n (unconstrained_neighbors cset t) <-> exists k, ~ In (tedge t k) cset /\ tn t k = n.
Proof.
  unfold unconstrained_neighbors. rewrite !in_app_iff. split.
  - intros [H|[H|H]];
    match type of H with In _ (if ?b then _ else _) => destruct b eqn:X end;
    simpl in H; try contradiction; apply edge_mem_notIn in X; destruct H as [<-|[]]; eexists; split; eauto; reflexivity.
  - intros (k & K & <-). apply edge_mem_notIn in K.
    destruct k; rewrite K; simpl; auto.
Qed.

Lemma length_unconstrained cset t : (length (unconstrained_neighbors cset t) <= 3)%nat.
Proof.
  unfold unconstrained_neighbors. rewrite !app_length.
  repeat match goal with |- context [if ?b then _ else _] => destruct b end; simpl; lia.
Qed.

Lemma emitted_cons ts i t ids : nthN ts i = Some t -> emitted ts (i :: ids) = emit t (emitted ts ids).
Proof.
  intros H. unfold emitted, emit. simpl. rewrite H. destruct (tri_is_finite t); reflexivity.
Qed.

Definition visited_is (ids : list N) (visited : list bool) : Prop :=
  forall i, i < lenN visited -> nthN visited i = Some true <-> In i ids.

(** All unconstrained neighbors of visited triangles are visited or waiting. *)
Definition closed_upto (ts : list tri) (cset : list edge) (ids stk : list N) : Prop :=
  forall i t k, In i ids -> nthN ts i = Some t -> ~ In (tedge t k) cset -> tn t k <> NONE ->
    In (tn t k) ids \/ In (tn t k) stk.

Lemma visited_set ids visited n :
  visited_is ids visited -> n < lenN visited -> visited_is (n :: ids) (updN visited n true).
Proof.
  intros V L i Hi. rewrite lenN_updN in Hi. destruct (N.eqb_spec i n) as [->|Hne].
  - rewrite nthN_updN_same by exact L. simpl; tauto.
  - rewrite nthN_updN_other by congruence. rewrite (V i Hi). simpl. intuition. congruence.
Qed.

Lemma explore_spec ts cset : forall fuel stk visited out ids visited' out',
  lenN visited = lenN ts -> visited_is ids visited -> NoDup ids -> out = emitted ts ids ->
  (forall i, In i ids -> kept ts cset i /\ i < lenN ts) ->
  (forall n, In n stk -> n = NONE \/ kept ts cset n) ->
  closed_upto ts cset ids stk ->
  explore fuel ts cset stk visited out = Ret (visited', out') ->
  exists ids', lenN visited' = lenN ts /\ visited_is ids' visited' /\ NoDup ids' /\
    out' = emitted ts ids' /\ (forall i, In i ids' -> kept ts cset i /\ i < lenN ts) /\
    incl ids ids' /\ closed_upto ts cset ids' [].
Proof.
  induction fuel as [|fuel IH]; intros stk visited out ids visited' out' LV V ND O K KS CL H;
  destruct stk as [|n stk]; cbn [explore] in H; try discriminate.
  - inversion H; subst. exists ids. repeat (split; auto). apply incl_refl.
  - inversion H; subst. exists ids. repeat (split; auto). apply incl_refl.
  - destruct (nexists n) eqn:NX; simpl in H.
    2:{ eapply IH; try exact H; eauto.
        - intros; apply KS; now right.
        - intros i t k A B C D. destruct (CL i t k A B C D) as [?|[X|?]]; auto.
          subst n. apply negb_false_iff, N.eqb_eq in NX. contradiction. }
    assert (NN : n <> NONE) by (intros ->; unfold nexists in NX; rewrite N.eqb_refl in NX; discriminate).
    inv_Ret H. apply getN_Ret in Hm. pose proof (nthN_lt _ _ _ Hm) as Ln. destruct a.
    + assert (In n ids) by (apply (V n); auto).
      eapply IH; try exact H; eauto.
      * intros; apply KS; now right.
      * intros i t k A B C D. destruct (CL i t k A B C D) as [?|[X|?]]; auto. subst; auto.
    + inv_Ret H. inv_Ret H. apply getN_Ret in Hm0. apply setN_Ret in Hm1. destruct Hm1 as (_ & ->).
      assert (NI : ~ In n ids).
      { intros X. apply (V n) in X; auto. congruence. }
      assert (Kn : kept ts cset n) by (destruct (KS n (or_introl eq_refl)); [contradiction|auto]).
      assert (G : exists ids', lenN visited' = lenN ts /\ visited_is ids' visited' /\ NoDup ids' /\
        out' = emitted ts ids' /\ (forall i, In i ids' -> kept ts cset i /\ i < lenN ts) /\
        incl (n :: ids) ids' /\ closed_upto ts cset ids' []).
      { eapply IH; [| | | | | | |exact H].
        - now rewrite lenN_updN.
        - now apply visited_set.
        - constructor; auto.
        - rewrite (emitted_cons _ _ _ _ Hm0). now rewrite O.
        - intros i [<-|X]; [split; auto; lia|auto].
        - intros m Hmm. apply in_app_or in Hmm. destruct Hmm as [X|X].
          + apply In_unconstrained in X. destruct X as (k & X & <-).
            destruct (N.eqb_spec (tn a k) NONE); [auto|right]. eapply kept_step; eauto.
          + apply KS; now right.
        - intros i t k A B C D. destruct A as [<-|A].
          + rewrite B in Hm0; inversion Hm0; subst. right. apply in_or_app. left.
            apply In_unconstrained. eauto.
          + destruct (CL i t k A B C D) as [X|[X|X]].
            * left; now right.
            * left; left; auto.
            * right; apply in_or_app; auto. }
      destruct G as (ids' & G1 & G2 & G3 & G4 & G5 & G6 & G7).
      exists ids'. repeat (split; auto). intros x Hx. apply G6. now right.
Qed.

Lemma has_constrained_spec cset t :
  has_constrained_edge cset t = true <-> exists k, In (tedge t k) cset.
Proof.
  unfold has_constrained_edge. rewrite !orb_true_iff, !edge_mem_In. split.
  - intros [[H|H]|H]; eauto.
  - intros (k & H); destruct k; auto.
Qed.

Lemma filter_loop_spec ts cset fuel : forall rest pre visited out ids out',
  ts = pre ++ rest ->
  lenN visited = lenN ts -> visited_is ids visited -> NoDup ids -> out = emitted ts ids ->
  (forall i, In i ids -> kept ts cset i /\ i < lenN ts) ->
  closed_upto ts cset ids [] ->
  (forall i t, i < lenN pre -> nthN ts i = Some t -> (exists k, In (tedge t k) cset) -> In i ids) ->
  filter_loop fuel ts cset rest (lenN pre) visited out = Ret out' ->
  exists ids', NoDup ids' /\ out' = emitted ts (rev ids') /\
    (forall i, In i ids' -> kept ts cset i /\ i < lenN ts) /\ closed_upto ts cset ids' [] /\
    (forall i t, nthN ts i = Some t -> (exists k, In (tedge t k) cset) -> In i ids').
Proof.
  induction rest as [|t rest IH]; intros pre visited out ids out' ET LV V ND O K CL SD H;
  cbn [filter_loop] in H.
  - inversion H; subst out'. exists ids. split; auto. split.
    + rewrite O. unfold emitted. clear. induction ids as [|i ids IHi]; [reflexivity|].
      cbn [flat_map rev]. rewrite rev_app_distr, IHi, flat_map_app. f_equal. simpl.
      rewrite app_nil_r. destruct (nthN ts i) as [t|]; [|reflexivity].
      destruct (tri_is_finite t); reflexivity.
    + split; auto. split; auto. intros i t Hi. apply SD; auto.
      apply nthN_lt in Hi. rewrite ET, app_nil_r in Hi. exact Hi.
  - assert (Ht : nthN ts (lenN pre) = Some t).
    { rewrite ET, nthN_app2 by lia. now rewrite N.sub_diag. }
    assert (EP : ts = (pre ++ [t]) ++ rest) by (rewrite <- app_assoc; exact ET).
    assert (LP : lenN pre + 1 = lenN (pre ++ [t])) by (rewrite lenN_app; reflexivity).
    inv_Ret H. apply getN_Ret in Hm. pose proof (nthN_lt _ _ _ Hm) as Ln. rewrite LP in H.
    assert (SD' : forall ids2, incl ids ids2 -> (In (lenN pre) ids2 \/ ~ exists k, In (tedge t k) cset) ->
       forall i t', i < lenN (pre ++ [t]) -> nthN ts i = Some t' -> (exists k, In (tedge t' k) cset) -> In i ids2).
    { intros ids2 IN D i t' Li Hi Hk. rewrite <- LP in Li.
      destruct (N.eqb_spec i (lenN pre)) as [->|Hne].
      - rewrite Hi in Ht; inversion Ht; subst. tauto.
      - apply IN. eapply SD; eauto. lia. }
    destruct a.
    + eapply IH; [exact EP|..|exact H]; eauto.
      apply SD'; [apply incl_refl|]. left. apply (V (lenN pre)); auto.
    + destruct (has_constrained_edge cset t) eqn:HC.
      * inv_Ret H. inv_Ret H. destruct a0 as (vis2, out2).
        apply setN_Ret in Hm0. destruct Hm0 as (_ & ->).
        apply has_constrained_spec in HC. destruct HC as (k0 & HC).
        assert (NI : ~ In (lenN pre) ids) by (intros X; apply (V (lenN pre)) in X; auto; congruence).
        assert (KP : kept ts cset (lenN pre)) by (eapply kept_seed; eauto).
        assert (G : exists ids', lenN vis2 = lenN ts /\ visited_is ids' vis2 /\ NoDup ids' /\
          out2 = emitted ts ids' /\ (forall i, In i ids' -> kept ts cset i /\ i < lenN ts) /\
          incl (lenN pre :: ids) ids' /\ closed_upto ts cset ids' []).
        { eapply explore_spec; [| | | | | | |exact Hm1].
          - now rewrite lenN_updN.
          - now apply visited_set.
          - constructor; auto.
          - rewrite (emitted_cons _ _ _ _ Ht). now rewrite O.
          - intros i [<-|X]; [split; auto; lia|auto].
          - intros m Hmm. apply In_unconstrained in Hmm. destruct Hmm as (k & X & <-).
            destruct (N.eqb_spec (tn t k) NONE); [auto|right]. eapply kept_step; eauto.
          - intros i t' k A B C D. destruct A as [<-|A].
            + rewrite B in Ht; inversion Ht; subst. right. apply In_unconstrained. eauto.
            + destruct (CL i t' k A B C D) as [X|[]]. left; now right. }
        destruct G as (ids' & G1 & G2 & G3 & G4 & G5 & G6 & G7).
        eapply IH; [exact EP|..|exact H]; eauto.
        apply SD'; [intros x Hx; apply G6; now right|]. left. apply G6. now left.
      * eapply IH; [exact EP|..|exact H]; eauto.
        apply SD'; [apply incl_refl|]. right. rewrite <- has_constrained_spec. congruence.
Qed.

(** The filter keeps exactly the [kept] triangles, each once. *)
Lemma cdt_filter_exact fuel ts cset out :
  cdt_filter_triangles fuel ts cset = Ret out ->
  exists ids, NoDup ids /\ (forall i, In i ids <-> kept ts cset i) /\
    (forall i, In i ids -> i < lenN ts) /\ out = emitted ts ids.
Proof.
  intros H. unfold cdt_filter_triangles in H.
  destruct (filter_loop_spec ts cset fuel ts [] (repeat false (length ts)) [] [] out)
    as (ids & A & B & C & D & S); auto.
  - now rewrite lenN_repeat.
  - intros i Hi. rewrite lenN_repeat in Hi. rewrite nthN_repeat by exact Hi.
    split; [discriminate|intros []].
  - constructor.
  - intros i [].
  - intros i t k [].
  - intros i t Hi. rewrite lenN_nil in Hi. lia.
  - exists (rev ids). split; [now apply NoDup_rev|]. split.
    + intros i. rewrite <- in_rev. split; [apply C|].
      intros Ki. induction Ki as [i t k Hi Hk|i t k Ki IH Hi Hk Hn].
      * eapply S; eauto.
      * destruct (D i t k IH Hi Hk Hn) as [X|[]]; exact X.
    + split; [|exact B]. intros i Hi. rewrite <- in_rev in Hi. now apply C.
Qed.

(** Termination: fuel [3 * triangles + 3] is enough, whatever the mesh. *)
Definition unvisited (v : list bool) : nat := length (filter negb v).

Lemma unvisited_set : forall v n, nthN v n = Some false -> S (unvisited (updN v n true)) = unvisited v.
Proof.
  unfold unvisited. induction v as [|b v IH]; intros n H; [discriminate|].
  simpl in *. destruct (n =? 0).
  - inversion H; subst. reflexivity.
  - simpl. destruct b; simpl; rewrite <- (IH _ H); reflexivity.
Qed.

Lemma explore_fuel ts cset : forall fuel stk visited out,
  (length stk + 3 * unvisited visited <= fuel)%nat ->
  explore fuel ts cset stk visited out <> OutOfFuel /\
  (forall e, explore fuel ts cset stk visited out <> Fail e) /\
  forall v o, explore fuel ts cset stk visited out = Ret (v, o) -> (unvisited v <= unvisited visited)%nat.
Proof.
  induction fuel as [|fuel IH]; intros stk visited out L;
  destruct stk as [|n stk]; cbn [explore]; cbn [length] in L; try lia.
  - repeat split; try discriminate. intros v o X; inversion X; subst; lia.
  - repeat split; try discriminate. intros v o X; inversion X; subst; lia.
  - destruct (negb (nexists n)); [apply IH; lia|].
    unfold getN at 1 3 5. destruct (nthN visited n) as [b|] eqn:Vn; cbn [bind];
      [|repeat split; discriminate].
    destruct b; [apply IH; lia|].
    unfold getN. destruct (nthN ts n) as [t|]; cbn [bind]; [|repeat split; discriminate].
    unfold setN. rewrite Vn. cbn [bind].
    pose proof (unvisited_set _ _ Vn) as U. pose proof (length_unconstrained cset t) as LU.
    destruct (IH (unconstrained_neighbors cset t ++ stk) (updN visited n true) (emit t out)) as (A & B & C).
    { rewrite app_length. lia. }
    repeat split; auto. intros v o X. apply C in X. lia.
Qed.

Lemma filter_loop_fuel ts cset fuel : forall rest i visited out,
  (3 + 3 * unvisited visited <= fuel)%nat ->
  filter_loop fuel ts cset rest i visited out <> OutOfFuel /\
  (forall e, filter_loop fuel ts cset rest i visited out <> Fail e).
Proof.
  induction rest as [|t rest IH]; intros i visited out L; cbn [filter_loop].
  - split; discriminate.
  - unfold getN. destruct (nthN visited i) as [b|] eqn:Vi; cbn [bind]; [|split; discriminate].
    destruct b; [apply IH; lia|]. destruct (has_constrained_edge cset t); [|apply IH; lia].
    unfold setN. rewrite Vi. cbn [bind].
    pose proof (unvisited_set _ _ Vi) as U. pose proof (length_unconstrained cset t) as LU.
    destruct (explore_fuel ts cset fuel (unconstrained_neighbors cset t) (updN visited i true) (emit t out))
      as (A & B & C); [lia|].
    destruct (explore _ _ _ _ _ _) as [(v, o)|e| |] eqn:X; cbn [bind].
    + apply IH. specialize (C v o eq_refl). lia.
    + exfalso; eapply B; reflexivity.
    + split; discriminate.
    + congruence.
Qed.

Lemma unvisited_repeat n : unvisited (repeat false n) = n.
Proof. unfold unvisited. induction n; simpl; auto. Qed.

(** With links in range the filter returns. *)
Lemma explore_no_panic ts cset : links_ok ts -> forall fuel stk visited out,
  lenN visited = lenN ts -> (forall n, In n stk -> n = NONE \/ n < lenN ts) ->
  explore fuel ts cset stk visited out <> Panic /\
  forall v o, explore fuel ts cset stk visited out = Ret (v, o) -> lenN v = lenN ts.
Proof.
  intros LK. induction fuel as [|fuel IH]; intros stk visited out LV S;
  destruct stk as [|n stk]; cbn [explore]; try (split; [discriminate|]; intros v o X; inversion X; subst; auto).
  assert (S' : forall n, In n stk -> n = NONE \/ n < lenN ts) by (intros; apply S; now right).
  destruct (nexists n) eqn:NX; simpl; [|apply IH; auto].
  destruct (S n (or_introl eq_refl)) as [->|Ln].
  { unfold nexists in NX. rewrite N.eqb_refl in NX. discriminate. }
  destruct (nthN_Some visited n) as (b & Vb); [lia|]. rewrite (getN_Some _ _ _ Vb). cbn [bind].
  destruct b; [apply IH; auto|].
  destruct (nthN_Some ts n Ln) as (t & Tn). rewrite (getN_Some _ _ _ Tn), (setN_Some _ _ _ _ Vb). cbn [bind].
  apply IH; [now rewrite lenN_updN|].
  intros m Hm. apply in_app_or in Hm. destruct Hm as [X|X]; [|auto].
  apply In_unconstrained in X. destruct X as (k & _ & <-). eapply LK; eauto.
Qed.

Lemma filter_loop_no_panic ts cset fuel : links_ok ts -> forall rest i visited out,
  lenN visited = lenN ts -> i + lenN rest <= lenN ts ->
  (forall j t, nthN rest j = Some t -> nthN ts (i + j) = Some t) ->
  filter_loop fuel ts cset rest i visited out <> Panic.
Proof.
  intros LK. induction rest as [|t rest IH]; intros i visited out LV LI R; cbn [filter_loop]; [discriminate|].
  rewrite lenN_cons in LI.
  assert (R' : forall j t, nthN rest j = Some t -> nthN ts (i + 1 + j) = Some t).
  { intros j t' Hj. replace (i + 1 + j) with (i + (j + 1)) by lia. apply R.
    cbn [nthN]. destruct (N.eqb_spec (j + 1) 0); [lia|].
    replace (N.pred (j + 1)) with j by lia. exact Hj. }
  assert (Ti : nthN ts i = Some t).
  { rewrite <- (N.add_0_r i). apply R. reflexivity. }
  destruct (nthN_Some visited i) as (b & Vb); [lia|]. rewrite (getN_Some _ _ _ Vb). cbn [bind].
  destruct b; [apply IH; auto; lia|]. destruct (has_constrained_edge cset t); [|apply IH; auto; lia].
  rewrite (setN_Some _ _ _ _ Vb). cbn [bind].
  destruct (explore_no_panic ts cset LK fuel (unconstrained_neighbors cset t) (updN visited i true) (emit t out))
    as (A & B).
  { now rewrite lenN_updN. }
  { intros n Hn. apply In_unconstrained in Hn. destruct Hn as (k & _ & <-). eapply LK; eauto. }
  destruct (explore _ _ _ _ _ _) as [(v, o)|e| |]; cbn [bind]; try discriminate; try congruence.
  apply IH; auto; [eauto|lia].
Qed.

Lemma cdt_filter_terminates fuel ts cset :
  (3 * length ts + 3 <= fuel)%nat ->
  cdt_filter_triangles fuel ts cset <> OutOfFuel /\
  (links_ok ts -> exists out, cdt_filter_triangles fuel ts cset = Ret out).
Proof.
  intros L. unfold cdt_filter_triangles.
  destruct (filter_loop_fuel ts cset fuel ts 0 (repeat false (length ts)) []) as (A & B).
  { rewrite unvisited_repeat. lia. }
  split; auto. intros LK.
  assert (C := filter_loop_no_panic ts cset fuel LK ts 0 (repeat false (length ts)) []).
  destruct (filter_loop _ _ _ _ _ _ _) as [o|e| |] eqn:X.
  - eauto.
  - exfalso; eapply B; reflexivity.
  - exfalso; apply C; auto; [now rewrite lenN_repeat|lia].
  - congruence.
Qed.

(** ** Termination of the constrained restoration *)

Lemma history_mem_In h p : history_mem h p = true <-> In p h.
Proof.
  unfold history_mem. rewrite existsb_exists. split.
  - intros ((a, b) & I & X). apply andb_true_iff in X. simpl in X. rewrite !N.eqb_eq in X.
    destruct p; simpl in X. destruct X; subst; auto.
  - intros I. exists p. split; auto. now rewrite !N.eqb_refl.
Qed.

Definition all_pairs (n : nat) : list (N * N) := list_prod (rangeN 0 n) (rangeN 0 n).

Lemma hist_bound n h : NoDup h -> (forall p, In p h -> fst p < N.of_nat n /\ snd p < N.of_nat n) ->
  (length h <= n * n)%nat.
Proof.
  intros ND B. replace (n * n)%nat with (length (all_pairs n))
    by (unfold all_pairs; rewrite prod_length, length_rangeN; reflexivity).
  apply NoDup_incl_length; auto. intros (x, y) I. apply B in I. simpl in I.
  apply in_prod; apply In_rangeN; lia.
Qed.

Lemma restore_fuel vs ce : forall fuel ts v2t news hist,
  NoDup hist -> (forall p, In p hist -> fst p < lenN ts /\ snd p < lenN ts) ->
  (length news + length ts * length ts <= fuel + length hist)%nat ->
  restore_constrained fuel ts vs v2t ce news hist <> OutOfFuel.
Proof.
  induction fuel as [|fuel IH]; intros ts v2t news hist ND B L;
  destruct news as [|d news]; cbn [restore_constrained]; try discriminate; cbn [length] in L.
  - pose proof (hist_bound (length ts) hist ND B). lia.
  - destruct (undirected_equals (d_edge d) ce); [apply IH; auto; lia|].
    destruct (to_quad ts d) as [q| | |] eqn:TQ; cbn [bind]; try discriminate.
    2:{ revert TQ. unfold to_quad, getN. destruct (nthN ts (d_to d)); simpl; [|discriminate].
        destruct (nthN ts (d_from d)); discriminate. }
    destruct (constrained_should_swap_diagonals q vs) as [b| | |] eqn:CS; cbn [bind]; try discriminate.
    2:{ revert CS. unfold constrained_should_swap_diagonals, is_vertex_in_half_plane_1, getN.
        repeat match goal with
        | |- context [if ?x then _ else _] => destruct x
        | |- context [match nthN ?a ?b with _ => _ end] => destruct (nthN a b); simpl
        end; discriminate. }
    destruct (b && negb (history_mem hist (d_from d, d_to d))) eqn:SW; [|apply IH; auto; lia].
    apply andb_true_iff in SW. destruct SW as (_ & HM). apply negb_true_iff in HM.
    destruct (swap_quad_diagonal ts v2t d q) as [((ts', v2t'), upd)| | |] eqn:SQ; cbn [bind]; try discriminate.
    2:{ exfalso. revert SQ. unfold swap_quad_diagonal, update_neighbor_neighbor, set_v2t, getN, setN.
        repeat match goal with
        | |- context [match nthN ?a ?b with _ => _ end] => destruct (nthN a b); cbn [bind]
        | |- context [if ?x then _ else _] => destruct x; cbn [bind]
        end; discriminate. }
    destruct (swap_quad_all (fun _ => True) ts v2t d q ts' v2t' upd) as (_ & LT & _ & _ & A1 & A2); auto.
    { intros t _; repeat split. }
    assert (LT' : length ts' = length ts) by (unfold lenN in LT; lia).
    apply IH.
    + constructor; auto. intros X. apply history_mem_In in X. congruence.
    + intros p [<-|X]; simpl; rewrite LT; auto.
    + rewrite app_length, map_length, LT'. simpl. lia.
Qed.

(** ** Ignored constraints *)

Lemma record_merge_len m v t m' :
  record_merge m v t = Ret m' -> option_map lenN m' = option_map lenN m.
Proof.
  destruct m as [l|]; simpl; intros H.
  - inv_Ret H. inversion H; subst; simpl. f_equal. eapply setN_lenN; eauto.
  - inversion H; reflexivity.
Qed.

Lemma insert_map_len fuel vs s v s' :
  insert_vertex fuel vs s v = Ret s' -> option_map lenN (s_map s') = option_map lenN (s_map s).
Proof.
  intros H. destruct (mesh_all_insert (fun _ => True) fuel vs s v s') as (_ & [(_ & X)|X]); auto.
  - intros t _; repeat split.
  - congruence.
  - destruct X as (_ & _ & p & w & q & _ & _ & _ & _ & _ & R). eapply record_merge_len; eauto.
Qed.

Lemma wrap_map_len fuel bins vs m s :
  wrap_and_triangulate fuel bins vs m = Ret s -> option_map lenN (s_map s) = option_map lenN m.
Proof.
  intros H. unfold wrap_and_triangulate in H. inv_Ret H. destruct a as [|f r]; [discriminate|]. inv_Ret H.
  apply (foldM_invariant (insert_vertex fuel vs)
     (fun s => option_map lenN (s_map s) = option_map lenN m) (fun _ => True)) in H; auto.
  intros s0 x s1 A _ B. apply insert_map_len in B. congruence.
Qed.

Definition map_edge (mapping : list N) (raw : edge) : option edge :=
  match nthN mapping (efrom raw), nthN mapping (eto raw) with
  | Some a, Some b => Some (Edge a b)
  | _, _ => None
  end.

(** A constraint that the loop skips. *)
Lemma apply_ignored fuel vs mapping s raw e :
  map_edge mapping raw = Some e -> efrom e = eto e \/ In e (c_set s) ->
  apply_constraint fuel vs mapping s raw = Ret s.
Proof.
  unfold map_edge, apply_constraint, getN.
  destruct (nthN mapping (efrom raw)) as [a|]; [|discriminate].
  destruct (nthN mapping (eto raw)) as [b|]; [|discriminate].
  intros X; inversion X; subst; simpl. intros [->|I].
  - now rewrite N.eqb_refl.
  - apply edge_mem_In in I. rewrite I, orb_true_r. reflexivity.
Qed.

(** After a constraint has been applied it is in the set (or degenerate). *)
Lemma apply_registers fuel vs mapping s raw s' :
  apply_constraint fuel vs mapping s raw = Ret s' ->
  (exists e, map_edge mapping raw = Some e /\ (efrom e = eto e \/ In e (c_set s'))) /\
  incl (c_set s) (c_set s').
Proof.
  unfold apply_constraint, map_edge. intros H. inv_Ret H. inv_Ret H.
  apply getN_Ret in Hm. apply getN_Ret in Hm0. rewrite Hm, Hm0.
  destruct ((a =? a0) || edge_mem (c_set s) (Edge a a0)) eqn:X.
  - inversion H; subst. split; [|apply incl_refl]. exists (Edge a a0). split; auto. simpl.
    apply orb_true_iff in X. rewrite N.eqb_eq, edge_mem_In in X. exact X.
  - inv_Ret H. inv_Ret H. destruct a2 as [|d l].
    + inversion H; subst; simpl. split; [exists (Edge a a0); simpl; auto|apply incl_tl, incl_refl].
    + inv_Ret H. destruct a2 as ((t1, v1), news). inv_Ret H. destruct a2 as (t2, v2').
      inversion H; subst; simpl. split; [exists (Edge a a0); simpl; auto|apply incl_tl, incl_refl].
Qed.

Lemma fold_registers fuel vs mapping : forall l s s',
  foldM (apply_constraint fuel vs mapping) l s = Ret s' ->
  incl (c_set s) (c_set s') /\
  forall raw, In raw l -> exists e, map_edge mapping raw = Some e /\ (efrom e = eto e \/ In e (c_set s')).
Proof.
  induction l as [|x l IH]; intros s s' H; simpl in H.
  - inversion H; subst. split; [apply incl_refl|intros raw []].
  - inv_Ret H. destruct (IH _ _ H) as (A & B).
    destruct (apply_registers _ _ _ _ _ _ Hm) as ((e & E1 & E2) & C). split.
    + eapply incl_tran; eauto.
    + intros raw [<-|I]; [|auto]. exists e. split; auto. destruct E2; auto.
Qed.

Lemma fold_ignore fuel vs mapping l1 l2 raw s e :
  map_edge mapping raw = Some e ->
  efrom e = eto e \/ (exists raw', In raw' l1 /\ map_edge mapping raw' = Some e) ->
  foldM (apply_constraint fuel vs mapping) (l1 ++ raw :: l2) s
  = foldM (apply_constraint fuel vs mapping) (l1 ++ l2) s.
Proof.
  intros M D. rewrite !foldM_app.
  destruct (foldM (apply_constraint fuel vs mapping) l1 s) as [s1| | |] eqn:F1; simpl; auto.
  assert (X : apply_constraint fuel vs mapping s1 raw = Ret s1).
  { eapply apply_ignored; [exact M|]. destruct D as [D|(raw' & I & D)]; [auto|].
    destruct (fold_registers _ _ _ _ _ _ F1) as (_ & R).
    destruct (R raw' I) as (e' & E1 & E2). rewrite D in E1. inversion E1; subst. exact E2. }
  rewrite X. reflexivity.
Qed.

(** Inserting a constraint that joins a vertex with itself, or repeats an earlier one,
    changes nothing. *)
Lemma cdt_ignores fuel bins vs l1 l2 raw :
  (efrom raw < lenN vs /\ efrom raw = eto raw) \/ In raw l1 ->
  constrained_triangulation_from_2d_vertices fuel bins vs (l1 ++ raw :: l2)
  = constrained_triangulation_from_2d_vertices fuel bins vs (l1 ++ l2).
Proof.
  intros D. unfold constrained_triangulation_from_2d_vertices.
  destruct (lenN vs <? 3); [reflexivity|].
  destruct (normalize_vertices_coordinates vs) as (((nvs, sc), xm), ym) eqn:NV.
  destruct (wrap_and_triangulate fuel bins nvs (Some (rangeN 0 (length vs)))) as [s| | |] eqn:W;
    cbn [bind]; auto.
  destruct (s_map s) as [mapping|] eqn:SM; auto.
  assert (LM : lenN mapping = lenN vs).
  { pose proof (wrap_map_len _ _ _ _ _ W) as X. rewrite SM in X. simpl in X. inversion X as [Y].
    rewrite Y. unfold lenN. now rewrite length_rangeN. }
  assert (X : apply_constraints fuel nvs (s_ts s) (l1 ++ raw :: l2) mapping
            = apply_constraints fuel nvs (s_ts s) (l1 ++ l2) mapping); [|now rewrite X].
  unfold apply_constraints.
  destruct (index_triangles (repeat 0 (length nvs)) 0 (s_ts s)) as [v2t| | |]; cbn [bind]; auto.
  destruct D as [(D1 & D2)|D].
  - destruct (nthN_Some mapping (efrom raw)) as (a & A); [lia|].
    rewrite (fold_ignore fuel nvs mapping l1 l2 raw _ (Edge a a)); auto.
    unfold map_edge. rewrite <- D2, A. reflexivity.
  - destruct (map_edge mapping raw) as [e|] eqn:ME.
    + rewrite (fold_ignore fuel nvs mapping l1 l2 raw _ e); eauto.
    + (* out of range: the first occurrence already fails *)
      rewrite !foldM_app.
      destruct (foldM (apply_constraint fuel nvs mapping) l1 _) as [s1| | |] eqn:F1; simpl; auto.
      destruct (fold_registers _ _ _ _ _ _ F1) as (_ & R).
      destruct (R raw D) as (e' & E1 & _). congruence.
Qed.

(** ** No constraint, no triangle *)

Lemma filter_loop_empty fuel ts : forall rest i visited out,
  filter_loop fuel ts [] rest i visited [] = Ret out -> out = [].
Proof.
  induction rest as [|t rest IH]; intros i visited out H; cbn [filter_loop] in H.
  - inversion H; reflexivity.
  - inv_Ret H. destruct a; eapply IH; exact H.
Qed.

Lemma cdt_only_loops fuel bins vs cs out :
  (forall c, In c cs -> efrom c = eto c) ->
  constrained_triangulation_from_2d_vertices fuel bins vs cs = Ret out -> out = [].
Proof.
  intros L H. unfold constrained_triangulation_from_2d_vertices in H.
  destruct (lenN vs <? 3); [inversion H; reflexivity|].
  destruct (normalize_vertices_coordinates vs) as (((nvs, sc), xm), ym).
  inv_Ret H. destruct (s_map a) as [mapping|]; [|discriminate]. inv_Ret H.
  destruct a0 as (ts, cset). unfold apply_constraints in Hm0. inv_Ret Hm0. inv_Ret Hm0.
  inversion Hm0; subst.
  assert (C : c_set a1 = []).
  { clear H Hm0. eapply (foldM_invariant _ (fun s => c_set s = []) (fun c => efrom c = eto c));
      [|exact L| |exact Hm2]; [|reflexivity].
    intros s x s' A B X. unfold apply_constraint in X. inv_Ret X. inv_Ret X. rewrite B in Hm0.
    assert (a2 = a3) by congruence. subst. rewrite N.eqb_refl in X. simpl in X. inversion X; subst; auto. }
  rewrite C in H. eapply filter_loop_empty; exact H.
Qed.

(** ** Ids and size of the CDT output *)

Lemma emitted_In ts ids a b c :
  In (a, b, c) (emitted ts ids) ->
  exists i t, In i ids /\ nthN ts i = Some t /\ tri_is_finite t = true /\ tverts t = (a, b, c).
Proof.
  unfold emitted. rewrite in_flat_map. intros (i & I & X).
  destruct (nthN ts i) as [t|] eqn:T; [|destruct X].
  destruct (tri_is_finite t) eqn:F; [|destruct X]. destruct X as [X|[]].
  exists i, t. auto.
Qed.

Lemma emitted_length ts : forall ids, (length (emitted ts ids) <= length ids)%nat.
Proof.
  induction ids as [|i ids IH]; [simpl; lia|].
  unfold emitted in *. cbn [flat_map]. rewrite app_length. cbn [length].
  destruct (nthN ts i) as [t|]; [destruct (tri_is_finite t)|]; simpl; lia.
Qed.

Lemma NoDup_bound ids n : NoDup ids -> (forall i, In i ids -> i < N.of_nat n) -> (length ids <= n)%nat.
Proof.
  intros ND B. rewrite <- (length_rangeN 0 n). apply NoDup_incl_length; auto.
  intros x Hx. apply In_rangeN. apply B in Hx. lia.
Qed.

Lemma cdt_inv fuel bins vs cs out :
  constrained_triangulation_from_2d_vertices fuel bins vs cs = Ret out ->
  (lenN vs < 3 /\ out = []) \/
  (3 <= lenN vs /\ exists nvs sc xm ym s mapping ts cset,
     normalize_vertices_coordinates vs = (nvs, sc, xm, ym) /\ length nvs = length vs /\
     wrap_and_triangulate fuel bins nvs (Some (rangeN 0 (length nvs))) = Ret s /\
     s_map s = Some mapping /\
     apply_constraints fuel nvs (s_ts s) cs mapping = Ret (ts, cset) /\
     cdt_filter_triangles fuel ts cset = Ret out).
Proof.
  unfold constrained_triangulation_from_2d_vertices. destruct (N.ltb_spec (lenN vs) 3).
  - intros X; inversion X; auto.
  - destruct (normalize_vertices_coordinates vs) as (((nvs, sc), xm), ym) eqn:NV.
    pose proof (normalize_length _ _ _ _ _ NV) as LN.
    intros X. inv_Ret X. destruct (s_map a) as [mapping|] eqn:SM; [|discriminate].
    inv_Ret X. destruct a0 as (ts, cset). right. split; auto.
    exists nvs, sc, xm, ym, a, mapping, ts, cset. rewrite LN. repeat split; auto.
Qed.

Lemma cdt_ids fuel bins vs cs out :
  lenN vs <= idmax + 1 ->
  constrained_triangulation_from_2d_vertices fuel bins vs cs = Ret out ->
  (forall a b c, In (a, b, c) out -> a < lenN vs /\ b < lenN vs /\ c < lenN vs) /\
  lenN out <= 2 * lenN vs + 2.
Proof.
  intros C H. apply cdt_inv in H.
  destruct H as [(L & ->)|(L & nvs & sc & xm & ym & s & mapping & ts & cset & NV & LN & W & SM & AC & F)].
  - split; [intros a b c []|]. rewrite lenN_nil; lia.
  - assert (LN' : lenN nvs = lenN vs) by (unfold lenN; now rewrite LN).
    rewrite <- LN' in *. destruct (wrap_all _ _ _ _ _ C W) as (M & S).
    destruct (apply_constraints_all _ _ _ _ _ _ _ _ M AC) as (M' & S').
    destruct (cdt_filter_exact _ _ _ _ F) as (ids & ND & K & B & ->). split.
    + intros a b c I. apply emitted_In in I. destruct I as (i & t & _ & T & Fi & V).
      apply tri_finite_spec in Fi. destruct (M' t (nthN_In _ _ _ T)) as (? & ? & ?).
      unfold tverts in V; inversion V; subst. lia.
    + pose proof (emitted_length ts ids). pose proof (NoDup_bound ids (length ts) ND B).
      unfold lenN in *; lia.
Qed.

End Any.
