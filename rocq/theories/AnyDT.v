(** * AnyDT: facts about the Delaunay part of the model that hold for every arithmetic. *)

From Coq Require Import NArith List Bool Lia Permutation.
From Verif Require Import Base BaseFacts Arith Types Utils Infinite Triangulation.
Import ListNotations.
Local Open Scope N_scope.

Ltac inv_all H :=
  repeat match type of H with
  | bind _ _ = Ret _ => inv_Ret H
  | (let (_, _) := ?x in _) = Ret _ =>
      is_var x; let u := fresh "ts1" in let v := fresh "st1" in destruct x as (u, v)
  end.

Section Any.
Context {E : Env}.

(** ** Predicates on all the vertices of a mesh *)

Definition tri_all (P : N -> Prop) (t : tri) : Prop := P (t_v1 t) /\ P (t_v2 t) /\ P (t_v3 t).
Definition mesh_all (P : N -> Prop) (ts : list tri) : Prop := forall t, In t ts -> tri_all P t.

Lemma tri_all_tv P t i : tri_all P t -> P (tv t i).
Proof. intros (? & ? & ?); destruct i; auto. Qed.

Lemma mesh_all_get P ts i t : mesh_all P ts -> getN ts i = Ret t -> tri_all P t.
Proof. intros H G. apply H. apply getN_Ret in G. eapply nthN_In; eauto. Qed.

Lemma mesh_all_app P ts t : mesh_all P ts -> tri_all P t -> mesh_all P (ts ++ [t]).
Proof.
  intros H T x Hx. apply in_app_or in Hx. destruct Hx as [Hx|[<-|[]]]; auto.
Qed.

Lemma mesh_all_set P ts i t ts' :
  mesh_all P ts -> tri_all P t -> setN ts i t = Ret ts' -> mesh_all P ts'.
Proof.
  intros H T S. apply setN_Ret in S. destruct S as (_ & ->).
  intros x Hx. apply In_updN in Hx. destruct Hx as [->|Hx]; auto.
Qed.

Lemma setN_lenN {A} (l : list A) i x l' : setN l i x = Ret l' -> lenN l' = lenN l.
Proof. intros S. apply setN_Ret in S. destruct S as (_ & ->). apply lenN_updN. Qed.

Lemma tv_update t o n i : tv (update_triangle_neighbor t o n) i = tv t i.
Proof.
  unfold update_triangle_neighbor.
  destruct (t_n12 t =? o); [destruct i; reflexivity|].
  destruct (t_n23 t =? o); [destruct i; reflexivity|].
  destruct (t_n31 t =? o); destruct i; reflexivity.
Qed.

Lemma tri_all_update P t o n : tri_all P t -> tri_all P (update_triangle_neighbor t o n).
Proof.
  intros H.
  pose proof (tv_update t o n I1) as A. pose proof (tv_update t o n I2) as B.
  pose proof (tv_update t o n I3) as C. simpl in A, B, C.
  unfold tri_all. rewrite A, B, C. exact H.
Qed.

Lemma mesh_all_update_and_push P ts st n o w t ts' st' :
  mesh_all P ts -> update_and_push ts st n o w t = Ret (ts', st') ->
  mesh_all P ts' /\ lenN ts' = lenN ts.
Proof.
  unfold update_and_push. intros H. destruct (nexists n).
  - intros U. inv_all U. inversion U; subst. split.
    + eapply mesh_all_set; [exact H| |exact Hm0]. apply tri_all_update. eapply mesh_all_get; eauto.
    + eapply setN_lenN; eauto.
  - intros U; inversion U; subst; auto.
Qed.

Lemma mesh_all_split3 P ts tid v st ts' st' :
  mesh_all P ts -> P v -> split_triangle_into_three ts tid v st = Ret (ts', st') ->
  mesh_all P ts' /\ lenN ts' = lenN ts + 2.
Proof.
  unfold split_triangle_into_three. intros H V S. inv_all S.
  inversion S; subst; clear S.
  assert (T : tri_all P a0) by (eapply mesh_all_get; eauto).
  destruct T as (T1 & T2 & T3).
  assert (M : mesh_all P ((ts ++ [Tri v (t_v2 a0) (t_v3 a0) a (t_n23 a0) tid]) ++
         [Tri v (t_v1 a0) (t_v2 a0) tid (t_n12 a0) (next_id ts)])).
  { apply mesh_all_app; [apply mesh_all_app; auto|]; repeat split; auto. }
  assert (M1 : mesh_all P a1) by (eapply mesh_all_set; [exact M| |exact Hm1]; repeat split; auto).
  apply setN_lenN in Hm1. rewrite !lenN_app in Hm1.
  destruct (mesh_all_update_and_push _ _ _ _ _ _ _ _ _ M1 Hm2) as (M2 & L2).
  destruct (mesh_all_update_and_push _ _ _ _ _ _ _ _ _ M2 Hm3) as (M3 & L3).
  split; auto. rewrite L3, L2, Hm1. unfold lenN; simpl length; lia.
Qed.

Lemma get_opposite_vertex_all (P : N -> Prop) t e : tri_all P t -> P (get_opposite_vertex_id t e).
Proof.
  intros (? & ? & ?). unfold get_opposite_vertex_id.
  destruct (negb (edge_contains e (t_v1 t))); auto.
  destruct (negb (edge_contains e (t_v2 t))); auto.
Qed.

Lemma mesh_all_split4 (P : N -> Prop) ts tid ei ed v st ts' st' :
  mesh_all P ts -> P v -> P (efrom ed) -> P (eto ed) ->
  split_quad_into_four ts tid ei ed v st = Ret (ts', st') ->
  mesh_all P ts' /\ lenN ts' = lenN ts + 2.
Proof.
  unfold split_quad_into_four. intros H V V1 V2 S. inv_all S.
  inversion S; subst; clear S.
  assert (T : tri_all P a) by (eapply mesh_all_get; eauto).
  assert (T' : tri_all P a1) by (eapply mesh_all_get; eauto).
  pose proof (get_opposite_vertex_all P a1 ed T') as O.
  pose proof (tri_all_tv P a (opposite_vertex_index ei) T) as O'.
  match type of Hm2 with setN ?x _ _ = _ => assert (M : mesh_all P x) end.
  { apply mesh_all_app; [apply mesh_all_app; auto|]; repeat split; auto. }
  assert (M1 : mesh_all P a2) by (eapply mesh_all_set; [exact M| |exact Hm2]; repeat split; auto).
  assert (M2 : mesh_all P a3) by (eapply mesh_all_set; [exact M1| |exact Hm3]; repeat split; auto).
  apply setN_lenN in Hm2. apply setN_lenN in Hm3. rewrite !lenN_app in Hm2.
  destruct (mesh_all_update_and_push _ _ _ _ _ _ _ _ _ M2 Hm4) as (M3 & L3).
  destruct (mesh_all_update_and_push _ _ _ _ _ _ _ _ _ M3 Hm5) as (M4 & L4).
  split; auto. rewrite L4, L3, Hm3, Hm2. unfold lenN; simpl length; lia.
Qed.

(** ** Restoration *)

Lemma quad_of_pair_all (P : N -> Prop) t2 x f q n3 n4 :
  tri_all P t2 -> P f -> quad_of_pair t2 x f = (q, n3, n4) ->
  P (q1 q) /\ P (q2 q) /\ P (q3 q) /\ P (q4 q).
Proof.
  intros (? & ? & ?) F. unfold quad_of_pair.
  destruct (t_n12 t2 =? x); [|destruct (t_n23 t2 =? x)]; intros Q; inversion Q; subst; simpl; auto.
Qed.

Lemma mesh_all_swap_pair (P : N -> Prop) ts q n3 n4 x y st ts' st' :
  mesh_all P ts -> P (q1 q) -> P (q2 q) -> P (q3 q) -> P (q4 q) ->
  swap_pair ts q n3 n4 x y st = Ret (ts', st') ->
  mesh_all P ts' /\ lenN ts' = lenN ts.
Proof.
  unfold swap_pair. intros H V1 V2 V3 V4 S. inv_all S.
  inversion S; subst; clear S.
  assert (M1 : mesh_all P a0) by (eapply mesh_all_set; [exact H| |exact Hm0]; repeat split; auto).
  assert (M2 : mesh_all P a1) by (eapply mesh_all_set; [exact M1| |exact Hm1]; repeat split; auto).
  assert (M3 : mesh_all P a2 /\ lenN a2 = lenN a1).
  { destruct (nexists (t_n31 a)).
    - inv_all Hm2. split.
      + eapply mesh_all_set; [exact M2| |exact Hm2]. apply tri_all_update.
        eapply mesh_all_get; eauto.
      + eapply setN_lenN; eauto.
    - inversion Hm2; subst; auto. }
  apply setN_lenN in Hm0. apply setN_lenN in Hm1. destruct M3 as (M3 & L3).
  destruct (mesh_all_update_and_push _ _ _ _ _ _ _ _ _ M3 Hm3) as (M4 & L4).
  split; auto. lia.
Qed.

Lemma mesh_all_check_and_swap (P : N -> Prop) ts vs f x y st ts' st' :
  mesh_all P ts -> P f -> check_and_swap ts vs f x y st = Ret (ts', st') ->
  mesh_all P ts' /\ lenN ts' = lenN ts.
Proof.
  unfold check_and_swap. intros H V S. inv_Ret S.
  destruct (quad_of_pair a x f) as ((q, n3), n4) eqn:Q. inv_Ret S.
  assert (T : tri_all P a) by (eapply mesh_all_get; eauto).
  destruct (quad_of_pair_all P a x f q n3 n4 T V Q) as (? & ? & ? & ?).
  destruct a0.
  - eapply mesh_all_swap_pair; eauto.
  - inversion S; subst; auto.
Qed.

Lemma mesh_all_restore (P : N -> Prop) fuel : forall ts vs f st ts',
  mesh_all P ts -> P f -> restore_delaunay fuel ts vs f st = Ret ts' ->
  mesh_all P ts' /\ lenN ts' = lenN ts.
Proof.
  induction fuel as [|fuel IH]; intros ts vs f st ts' H V R.
  - destruct st as [|(x, y) st]; simpl in R; [|discriminate]. inversion R; subst; auto.
  - destruct st as [|(x, y) st]; simpl in R.
    + inversion R; subst; auto.
    + inv_Ret R. destruct a as (ts1, st1).
      destruct (mesh_all_check_and_swap P _ _ _ _ _ _ _ _ H V Hm) as (M & L).
      destruct (IH _ _ _ _ _ M V R) as (M' & L'). split; auto. lia.
Qed.

(** ** Point location: a reported edge is an edge of the reported triangle *)

Definition placement_ok (ts : list tri) (pl : placement) : Prop :=
  match pl with
  | InsideTriangle t => exists x, nthN ts t = Some x
  | OnTriangleEdge t ei ed => exists x, nthN ts t = Some x /\ ed = tedge x ei
  | NotFound => True
  end.

Lemma collect_cases t l :
  collect_infinite_triangle_vertices t = Ret l ->
  (l = [] /\ is_infinite (t_v1 t) = false /\ is_infinite (t_v2 t) = false /\ is_infinite (t_v3 t) = false) \/
  (exists i, l = [i] /\ is_infinite (tv t i) = true /\ is_infinite (tv t (next_cw i)) = false
     /\ is_infinite (tv t (next_ccw i)) = false) \/
  (exists i, l = (match i with I1 => [I2; I3] | I2 => [I1; I3] | I3 => [I1; I2] end)
     /\ is_infinite (tv t i) = false /\ is_infinite (tv t (next_cw i)) = true
     /\ is_infinite (tv t (next_ccw i)) = true).
Proof.
  unfold collect_infinite_triangle_vertices.
  destruct (is_infinite (t_v1 t)) eqn:A; destruct (is_infinite (t_v2 t)) eqn:B;
  destruct (is_infinite (t_v3 t)) eqn:C; simpl; intros H; inversion H; subst.
  - right; right; exists I3; simpl; auto.
  - right; right; exists I2; simpl; auto.
  - right; left; exists I1; simpl; auto.
  - right; right; exists I1; simpl; auto.
  - right; left; exists I2; simpl; auto.
  - right; left; exists I3; simpl; auto.
  - left; auto.
Qed.

Lemma walk_iter_ok ts vs p prev cur pl :
  walk_iter ts vs p prev cur = Ret (Placed pl) -> placement_ok ts pl.
Proof.
  unfold walk_iter. intros H. inv_Ret H. inv_Ret H.
  apply getN_Ret in Hm.
  destruct (collect_cases _ _ Hm0) as [(-> & _)|[(i & -> & _)|(i & -> & _)]].
  - unfold walk_finite in H. inv_all H.
    repeat match type of H with (if ?b then _ else _) = _ => destruct b end;
    inversion H; subst; simpl; eauto.
  - unfold vertex_placement_1_infinite in H. inv_all H. cbv zeta in H.
    destruct (infinite_vertex_local_quad_index (tv a i));
    repeat match type of H with (if ?b then _ else _) = _ => destruct b end;
    inversion H; subst; simpl; eauto; exists a; split; auto;
    destruct i; reflexivity.
  - destruct i; unfold vertex_placement_2_infinite in H; simpl in H;
    inv_Ret H;
    repeat match type of H with
    | (match ?b with Some _ => _ | None => _ end) = _ => destruct b
    | (if ?b then _ else _) = _ => destruct b
    end; inversion H; subst; simpl; eauto.
Qed.

Lemma walk_ok n : forall ts vs p prev cur pl,
  walk n ts vs p prev cur = Ret pl -> placement_ok ts pl.
Proof.
  induction n as [|n IH]; intros ts vs p prev cur pl H; simpl in H.
  - inversion H; subst; exact I.
  - destruct (negb (nexists cur)); [inversion H; subst; exact I|].
    inv_Ret H. destruct a as [pl'|pr cu].
    + inversion H; subst. eapply walk_iter_ok; eauto.
    + eapply IH; eauto.
Qed.

(** ** One insertion *)

Lemma mesh_all_insert (P : N -> Prop) fuel vs s vid s' :
  mesh_all P (s_ts s) -> P vid -> insert_vertex fuel vs s vid = Ret s' ->
  mesh_all P (s_ts s') /\
  ((lenN (s_ts s') = lenN (s_ts s) + 2 /\ s_map s' = s_map s) \/
   (s_ts s' = s_ts s /\ s_start s' = s_start s /\
     exists p w q, getN vs vid = Ret p /\ getN vs w = Ret q /\ is_finite w = true /\
      is_vertex_pair_too_close q p = true /\
      (exists t k, In t (s_ts s) /\ tv t k = w) /\
      record_merge (s_map s) vid w = Ret (s_map s'))).
Proof.
  unfold insert_vertex. intros H V S. inv_Ret S. inv_Ret S.
  assert (OK := walk_ok _ _ _ _ _ _ _ Hm0).
  assert (FIN : forall ts1 st1, mesh_all P ts1 /\ lenN ts1 = lenN (s_ts s) + 2 ->
    finish_insert fuel vs (s_map s) vid (ts1, st1) = Ret s' ->
    mesh_all P (s_ts s') /\ lenN (s_ts s') = lenN (s_ts s) + 2 /\ s_map s' = s_map s).
  { intros ts1 st1 (M & L) F. unfold finish_insert in F. inv_all F. inversion F; subst; simpl.
    destruct (mesh_all_restore P _ _ _ _ _ _ M V Hm1) as (M' & L'). split; [auto|split; [lia|auto]]. }
  destruct a0 as [t|t ei ed|].
  - inv_Ret S. destruct a0 as (ts1, st1).
    destruct (FIN ts1 st1) as (A & B); [eapply mesh_all_split3; eauto|exact S|]. tauto.
  - simpl in OK. destruct OK as (x & Hx & ->).
    assert (T : tri_all P x) by (apply H; eapply nthN_In; eauto).
    assert (CL : forall k w b, w = tv x k -> close_to vs w a = Ret b -> b = true ->
      exists q, getN vs w = Ret q /\ is_finite w = true /\ is_vertex_pair_too_close q a = true /\
       exists t k, In t (s_ts s) /\ tv t k = w).
    { intros k w b Hw C Hb; subst. unfold close_to in C.
      destruct (is_finite (tv x k)) eqn:Fi; [|discriminate].
      inv_Ret C. inversion C. exists a0. repeat split; auto.
      exists x, k. split; auto. eapply nthN_In; eauto. }
    inv_Ret S. destruct a0.
    + inv_Ret S. inversion S; subst; simpl. split; auto. right. repeat split; auto.
      destruct (CL _ _ _ eq_refl Hm1 eq_refl) as (q & A & B & C & D).
      exists a, (efrom (tedge x ei)), q. repeat split; auto.
    + inv_Ret S. destruct a0.
      * inv_Ret S. inversion S; subst; simpl. split; auto. right. repeat split; auto.
        destruct (CL _ _ _ eq_refl Hm2 eq_refl) as (q & A & B & C & D).
        exists a, (eto (tedge x ei)), q. repeat split; auto.
      * inv_Ret S. destruct a0 as (ts1, st1).
        destruct (FIN ts1 st1) as (A & B); [|exact S|tauto].
        eapply mesh_all_split4; [exact H|exact V| | |exact Hm3].
        -- exact (tri_all_tv P x (fst (edge_to_verts ei)) T).
        -- exact (tri_all_tv P x (snd (edge_to_verts ei)) T).
  - discriminate.
Qed.

Lemma fold_insert_all (P : N -> Prop) fuel vs : forall l s s',
  mesh_all P (s_ts s) -> (forall v, In v l -> P v) ->
  foldM (insert_vertex fuel vs) l s = Ret s' ->
  mesh_all P (s_ts s') /\ lenN (s_ts s') <= lenN (s_ts s) + 2 * lenN l.
Proof.
  induction l as [|v l IH]; intros s s' H V F; simpl in F.
  - inversion F; subst; split; auto. lia.
  - inv_Ret F.
    destruct (mesh_all_insert P _ _ _ _ _ H (V v (or_introl eq_refl)) Hm) as (M & L).
    destruct (IH _ _ M (fun x Hx => V x (or_intror Hx)) F) as (M' & L'). split; auto.
    rewrite lenN_cons. destruct L as [(L & _)|(L & _)]; [|rewrite L in L']; lia.
Qed.

(** ** Bin sort *)

Lemma count_bins_length bins : forall vs c idx c',
  count_bins bins vs c = Ret (idx, c') -> length idx = length vs /\ length c' = length c.
Proof.
  induction vs as [|v vs IH]; intros c idx c' H; simpl in H.
  - inversion H; subst; auto.
  - destruct (bin_index_from_vertex bins v); [|discriminate]. inv_all H.
    inversion H; subst. destruct (IH _ _ _ Hm1) as (A & B).
    apply setN_Ret in Hm0. destruct Hm0 as (_ & ->). rewrite length_updN in B.
    simpl; auto.
Qed.

Lemma length_place : forall idx vid c s s',
  place_vertices idx vid c s = Ret s' -> length s' = length s.
Proof.
  induction idx as [|b idx IH]; intros vid c s s' H; simpl in H.
  - inversion H; auto.
  - inv_Ret H. destruct (a =? 0); [discriminate|]. inv_all H.
    apply IH in H. rewrite H. apply setN_Ret in Hm1. destruct Hm1 as (_ & ->).
    apply length_updN.
Qed.

(** Occurrences of a bin in a list of bin indices. *)
Definition occ (b : N) (l : list N) : N := lenN (filter (N.eqb b) l).

Lemma occ_cons b x l : occ b (x :: l) = (if b =? x then 1 else 0) + occ b l.
Proof.
  unfold occ; simpl. destruct (b =? x); [rewrite lenN_cons|]; lia.
Qed.

(** The counters after the counting loop. *)
Lemma count_bins_spec bins : forall vs c idx c',
  count_bins bins vs c = Ret (idx, c') ->
  (forall b x, nthN c b = Some x -> nthN c' b = Some (x + occ b idx)) /\
  (forall b, In b idx -> b < lenN c).
Proof.
  induction vs as [|v vs IH]; intros c idx c' H; simpl in H.
  - inversion H; subst. split; [|intros b []].
    intros b x Hx. rewrite Hx. unfold occ; simpl. f_equal. rewrite lenN_nil. lia.
  - destruct (bin_index_from_vertex bins v) as [b0|]; [|discriminate]. inv_all H.
    inversion H; subst.
    apply getN_Ret in Hm. apply setN_Ret in Hm0. destruct Hm0 as (_ & ->).
    destruct (IH _ _ _ Hm1) as (A & B). split.
    + intros b x Hx. rewrite occ_cons.
      destruct (N.eqb_spec b b0) as [->|Hne].
      * rewrite Hx in Hm; inversion Hm; subst.
        erewrite (A b0); [|apply nthN_updN_same; eapply nthN_lt; eauto]. f_equal; lia.
      * erewrite (A b); [|rewrite nthN_updN_other by congruence; eauto]. f_equal; lia.
    + intros b [<-|Hb].
      * eapply nthN_lt; eauto.
      * apply B in Hb. now rewrite lenN_updN in Hb.
Qed.

(** Sum of the first [k] counters. *)
Fixpoint sumN (l : list N) : N := match l with [] => 0 | x :: l' => x + sumN l' end.

Lemma prefix_sums_nth : forall l acc k,
  k < lenN l -> nthN (prefix_sums acc l) k = Some (acc + sumN (firstn (S (N.to_nat k)) l)).
Proof.
  induction l as [|x l IH]; intros acc k H.
  - rewrite lenN_nil in H; lia.
  - cbn [prefix_sums nthN]. destruct (N.eqb_spec k 0) as [->|Hk].
    + simpl. f_equal; lia.
    + rewrite lenN_cons in H. rewrite IH by lia.
      replace (N.to_nat k) with (S (N.to_nat (N.pred k))) by lia.
      cbn [firstn sumN]. f_equal. lia.
Qed.

Lemma length_prefix_sums : forall l acc, length (prefix_sums acc l) = length l.
Proof. induction l; intros; simpl; auto. Qed.

Lemma sumN_upd : forall l i x, nthN l i = Some x -> sumN (updN l i (x + 1)) = sumN l + 1.
Proof.
  induction l as [|y l IH]; intros i x H; simpl in *; [discriminate|].
  destruct (i =? 0).
  - inversion H; subst; simpl; lia.
  - simpl. rewrite IH by exact H. lia.
Qed.

Lemma count_bins_sum bins : forall vs c idx c',
  count_bins bins vs c = Ret (idx, c') -> sumN c' = sumN c + lenN vs.
Proof.
  induction vs as [|v vs IH]; intros c idx c' H; simpl in H.
  - inversion H; subst. rewrite lenN_nil; lia.
  - destruct (bin_index_from_vertex bins v) as [b0|]; [|discriminate]. inv_all H.
    inversion H; subst.
    apply getN_Ret in Hm. apply setN_Ret in Hm0. destruct Hm0 as (_ & ->).
    apply IH in Hm1. rewrite Hm1, sumN_upd, lenN_cons by exact Hm. lia.
Qed.

Lemma sumN_repeat0 n : sumN (repeat 0 n) = 0.
Proof. induction n; simpl; auto. Qed.

Definition base (cs : list N) (b : N) : N := sumN (firstn (N.to_nat b) cs).

Lemma sumN_firstn_S : forall l k x, nth_error l k = Some x ->
  sumN (firstn (S k) l) = sumN (firstn k l) + x.
Proof.
  induction l as [|y l IH]; intros k x H; [destruct k; discriminate|].
  destruct k; simpl in H.
  - inversion H; subst. simpl. lia.
  - cbn [firstn sumN]. cbn [firstn sumN] in IH. rewrite (IH k x H). lia.
Qed.

Lemma sumN_firstn_mono : forall l j k, (j <= k)%nat -> sumN (firstn j l) <= sumN (firstn k l).
Proof.
  induction l as [|y l IH]; intros j k H.
  - rewrite !firstn_nil; lia.
  - destruct j, k; simpl; try lia. specialize (IH j k). lia.
Qed.

Lemma base_mono cs b b' x : nthN cs b = Some x -> b < b' -> base cs b + x <= base cs b'.
Proof.
  intros H L. unfold base. rewrite nthN_nth_error in H.
  rewrite <- (sumN_firstn_S _ _ _ H). apply sumN_firstn_mono. lia.
Qed.

Lemma base_total cs b x : nthN cs b = Some x -> base cs b + x <= sumN cs.
Proof.
  intros H. unfold base. rewrite nthN_nth_error in H.
  rewrite <- (sumN_firstn_S _ _ _ H).
  rewrite <- (firstn_all cs) at 2. apply sumN_firstn_mono.
  assert (N.to_nat b < length cs)%nat by (apply nth_error_Some; congruence). lia.
Qed.

(** Slot [k] is still reserved for a remaining vertex. *)
Definition slot_free (cs counters : list N) (k : N) : Prop :=
  exists b c, nthN counters b = Some c /\ base cs b <= k < c.

(** The placement loop never overwrites and puts every id in its own slot. *)
Lemma place_spec cs n : forall idx vid counters sorted,
  lenN counters = lenN cs ->
  (forall b, In b idx -> b < lenN cs) ->
  (forall b c, nthN counters b = Some c -> exists x,
      nthN cs b = Some x /\ c = base cs b + occ b idx /\ occ b idx <= x) ->
  sumN cs <= n -> lenN sorted = n ->
  exists sorted', place_vertices idx vid counters sorted = Ret sorted' /\
    lenN sorted' = n /\
    (forall k, ~ slot_free cs counters k -> nthN sorted' k = nthN sorted k) /\
    (forall j, j < lenN idx -> exists k, nthN sorted' k = Some (as_id (vid + j))).
Proof.
  induction idx as [|b idx IH]; intros vid counters sorted L B C T S.
  - exists sorted. simpl. repeat split; auto. intros j H; rewrite lenN_nil in H; lia.
  - assert (Hb : b < lenN counters) by (rewrite L; apply B; now left).
    destruct (nthN_Some _ _ Hb) as (c & Hc).
    destruct (C _ _ Hc) as (x & Hx & Ec & Ex).
    rewrite occ_cons, N.eqb_refl in Ec, Ex.
    pose proof (base_total _ _ _ Hx) as BT.
    simpl. rewrite (getN_Some _ _ _ Hc). simpl.
    destruct (N.eqb_spec c 0); [lia|].
    rewrite (setN_Some _ _ _ _ Hc). simpl.
    destruct (nthN_Some sorted (c - 1)) as (old & Hold); [lia|].
    rewrite (setN_Some _ _ _ _ Hold). simpl.
    assert (C' : forall b1 c1, nthN (updN counters b (c - 1)) b1 = Some c1 -> exists x,
      nthN cs b1 = Some x /\ c1 = base cs b1 + occ b1 idx /\ occ b1 idx <= x).
    { intros b1 c1 H1. destruct (N.eqb_spec b1 b) as [->|Hne].
      - rewrite nthN_updN_same in H1 by exact Hb. inversion H1; subst c1.
        exists x. repeat split; auto; lia.
      - rewrite nthN_updN_other in H1 by congruence. destruct (C _ _ H1) as (x1 & A1 & A2 & A3).
        rewrite occ_cons in A2, A3. destruct (N.eqb_spec b1 b); [contradiction|].
        exists x1. repeat split; auto; lia. }
    destruct (IH (vid + 1) (updN counters b (c - 1)) (updN sorted (c - 1) (as_id vid)))
      as (s' & R & Ls & K & J).
    { now rewrite lenN_updN. }
    { intros; apply B; now right. }
    { exact C'. }
    { exact T. }
    { now rewrite lenN_updN. }
    exists s'. split; [exact R|]. split; [exact Ls|].
    assert (NF : forall k, slot_free cs (updN counters b (c - 1)) k -> slot_free cs counters k).
    { intros k (b1 & c1 & H1 & H2). destruct (N.eqb_spec b1 b) as [->|Hne].
      - rewrite nthN_updN_same in H1 by exact Hb. inversion H1; subst c1.
        exists b, c. split; auto. lia.
      - rewrite nthN_updN_other in H1 by congruence. exists b1, c1; auto. }
    split.
    + intros k Hk. rewrite K.
      * apply nthN_updN_other. intros <-. apply Hk. exists b, c. split; auto. lia.
      * intros F. apply Hk. apply NF. exact F.
    + intros j Hj. destruct (N.eqb_spec j 0) as [->|Hj0].
      * exists (c - 1). rewrite K.
        -- rewrite nthN_updN_same by lia. f_equal. f_equal. lia.
        -- intros (b1 & c1 & H1 & H2 & H3). destruct (C' _ _ H1) as (x1 & A1 & A2 & A3).
           destruct (N.lt_trichotomy b1 b) as [Lt|[->|Lt]].
           ++ pose proof (base_mono _ _ _ _ A1 Lt). lia.
           ++ rewrite nthN_updN_same in H1 by exact Hb. inversion H1; lia.
           ++ pose proof (base_mono _ _ _ _ Hx Lt). lia.
      * rewrite lenN_cons in Hj. destruct (J (N.pred j)) as (k & Hk); [lia|].
        exists k. rewrite Hk. f_equal. f_equal. lia.
Qed.

(** Everything after the counting loop succeeds. *)
Lemma bin_sort_after_count bins vs idx c :
  count_bins bins vs (repeat 0 (N.to_nat (bins * bins))) = Ret (idx, c) ->
  exists sorted, bin_sort bins vs = Ret sorted /\ length sorted = length vs /\
    forall j, j < lenN vs -> In (as_id j) sorted.
Proof.
  intros H. unfold bin_sort. rewrite H. cbn [bind].
  destruct (count_bins_length _ _ _ _ _ H) as (L1 & L2).
  destruct (count_bins_spec _ _ _ _ _ H) as (S1 & S2).
  pose proof (count_bins_sum _ _ _ _ _ H) as S3. rewrite sumN_repeat0 in S3.
  assert (LC : lenN c = N.of_nat (N.to_nat (bins * bins))) by (unfold lenN; rewrite L2, repeat_length; lia).
  destruct (place_spec c (lenN vs) idx 0 (prefix_sums 0 c) (repeat 0 (length vs)))
    as (s & R & Ls & _ & J).
  - unfold lenN; now rewrite length_prefix_sums.
  - intros b Hb. apply S2 in Hb. rewrite lenN_repeat in Hb. lia.
  - intros b x Hx.
    assert (Hb : b < lenN c).
    { apply nthN_lt in Hx. unfold lenN in *. rewrite length_prefix_sums in Hx. exact Hx. }
    rewrite prefix_sums_nth in Hx by exact Hb. rewrite N.add_0_l in Hx.
    assert (Ex : x = sumN (firstn (S (N.to_nat b)) c)) by congruence. rewrite Ex.
    assert (O : nthN c b = Some (occ b idx)).
    { erewrite S1 by (apply nthN_repeat; lia). reflexivity. }
    exists (occ b idx). split; [exact O|]. split; [|lia].
    unfold base. rewrite nthN_nth_error in O. pose proof (sumN_firstn_S _ _ _ O) as Q.
    exact Q.
  - lia.
  - rewrite lenN_repeat; reflexivity.
  - exists s. split; [exact R|]. split.
    + unfold lenN in Ls; lia.
    + intros j Hj. destruct (J j) as (k & Hk).
      * unfold lenN in *; lia.
      * rewrite N.add_0_l in Hk. eapply nthN_In; eauto.
Qed.

Lemma bin_sort_inv bins vs sorted :
  bin_sort bins vs = Ret sorted ->
  length sorted = length vs /\ forall j, j < lenN vs -> In (as_id j) sorted.
Proof.
  intros H. pose proof H as H'. unfold bin_sort in H'. inv_Ret H'. destruct a as (idx, c).
  destruct (bin_sort_after_count _ _ _ _ Hm) as (s & R & A & B).
  rewrite R in H; inversion H; subst; auto.
Qed.

(** ** Results on the whole insertion loop *)

Lemma as_id_small x : x <= idmax -> as_id x = x.
Proof. intros H. unfold as_id. apply N.mod_small. lia. Qed.

Lemma bin_sort_permutation bins vs sorted :
  lenN vs <= idmax + 1 -> bin_sort bins vs = Ret sorted ->
  Permutation sorted (rangeN 0 (length vs)).
Proof.
  intros C H. destruct (bin_sort_inv _ _ _ H) as (L & J).
  symmetry. apply NoDup_Permutation_bis.
  - apply NoDup_rangeN.
  - rewrite length_rangeN. lia.
  - intros x Hx. apply In_rangeN in Hx.
    rewrite <- (as_id_small x) by (unfold lenN in C; lia). apply J. unfold lenN; lia.
Qed.


Lemma mesh_all_initial (P : N -> Prop) first :
  P first -> P INF0 -> P INF1 -> P INF2 -> P INF3 -> mesh_all P (create_initial_triangles first).
Proof.
  intros F A B C D t Ht. simpl in Ht. decompose [or] Ht; subst; try contradiction; repeat split; auto.
Qed.

Lemma infinite_ids : INF0 <= INF0 /\ INF0 <= INF1 /\ INF0 <= INF2 /\ INF0 <= INF3.
Proof. unfold INF0, INF1, INF2, INF3; lia. Qed.

(** Every vertex id of the final mesh is an input id or an infinite id, and the mesh has
    two triangles more per inserted vertex. *)
Lemma wrap_all fuel bins vs m s :
  lenN vs <= idmax + 1 -> wrap_and_triangulate fuel bins vs m = Ret s ->
  mesh_all (fun v => v < lenN vs \/ INF0 <= v) (s_ts s) /\
  lenN (s_ts s) <= 2 * lenN vs + 2.
Proof.
  intros C H. unfold wrap_and_triangulate in H. inv_Ret H.
  pose proof (bin_sort_permutation _ _ _ C Hm) as Pm.
  destruct a as [|first rest]; [discriminate|]. inv_Ret H.
  assert (V : forall v, In v (first :: rest) -> v < lenN vs \/ INF0 <= v).
  { intros v Hv. left. apply (Permutation_in _ Pm) in Hv. apply In_rangeN in Hv.
    unfold lenN; lia. }
  destruct infinite_ids as (I0 & I1 & I2 & I3).
  assert (MI : mesh_all (fun v => v < lenN vs \/ INF0 <= v) (create_initial_triangles first)).
  { apply mesh_all_initial; auto. apply V; now left. }
  destruct (fold_insert_all (fun v => v < lenN vs \/ INF0 <= v) fuel vs rest
     (St (create_initial_triangles first) a m) s MI
     (fun v Hv => V v (or_intror Hv)) H) as (M & L).
  split; auto. simpl s_ts in L.
  assert (lenN (first :: rest) = lenN vs).
  { unfold lenN. rewrite (Permutation_length Pm), length_rangeN. reflexivity. }
  rewrite lenN_cons in *. change (lenN (create_initial_triangles first)) with 4 in L. lia.
Qed.

(** ** Merging *)

(** What the mapping says about vertex [v] once [done] has been processed. *)
Definition mapping_ok (vs : list vertex) (done m : list N) : Prop :=
  lenN m = lenN vs /\
  forall v, v < lenN vs ->
    nthN m v = Some v \/
    (In v done /\ exists w p q, nthN m v = Some w /\ w <> v /\ In w done /\ nthN m w = Some w /\
       nthN vs w = Some q /\ nthN vs v = Some p /\ is_vertex_pair_too_close q p = true).

Definition mesh_unmerged (done m : list N) (ts : list tri) : Prop :=
  mesh_all (fun v => INF0 <= v \/ (In v done /\ nthN m v = Some v)) ts.

Lemma mesh_all_weaken (P Q : N -> Prop) ts : (forall v, P v -> Q v) -> mesh_all P ts -> mesh_all Q ts.
Proof. intros H M t Ht. destruct (M t Ht) as (? & ? & ?). repeat split; auto. Qed.

Lemma is_finite_spec v : is_finite v = true <-> v < INF0.
Proof. apply N.ltb_lt. Qed.

Lemma insert_mapping fuel vs done m s v s' :
  ~ In v done -> v < lenN vs ->
  mapping_ok vs done m -> mesh_unmerged done m (s_ts s) -> s_map s = Some m ->
  insert_vertex fuel vs s v = Ret s' ->
  exists m', mapping_ok vs (v :: done) m' /\ mesh_unmerged (v :: done) m' (s_ts s') /\
    s_map s' = Some m'.
Proof.
  intros Nv Lv (ML & MO) MU SM I.
  assert (Hv : nthN m v = Some v).
  { destruct (MO v Lv) as [?|(A & _)]; [assumption|contradiction]. }
  assert (MU' : mesh_all (fun x => INF0 <= x \/ (In x (v :: done) /\ nthN m x = Some x)) (s_ts s)).
  { eapply mesh_all_weaken; [|exact MU]. simpl. intuition. }
  assert (PV : INF0 <= v \/ (In v (v :: done) /\ nthN m v = Some v)) by (right; simpl; auto).
  destruct (mesh_all_insert _ _ _ _ _ _ MU' PV I)
    as (M & [(L & Em)|(Et & Es & p & w & q & Gp & Gq & Fw & TC & (t & k & It & Tk) & RM)]).
  - exists m. split; [|split; [exact M|congruence]]. split; auto.
    intros x Hx. destruct (MO x Hx) as [?|(A & w & p & q & B & C & D & F & G)]; [auto|right].
    split; [now right|]. exists w, p, q. repeat split; try apply G; auto. now right.
  - rewrite SM in RM. simpl in RM. inv_Ret RM. inversion RM as [RM'].
    apply setN_Ret in Hm. destruct Hm as (_ & ->).
    apply getN_Ret in Gp. apply getN_Ret in Gq.
    assert (W : In w done /\ nthN m w = Some w).
    { apply is_finite_spec in Fw.
      assert (T := tri_all_tv _ t k (MU t It)). cbv beta in T. rewrite Tk in T.
      destruct T as [T|T]; [lia|exact T]. }
    destruct W as (W1 & W2).
    assert (NE : w <> v) by (intros ->; contradiction).
    exists (updN m v w). split; [|split; [|auto]].
    + split; [now rewrite lenN_updN|]. intros x Hx.
      destruct (N.eqb_spec x v) as [->|Hne].
      * right. split; [now left|]. exists w, p, q. repeat split; auto.
        -- apply nthN_updN_same. lia.
        -- now right.
        -- rewrite nthN_updN_other by congruence. exact W2.
      * rewrite nthN_updN_other by congruence.
        destruct (MO x Hx) as [?|(A & w' & p' & q' & B & C & D & F & G)]; [auto|right].
        split; [now right|]. exists w', p', q'.
        rewrite nthN_updN_other by (intros ->; contradiction).
        repeat split; try apply G; auto. now right.
    + rewrite Et. eapply mesh_all_weaken; [|exact MU]. cbv beta.
      intros x [Hx|(A & B)]; [auto|right]. split; [now right|].
      rewrite nthN_updN_other by (intros ->; contradiction). exact B.
Qed.

Lemma fold_mapping fuel vs : forall l done m s s',
  NoDup (l ++ done) -> (forall v, In v l -> v < lenN vs) ->
  mapping_ok vs done m -> mesh_unmerged done m (s_ts s) -> s_map s = Some m ->
  foldM (insert_vertex fuel vs) l s = Ret s' ->
  exists m' done', (forall v, In v done' <-> In v (l ++ done)) /\
    mapping_ok vs done' m' /\ mesh_unmerged done' m' (s_ts s') /\ s_map s' = Some m'.
Proof.
  induction l as [|v l IH]; intros done m s s' ND B MO MU SM F; simpl in F.
  - inversion F; subst. exists m, done. simpl. intuition.
  - inv_Ret F. inversion ND as [|? ? Nv ND']; subst.
    destruct (insert_mapping fuel vs done m s v a) as (m' & MO' & MU' & SM'); auto.
    { intros X; apply Nv; apply in_or_app; auto. }
    { apply B; now left. }
    destruct (IH (v :: done) m' a s') as (m'' & d' & A1 & A2 & A3 & A4); auto.
    { eapply Permutation_NoDup; [apply Permutation_middle|]. constructor; auto. }
    { intros; apply B; now right. }
    exists m'', d'. split; auto. intros x. rewrite A1. simpl. rewrite !in_app_iff. simpl. tauto.
Qed.

Lemma wrap_mapping fuel bins vs s :
  lenN vs <= INF0 ->
  wrap_and_triangulate fuel bins vs (Some (rangeN 0 (length vs))) = Ret s ->
  exists m, s_map s = Some m /\ lenN m = lenN vs /\
    (forall v, v < lenN vs ->
       nthN m v = Some v \/
       exists w p q, nthN m v = Some w /\ w <> v /\ w < lenN vs /\ nthN m w = Some w /\
         nthN vs w = Some q /\ nthN vs v = Some p /\ is_vertex_pair_too_close q p = true) /\
    mesh_all (fun v => INF0 <= v \/ nthN m v = Some v) (s_ts s).
Proof.
  intros C H. unfold wrap_and_triangulate in H. inv_Ret H.
  assert (C' : lenN vs <= idmax + 1) by (unfold INF0 in C; lia).
  pose proof (bin_sort_permutation _ _ _ C' Hm) as Pm.
  destruct a as [|first rest]; [discriminate|]. inv_Ret H.
  assert (ND : NoDup (first :: rest)).
  { eapply Permutation_NoDup; [symmetry; exact Pm|apply NoDup_rangeN]. }
  assert (V : forall v, In v (first :: rest) -> v < lenN vs).
  { intros v Hv. apply (Permutation_in _ Pm) in Hv. apply In_rangeN in Hv. unfold lenN; lia. }
  assert (R : forall v, v < lenN vs -> nthN (rangeN 0 (length vs)) v = Some v).
  { intros v Hv. rewrite nthN_rangeN by (unfold lenN in Hv; lia). f_equal; lia. }
  assert (MO : mapping_ok vs [first] (rangeN 0 (length vs))).
  { split; [unfold lenN; now rewrite length_rangeN|]. intros v Hv. left. auto. }
  assert (MU : mesh_unmerged [first] (rangeN 0 (length vs)) (create_initial_triangles first)).
  { destruct infinite_ids as (I0 & I1 & I2 & I3).
    apply mesh_all_initial; auto. right. simpl. split; auto. apply R, V. now left. }
  destruct (fold_mapping fuel vs rest [first] (rangeN 0 (length vs))
     (St (create_initial_triangles first) a (Some (rangeN 0 (length vs)))) s)
    as (m & d & A1 & (A2 & A2') & A3 & A4); auto.
  { eapply Permutation_NoDup; [|exact ND]. rewrite Permutation_app_comm. reflexivity. }
  { intros; apply V; now right. }
  exists m. split; auto. split; auto. split.
  - intros v Hv. destruct (A2' v Hv) as [?|(B & w & p & q & B1 & B2 & B3 & B4 & B5)]; auto.
    right. exists w, p, q. repeat split; try apply B5; auto.
    apply V. apply A1 in B3. apply in_app_iff in B3. simpl in *. intuition.
  - eapply mesh_all_weaken; [|exact A3]. cbv beta. intuition.
Qed.

(** ** Filtering *)

Lemma In_filter_triangles ts a b c :
  In (a, b, c) (filter_triangles ts) <->
  exists t, In t ts /\ tri_is_finite t = true /\ tverts t = (a, b, c).
Proof.
  unfold filter_triangles. rewrite in_map_iff. split.
  - intros (t & Ht & I). apply filter_In in I. exists t; tauto.
  - intros (t & I & F & Ht). exists t. split; auto. apply filter_In; auto.
Qed.

Lemma tri_finite_spec t :
  tri_is_finite t = true <-> t_v1 t < INF0 /\ t_v2 t < INF0 /\ t_v3 t < INF0.
Proof.
  unfold tri_is_finite. rewrite !andb_true_iff, !is_finite_spec. tauto.
Qed.

Lemma length_filter_le {A} (f : A -> bool) l : (length (filter f l) <= length l)%nat.
Proof. induction l as [|x l IH]; simpl; auto. destruct (f x); simpl; lia. Qed.

Lemma filter_triangles_length ts : lenN (filter_triangles ts) <= lenN ts.
Proof.
  unfold filter_triangles, lenN. rewrite map_length. pose proof (length_filter_le tri_is_finite ts). lia.
Qed.

Lemma normalize_length vs nvs s x y :
  normalize_vertices_coordinates vs = (nvs, s, x, y) -> length nvs = length vs.
Proof.
  unfold normalize_vertices_coordinates. destruct (compute_bounds vs) as (((a, b), c), d).
  intros H; inversion H; subst. apply map_length.
Qed.

(** The DT entry point. *)
Lemma dt_inv fuel bins vs out :
  triangulation_from_2d_vertices fuel bins vs = Ret out ->
  (lenN vs < 3 /\ out = []) \/
  (3 <= lenN vs /\ exists nvs sc xm ym s,
     normalize_vertices_coordinates vs = (nvs, sc, xm, ym) /\ lenN nvs = lenN vs /\
     wrap_and_triangulate fuel bins nvs None = Ret s /\ out = filter_triangles (s_ts s)).
Proof.
  unfold triangulation_from_2d_vertices. destruct (N.ltb_spec (lenN vs) 3).
  - intros X; inversion X; auto.
  - destruct (normalize_vertices_coordinates vs) as (((nvs, sc), xm), ym) eqn:NV.
    intros X. inv_Ret X. inversion X; subst. right. split; auto.
    exists nvs, sc, xm, ym, a. repeat split; auto. unfold lenN; now rewrite (normalize_length _ _ _ _ _ NV).
Qed.

Lemma dt_ids fuel bins vs out :
  lenN vs <= idmax + 1 -> triangulation_from_2d_vertices fuel bins vs = Ret out ->
  (forall a b c, In (a, b, c) out -> a < lenN vs /\ b < lenN vs /\ c < lenN vs) /\
  lenN out <= 2 * lenN vs + 2.
Proof.
  intros C H. apply dt_inv in H.
  destruct H as [(L & ->)|(L & nvs & sc & xm & ym & s & NV & LN & W & ->)].
  - split; [intros a b c []|]. rewrite lenN_nil; lia.
  - rewrite <- LN in *. destruct (wrap_all _ _ _ _ _ C W) as (M & S).
    pose proof (filter_triangles_length (s_ts s)). split; [|lia].
    intros a b c I. apply In_filter_triangles in I. destruct I as (t & It & F & V).
    apply tri_finite_spec in F. destruct (M t It) as (? & ? & ?).
    unfold tverts in V; inversion V; subst. lia.
Qed.

End Any.

(** ** Parallel filtering *)

Lemma par_filter_map_leaf {A B} (f : A -> option B) s : forall l,
  par_filter_map f s l = par_filter_map f Leaf l.
Proof.
  induction s as [|k sl IHl sr IHr]; intros l; [reflexivity|].
  simpl. rewrite IHl, IHr. simpl. rewrite <- flat_map_app, firstn_skipn. reflexivity.
Qed.

Lemma flat_map_filter {E : Env} (ts : list tri) :
  flat_map (fun a => match (if tri_is_finite a then Some (tverts a) else None) with
                     | Some b => [b] | None => [] end) ts
  = filter_triangles ts.
Proof.
  unfold filter_triangles. induction ts as [|t ts IH]; simpl; auto.
  destruct (tri_is_finite t); simpl; rewrite IH; reflexivity.
Qed.

Lemma multithreaded_eq {E : Env} threshold s ts :
  multithreaded_filter_triangles threshold s ts = filter_triangles ts.
Proof.
  unfold multithreaded_filter_triangles. destruct (threshold <? lenN ts); [|reflexivity].
  rewrite par_filter_map_leaf. simpl. apply flat_map_filter.
Qed.
