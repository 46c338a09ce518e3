(** * Identical: a mesh of vertices whose predicates are all false (NaN coordinates), and the
    Delaunay triangulation of [n] copies of one vertex. *)

From Coq Require Import ZArith NArith List Bool Lia Permutation SpecFloat.
From Verif Require Import Base BaseFacts Arith Types Utils Infinite Triangulation AnyDT F64.
Import ListNotations.
Local Open Scope N_scope.

Section Dead.
Context {E : Env}.

(** No test about [p] holds. *)
Definition dead (p : vertex) : Prop :=
  (forall e, is_on_left_side (test_point_edge_side e p) = false /\
             is_on_right_side (test_point_edge_side e p) = false /\
             is_near_edge (test_point_edge_side e p) = false /\
             is_point_strictly_on_right_side_of_edge e p = false) /\
  (forall a b c, is_vertex_in_triangle_circumcircle a b c p = false).

Variable vs : list vertex.
Hypothesis all_dead : forall p, In p vs -> dead p.
Hypothesis capacity : 2 * lenN vs + 2 <= idmax.
Hypothesis three : 3 <= lenN vs.

Lemma get_vertex i : i < lenN vs -> exists p, getN vs i = Ret p /\ dead p.
Proof.
  intros H. destruct (nthN vs i) as [p|] eqn:Hp.
  - exists p. split; [now apply getN_Some|]. apply all_dead. eapply nthN_In; eauto.
  - apply nthN_None in Hp. lia.
Qed.

Lemma finite_id i : i < lenN vs -> is_finite i = true /\ is_infinite i = false.
Proof. intros H. unfold is_finite, is_infinite, INF0. split; [apply N.ltb_lt | apply N.leb_gt]; lia. Qed.

Lemma infinite_id i : INF0 <= i -> is_finite i = false /\ is_infinite i = true.
Proof. intros H. unfold is_finite, is_infinite. split; [apply N.ltb_ge | apply N.leb_le]; lia. Qed.

Definition vid_ok i := i < lenN vs \/ INF0 <= i.
Definition nb_ok (B i : N) := i = NONE \/ i < B.

Definition tri_ok (B : N) (t : tri) : Prop :=
  t_v1 t < lenN vs /\ vid_ok (t_v2 t) /\ vid_ok (t_v3 t) /\
  nb_ok B (t_n12 t) /\ nb_ok B (t_n23 t) /\ nb_ok B (t_n31 t) /\
  (INF0 <= t_v2 t -> INF0 <= t_v3 t -> t_n23 t = NONE).

Definition good (B : N) (ts : list tri) : Prop := forall t, In t ts -> tri_ok B t.

Lemma quad_index i : INF0 <= i -> exists q, infinite_vertex_local_quad_index i = Some q.
Proof.
  intros H. unfold infinite_vertex_local_quad_index. rewrite (proj1 (infinite_id _ H)).
  destruct (i =? INF0), (i =? INF1), (i =? INF2); eauto.
Qed.

Ltac kill D := repeat match goal with
  | |- context [is_on_left_side (test_point_edge_side ?e ?p)] => rewrite (proj1 (proj1 D e))
  | |- context [is_on_right_side (test_point_edge_side ?e ?p)] => rewrite (proj1 (proj2 (proj1 D e)))
  | |- context [is_near_edge (test_point_edge_side ?e ?p)] => rewrite (proj1 (proj2 (proj2 (proj1 D e))))
  end; rewrite ?andb_false_r; cbn [andb].

Lemma walk_dead ts p t tid prev : dead p -> getN ts tid = Ret t -> tri_ok (lenN ts) t ->
  walk_iter ts vs p prev tid = Ret (Placed (InsideTriangle tid)).
Proof.
  intros D G (H1 & H2 & H3 & _). unfold walk_iter. rewrite G. cbn [bind].
  unfold collect_infinite_triangle_vertices.
  rewrite (proj2 (finite_id _ H1)).
  destruct (get_vertex _ H1) as (p1 & G1 & _).
  destruct H2 as [H2|H2], H3 as [H3|H3];
    [ rewrite (proj2 (finite_id _ H2)), (proj2 (finite_id _ H3))
    | rewrite (proj2 (finite_id _ H2)), (proj2 (infinite_id _ H3))
    | rewrite (proj2 (infinite_id _ H2)), (proj2 (finite_id _ H3))
    | rewrite (proj2 (infinite_id _ H2)), (proj2 (infinite_id _ H3)) ]; cbn [app bind].
  - unfold walk_finite. destruct (get_vertex _ H2) as (p2 & G2 & _).
    destruct (get_vertex _ H3) as (p3 & G3 & _). rewrite G1, G2, G3. cbn [bind]. kill D. reflexivity.
  - unfold vertex_placement_1_infinite. cbn [next_cw next_ccw tv].
    destruct (get_vertex _ H2) as (p2 & G2 & _). destruct (quad_index _ H3) as (q & Hq).
    rewrite G1, G2. cbn [bind]. rewrite Hq. kill D. reflexivity.
  - unfold vertex_placement_1_infinite. cbn [next_cw next_ccw tv].
    destruct (get_vertex _ H3) as (p3 & G3 & _). destruct (quad_index _ H2) as (q & Hq).
    rewrite G1, G3. cbn [bind]. rewrite Hq. kill D. reflexivity.
  - unfold vertex_placement_2_infinite. cbn [opposite_vertex_index_from_edge next_cw next_ccw tv].
    destruct (quad_index _ H2) as (q2 & Hq2). destruct (quad_index _ H3) as (q3 & Hq3).
    rewrite G1. cbn [bind]. rewrite Hq2, Hq3. kill D. reflexivity.
Qed.

Lemma swap_dead q : vid_ok (q1 q) -> vid_ok (q2 q) -> vid_ok (q3 q) -> q4 q < lenN vs ->
  (INF0 <= q1 q -> INF0 <= q2 q -> False) -> should_swap_diagonals q vs = Ret false.
Proof.
  intros H1 H2 H3 H4 N. unfold should_swap_diagonals.
  destruct H3 as [H3|H3]; [|now rewrite (proj2 (infinite_id _ H3))].
  rewrite (proj2 (finite_id _ H3)). destruct (get_vertex _ H3) as (p3 & G3 & _).
  destruct (get_vertex _ H4) as (p4 & G4 & D).
  destruct H1 as [H1|H1], H2 as [H2|H2];
    [ rewrite (proj1 (finite_id _ H1)), (proj1 (finite_id _ H2))
    | rewrite (proj1 (finite_id _ H1)), (proj1 (infinite_id _ H2))
    | rewrite (proj1 (infinite_id _ H1)), (proj1 (finite_id _ H2))
    | now destruct (N H1 H2) ]; cbn [andb negb].
  - destruct (get_vertex _ H1) as (p1 & G1 & _), (get_vertex _ H2) as (p2 & G2 & _).
    rewrite G1, G2, G3, G4. cbn [bind]. now rewrite (proj2 D).
  - unfold is_vertex_in_half_plane_1. cbn [opposite_edge_index edge_to_verts fst snd tidx_to_qidx qv].
    destruct (get_vertex _ H1) as (p1 & G1 & _). rewrite G1, G3, G4. cbn [bind].
    f_equal. apply (proj2 (proj2 (proj2 (proj1 D _)))).
  - unfold is_vertex_in_half_plane_1. cbn [opposite_edge_index edge_to_verts fst snd tidx_to_qidx qv].
    destruct (get_vertex _ H2) as (p2 & G2 & _). rewrite G2, G3, G4. cbn [bind].
    f_equal. apply (proj2 (proj2 (proj2 (proj1 D _)))).
Qed.

Lemma check_dead B ts v t1 t2 st : good B ts -> v < lenN vs -> t1 <> NONE -> t2 < lenN ts ->
  check_and_swap ts vs v t1 t2 st = Ret (ts, st).
Proof.
  intros G V T1 T2. unfold check_and_swap.
  destruct (nthN ts t2) as [t|] eqn:Ht; [|apply nthN_None in Ht; lia].
  rewrite (getN_Some _ _ _ Ht). cbn [bind].
  destruct (G _ (nthN_In _ _ _ Ht)) as (A1 & A2 & A3 & _ & _ & _ & A4).
  unfold quad_of_pair.
  destruct (N.eqb_spec (t_n12 t) t1); [|destruct (N.eqb_spec (t_n23 t) t1)];
    rewrite swap_dead; cbn [q1 q2 q3 q4 bind]; auto; try (left; exact A1).
  - intros _ K. apply N.lt_nge in A1. unfold INF0 in K. lia.
  - intros K3 K2. specialize (A4 K2 K3). congruence.
  - intros K _. unfold INF0 in K. lia.
Qed.

Lemma restore_dead B fuel ts v st : good B ts -> v < lenN vs -> (length st <= fuel)%nat ->
  (forall p, In p st -> fst p <> NONE /\ snd p < lenN ts) ->
  restore_delaunay fuel ts vs v st = Ret ts.
Proof.
  intros G V. revert fuel. induction st as [|(t1, t2) st IH]; intros fuel F S; [now destruct fuel|].
  cbn [length] in F. destruct fuel as [|fuel]; [lia|]. cbn [restore_delaunay].
  destruct (S (t1, t2) (or_introl eq_refl)) as (S1 & S2). cbn [fst snd] in *.
  rewrite (check_dead B) by assumption. cbn [bind]. apply IH; [lia|]. intros; apply S; now right.
Qed.

(** ** Splitting the last triangle *)

Lemma update_ok B t old new : tri_ok B t -> old <> NONE -> new < B ->
  tri_ok B (update_triangle_neighbor t old new).
Proof.
  intros (A1 & A2 & A3 & A4 & A5 & A6 & A7) O Nw. unfold update_triangle_neighbor.
  destruct (N.eqb_spec (t_n12 t) old); [|destruct (N.eqb_spec (t_n23 t) old);
    [|destruct (N.eqb_spec (t_n31 t) old)]]; unfold tri_ok; cbn [set_tn t_v1 t_v2 t_v3 t_n12 t_n23 t_n31];
    repeat split; auto; try (right; exact Nw).
  intros K2 K3. specialize (A7 K2 K3). congruence.
Qed.

Lemma map_updN {A B} (f : A -> B) l i x y : nthN l i = Some y -> f x = f y -> map f (updN l i x) = map f l.
Proof.
  revert i. induction l as [|z l IH]; intros i H K; [reflexivity|]. cbn [nthN updN] in *.
  destruct (i =? 0); cbn [map].
  - injection H as ->. now rewrite K.
  - f_equal. eapply IH; eauto.
Qed.

Lemma In_updN {A} (l : list A) i x y : In y (updN l i x) -> y = x \/ In y l.
Proof.
  revert i. induction l as [|z l IH]; intros i H; [contradiction|]. cbn [updN] in H.
  destruct (i =? 0); cbn [In] in *; intuition. destruct (IH _ H0); intuition.
Qed.

Lemma push_dead ts st n old new tid : good (lenN ts) ts -> nb_ok (lenN ts) n -> old <> NONE -> new < lenN ts ->
  exists ts', update_and_push ts st n old new tid = Ret (ts', push_if st tid n) /\
    good (lenN ts) ts' /\ map tverts ts' = map tverts ts.
Proof.
  intros G N O W. unfold update_and_push, push_if, nexists.
  destruct (N.eqb_spec n NONE) as [->|Hn]; cbn [negb]; [eauto|].
  destruct N as [N|N]; [contradiction|].
  destruct (nthN ts n) as [t|] eqn:Ht; [|apply nthN_None in Ht; lia].
  rewrite (getN_Some _ _ _ Ht). cbn [bind]. rewrite (setN_Some _ _ _ _ Ht). cbn [bind].
  exists (updN ts n (update_triangle_neighbor t old new)). split; [reflexivity|]. split.
  - intros x Hx. destruct (In_updN _ _ _ _ Hx) as [->|K]; [|now apply G].
    apply update_ok; auto. apply G. eapply nthN_In; eauto.
  - eapply map_updN; [exact Ht|]. unfold update_triangle_neighbor.
    destruct (t_n12 t =? old), (t_n23 t =? old), (t_n31 t =? old); reflexivity.
Qed.

Lemma lenN_of_map {A B} (f : A -> B) (l l' : list A) : map f l = map f l' -> lenN l = lenN l'.
Proof. intros H. unfold lenN. apply (f_equal (@length _)) in H. rewrite !map_length in H. now rewrite H. Qed.

Lemma set_mid {A} (l1 : list A) y l2 x : setN (l1 ++ y :: l2) (lenN l1) x = Ret (l1 ++ x :: l2).
Proof.
  unfold setN. induction l1 as [|z l1 IH]; [reflexivity|].
  cbn [app nthN updN]. unfold lenN. cbn [length]. rewrite Nat2N.inj_succ, (proj2 (N.eqb_neq _ _)) by lia.
  rewrite N.pred_succ. fold (lenN l1).
  destruct (nthN (l1 ++ y :: l2) (lenN l1)) eqn:H; [|discriminate]. injection IH as ->. reflexivity.
Qed.

Lemma tri_ok_mono B B' t : B <= B' -> tri_ok B t -> tri_ok B' t.
Proof.
  intros L (A1 & A2 & A3 & A4 & A5 & A6 & A7).
  assert (M : forall i, nb_ok B i -> nb_ok B' i) by (intros i [K|K]; [now left | right; lia]).
  repeat split; auto.
Qed.

Lemma insert_dead fuel ts pre a b c m v : good (lenN ts) ts -> map tverts ts = pre ++ [(a, b, c)] ->
  lenN ts + 2 <= idmax -> v < lenN vs -> (3 <= fuel)%nat ->
  exists ts', insert_vertex fuel vs (St ts (N.pred (lenN ts)) m) v = Ret (St ts' (N.pred (lenN ts')) m) /\
    good (lenN ts') ts' /\ map tverts ts' = pre ++ [(v, c, a); (v, b, c); (v, a, b)].
Proof.
  intros G M C V F.
  destruct (exists_last (l := ts)) as (ini & t & ->).
  { intros ->. destruct pre; discriminate. }
  rewrite map_app in M. cbn [map] in M. apply app_inj_tail in M. destruct M as (M & Mt).
  assert (Ln : lenN (ini ++ [t]) = lenN ini + 1) by (unfold lenN; rewrite app_length; cbn [length]; lia).
  set (l := lenN ini) in *. rewrite Ln in *.
  replace (N.pred (l + 1)) with l by lia.
  assert (Gt : getN (ini ++ [t]) l = Ret t).
  { apply getN_Some. rewrite nthN_nth_error, nth_error_app2; unfold l, lenN; rewrite Nat2N.id; [|lia].
    now rewrite Nat.sub_diag. }
  assert (Ot : tri_ok (l + 1) t) by (apply G, in_or_app; right; now left).
  destruct (get_vertex _ V) as (p & Gp & D).
  assert (Hl : l <> NONE) by (unfold NONE; lia).
  unfold insert_vertex. rewrite Gp. cbn [bind s_start s_ts s_map].
  unfold find_vertex_placement. rewrite app_length. cbn [length]. rewrite Nat.add_1_r. cbn [walk].
  unfold nexists. rewrite (proj2 (N.eqb_neq _ _) Hl). cbn [negb].
  rewrite (walk_dead _ _ t) by (auto; rewrite Ln; exact Ot). cbn [bind].
  unfold split_triangle_into_three, next_id_plus_1, next_id. rewrite Ln.
  rewrite as_id_small by lia. rewrite (proj2 (N.eqb_neq (l + 1) idmax)) by lia. cbn [bind].
  rewrite Gt. cbn [bind].
  destruct Ot as (A1 & A2 & A3 & A4 & A5 & A6 & A7).
  rewrite <- !app_assoc. cbn [app].
  pose proof (fun l2 x => set_mid ini t l2 x) as SM. fold l in SM. rewrite SM. clear SM. cbn [bind].
  set (T1 := Tri v (t_v3 t) (t_v1 t) (l + 1) (t_n31 t) (l + 1 + 1)).
  set (T2 := Tri v (t_v2 t) (t_v3 t) (l + 1 + 1) (t_n23 t) l).
  set (T3 := Tri v (t_v1 t) (t_v2 t) l (t_n12 t) (l + 1)).
  set (ts1 := ini ++ [T1; T2; T3]).
  assert (L1 : lenN ts1 = l + 3) by (unfold ts1, lenN; rewrite app_length; cbn [length]; unfold l, lenN; lia).
  assert (NB : forall i, nb_ok (l + 1) i -> nb_ok (l + 3) i) by (intros i [K|K]; [now left | right; lia]).
  assert (NL : forall i, i < l + 3 -> nb_ok (l + 3) i) by (intros i K; now right).
  assert (G1 : good (lenN ts1) ts1).
  { rewrite L1. intros x Hx. unfold ts1 in Hx. apply in_app_or in Hx. destruct Hx as [Hx|Hx].
    - apply (tri_ok_mono (l + 1)); [lia|]. apply G, in_or_app. now left.
    - cbn [In] in Hx. destruct Hx as [<-|[<-|[<-|[]]]]; unfold tri_ok, T1, T2, T3;
        cbn [t_v1 t_v2 t_v3 t_n12 t_n23 t_n31]; repeat split; auto;
        try (left; assumption); try (apply NL; lia).
      + intros _ K. unfold INF0 in K. lia.
      + intros K _. unfold INF0 in K. lia. }
  change (ini ++ _) with ts1.
  destruct (push_dead ts1 [] (t_n12 t) l (l + 1 + 1) (l + 1 + 1)) as (ts2 & E2 & G2 & M2);
    [exact G1 | rewrite L1; auto | exact Hl | lia|].
  rewrite E2. cbn [bind].
  pose proof (lenN_of_map _ _ _ M2) as L2. rewrite <- L2 in G2.
  destruct (push_dead ts2 (push_if [] (l + 1 + 1) (t_n12 t)) (t_n23 t) l (l + 1) (l + 1)) as (ts3 & E3 & G3 & M3);
    [exact G2 | rewrite L2, L1; auto | exact Hl | lia|].
  rewrite E3. cbn [bind]. pose proof (lenN_of_map _ _ _ M3) as L3. rewrite <- L3 in G3.
  unfold finish_insert.
  rewrite (restore_dead (lenN ts3)); auto.
  2: { unfold push_if. destruct (nexists (t_n31 t)), (nexists (t_n23 t)), (nexists (t_n12 t)); cbn [length]; lia. }
  2: { intros q Hq. unfold push_if, nexists in Hq.
       destruct (N.eqb_spec (t_n31 t) NONE), (N.eqb_spec (t_n23 t) NONE), (N.eqb_spec (t_n12 t) NONE);
         cbn [negb In] in Hq; decompose [or] Hq; subst; try contradiction; cbn [fst snd];
         unfold NONE; rewrite L3, L2, L1;
         (split; [lia|]);
         repeat match goal with H : nb_ok _ _ |- _ => destruct H; [contradiction|] end; lia. }
  cbn [bind]. unfold last_id. rewrite L3, L2, L1. rewrite as_id_small by lia.
  exists ts3. rewrite L3, L2, L1.
  split; [|split].
  - destruct ts3; [exfalso; unfold lenN in *; cbn [length] in *; lia|reflexivity].
  - rewrite <- L1, <- L2, <- L3. exact G3.
  - rewrite M3, M2. unfold ts1. rewrite map_app. cbn [map tverts T1 T2 T3 t_v1 t_v2 t_v3].
    unfold tverts in Mt. injection Mt as <- <- <-. now rewrite M.
Qed.

(** ** All the insertions *)

Definition all_finite (l : list (N * N * N)) : Prop :=
  forall a b c, In (a, b, c) l -> a < lenN vs /\ b < lenN vs /\ c < lenN vs.

Lemma insertions fuel rest : (3 <= fuel)%nat -> (forall v, In v rest -> v < lenN vs) ->
  forall ts pre a b c m, good (lenN ts) ts -> map tverts ts = pre ++ [(a, b, c)] ->
  lenN ts + 2 * lenN rest <= idmax -> all_finite [(a, b, c)] ->
  exists ts' K, foldM (insert_vertex fuel vs) rest (St ts (N.pred (lenN ts)) m)
                  = Ret (St ts' (N.pred (lenN ts')) m) /\
    map tverts ts' = pre ++ K /\ all_finite K /\ lenN K = 2 * lenN rest + 1 /\
    (forall v, In v rest \/ v = a \/ v = b \/ v = c -> exists x y z, In (x, y, z) K /\ (v = x \/ v = y \/ v = z)).
Proof.
  intros F. induction rest as [|v rest IH]; intros R ts pre a b c m G M C A.
  - exists ts, [(a, b, c)]. cbn [foldM]. split; [reflexivity|]. split; [exact M|]. split; [exact A|].
    split; [reflexivity|]. intros v [[]|Hv]. exists a, b, c. split; [now left|exact Hv].
  - rewrite lenN_cons in C.
    destruct (A a b c (or_introl eq_refl)) as (Aa & Ab & Ac).
    destruct (insert_dead fuel ts pre a b c m v G M) as (ts1 & E1 & G1 & M1);
      [lia | apply R; now left | exact F |].
    cbn [foldM]. rewrite E1. cbn [bind].
    assert (L1 : lenN ts1 = lenN ts + 2).
    { apply (f_equal (@length _)) in M, M1. rewrite map_length, app_length in M, M1.
      unfold lenN. cbn [length] in *. lia. }
    assert (Vv : v < lenN vs) by (apply R; now left).
    destruct (IH (fun x Hx => R x (or_intror Hx)) ts1 (pre ++ [(v, c, a); (v, b, c)]) v a b m)
      as (ts' & K & E' & M' & A' & L' & I'); auto.
    { rewrite M1, <- app_assoc. reflexivity. }
    { lia. }
    { intros x y z [[= <- <- <-]|[]]. auto. }
    exists ts', ((v, c, a) :: (v, b, c) :: K). split; [exact E'|]. split.
    { rewrite M', <- app_assoc. reflexivity. }
    split.
    { intros x y z [[= <- <- <-]|[[= <- <- <-]|H]]; auto; now apply A'. }
    split.
    { rewrite !lenN_cons, L'. lia. }
    intros x Hx. destruct (N.eq_dec x c) as [->|Nc].
    { exists v, c, a. split; [now left|auto]. }
    destruct (I' x) as (x1 & y1 & z1 & Hi & Hj).
    { cbn [In] in Hx. intuition. }
    exists x1, y1, z1. split; [right; now right|exact Hj].
Qed.

Lemma filter_app_none {A} (f : A -> bool) l1 l2 : (forall x, In x l1 -> f x = false) ->
  (forall x, In x l2 -> f x = true) -> filter f (l1 ++ l2) = l2.
Proof.
  intros H1 H2. induction l1 as [|x l1 IH]; cbn [app filter].
  - induction l2 as [|y l2 IH2]; [reflexivity|]. cbn [filter]. rewrite H2 by now left. f_equal.
    apply IH2. intros; apply H2; now right.
  - rewrite H1 by now left. apply IH. intros; apply H1; now right.
Qed.

Lemma wrap_dead fuel bins m order : (3 <= fuel)%nat -> bin_sort bins vs = Ret order ->
  exists s, wrap_and_triangulate fuel bins vs m = Ret s /\ s_map s = m /\
    lenN (filter_triangles (s_ts s)) = 2 * lenN vs - 5 /\
    forall v, v < lenN vs -> exists x y z, In (x, y, z) (filter_triangles (s_ts s)) /\ (v = x \/ v = y \/ v = z).
Proof.
  intros F B.
  assert (Cap : lenN vs <= idmax + 1) by lia. pose proof (bin_sort_permutation _ _ _ Cap B) as P.
  assert (I : forall v, In v order <-> v < lenN vs).
  { intros v. split; intros H.
    - apply (Permutation_in _ P) in H. apply In_rangeN in H. unfold lenN; lia.
    - apply (Permutation_in _ (Permutation_sym P)). apply In_rangeN. unfold lenN in H; lia. }
  assert (L : lenN order = lenN vs).
  { unfold lenN. rewrite (Permutation_length P), length_rangeN. reflexivity. }
  destruct order as [|f [|s [|r rest]]];
    [exfalso; unfold lenN in *; cbn [length] in *; lia .. |].
  assert (Vf : f < lenN vs) by (apply I; now left).
  assert (Vs : s < lenN vs) by (apply I; right; now left).
  assert (Vr : r < lenN vs) by (apply I; right; right; now left).
  unfold wrap_and_triangulate. rewrite B. cbn [bind].
  set (ts0 := create_initial_triangles f).
  assert (L0 : lenN ts0 = 4) by reflexivity.
  assert (Lg : 4 < idmax - 3) by (rewrite !lenN_cons in L; lia).
  assert (l0 : last_id ts0 = Ret (N.pred (lenN ts0))).
  { unfold last_id. rewrite L0, as_id_small by lia. reflexivity. }
  rewrite l0. cbn [bind].
  assert (INFS : INF0 <= INF0 /\ INF0 <= INF1 /\ INF0 <= INF2 /\ INF0 <= INF3) by apply infinite_ids.
  destruct INFS as (N0 & N1 & N2 & N3).
  assert (G0 : good (lenN ts0) ts0).
  { rewrite L0. intros t Ht. cbn [ts0 create_initial_triangles In] in Ht.
    destruct Ht as [<-|[<-|[<-|[<-|[]]]]]; unfold tri_ok, vid_ok, nb_ok;
      cbn [t_v1 t_v2 t_v3 t_n12 t_n23 t_n31]; repeat split; auto; right; lia. }
  rewrite !lenN_cons in L.
  destruct (insert_dead fuel ts0 [(f, INF0, INF1); (f, INF1, INF2); (f, INF2, INF3)] f INF3 INF0 m s G0 eq_refl)
    as (ts1 & E1 & G1 & M1); [lia | exact Vs | exact F |].
  change (foldM ?g (s :: ?l) ?x) with (bind (g x s) (fun y => foldM g l y)). rewrite E1. cbn [bind].
  assert (L1 : lenN ts1 = 6) by (unfold lenN; rewrite <- (map_length tverts), M1; reflexivity).
  destruct (insert_dead fuel ts1 [(f, INF0, INF1); (f, INF1, INF2); (f, INF2, INF3); (s, INF0, f); (s, INF3, INF0)]
    s f INF3 m r G1 M1)
    as (ts2 & E2 & G2 & M2); [lia | exact Vr | exact F |].
  change (foldM ?g (r :: ?l) ?x) with (bind (g x r) (fun y => foldM g l y)). rewrite E2. cbn [bind].
  assert (L2 : lenN ts2 = 8) by (unfold lenN; rewrite <- (map_length tverts), M2; reflexivity).
  set (pre := [(f, INF0, INF1); (f, INF1, INF2); (f, INF2, INF3); (s, INF0, f); (s, INF3, INF0);
               (r, INF3, s); (r, f, INF3)]).
  destruct (insertions fuel rest F (fun v Hv => proj1 (I v) (or_intror (or_intror (or_intror Hv))))
    ts2 pre r s f m G2) as (ts' & K & E' & M' & A' & L' & I').
  { rewrite M2. reflexivity. }
  { lia. }
  { intros x y z [[= <- <- <-]|[]]. auto. }
  rewrite E'. eexists. split; [reflexivity|]. cbn [s_map s_ts]. split; [reflexivity|].
  assert (Out : filter_triangles ts' = K).
  { unfold filter_triangles.
    transitivity (filter (fun v => is_finite (fst (fst v)) && is_finite (snd (fst v)) && is_finite (snd v))
                    (map tverts ts')).
    { clear. induction ts' as [|t l IH]; [reflexivity|]. cbn [map filter]. unfold tri_is_finite at 1.
      cbn [tverts fst snd]. destruct (_ && _); cbn [map]; now rewrite IH. }
    rewrite M'. apply filter_app_none.
    - intros x Hx. cbn [pre In] in Hx.
      pose proof (proj1 (infinite_id _ N0)) as Z0. pose proof (proj1 (infinite_id _ N1)) as Z1.
      pose proof (proj1 (infinite_id _ N2)) as Z2. pose proof (proj1 (infinite_id _ N3)) as Z3.
      decompose [or] Hx; subst; try contradiction; cbn [fst snd]; rewrite ?Z0, ?Z1, ?Z2, ?Z3, ?andb_false_r; reflexivity.
    - intros ((x, y), z) Hx. destruct (A' _ _ _ Hx) as (X & Y & Z). cbn [fst snd].
      now rewrite (proj1 (finite_id _ X)), (proj1 (finite_id _ Y)), (proj1 (finite_id _ Z)). }
  rewrite Out. split; [lia|]. intros v Hv. apply I'.
  apply I in Hv. cbn [In] in Hv. intuition.
Qed.
End Dead.

(** ** Copies of one vertex, in floating point *)

Section Float.
Variables (prec emax : Z) (maxid : N).
Let E : Env := sf_env prec emax maxid.
Existing Instance E.

Lemma add_nan_l x : SFadd prec emax S754_nan x = S754_nan. Proof. now destruct x. Qed.
Lemma add_nan_r x : SFadd prec emax x S754_nan = S754_nan. Proof. now destruct x. Qed.
Lemma sub_nan_l x : SFsub prec emax S754_nan x = S754_nan. Proof. now destruct x. Qed.
Lemma sub_nan_r x : SFsub prec emax x S754_nan = S754_nan. Proof. now destruct x. Qed.
Lemma mul_nan_l x : SFmul prec emax S754_nan x = S754_nan. Proof. now destruct x. Qed.
Lemma mul_nan_r x : SFmul prec emax x S754_nan = S754_nan. Proof. now destruct x. Qed.
Lemma ltb_nan_l x : SFltb S754_nan x = false. Proof. now destruct x. Qed.
Lemma ltb_nan_r x : SFltb x S754_nan = false. Proof. destruct x as [[]|[]| |[] ? ?]; reflexivity. Qed.
Lemma leb_nan_l x : SFleb S754_nan x = false. Proof. now destruct x. Qed.
Lemma leb_nan_r x : SFleb x S754_nan = false. Proof. destruct x as [[]|[]| |[] ? ?]; reflexivity. Qed.

Ltac nan := rewrite ?sub_nan_l, ?sub_nan_r, ?mul_nan_l, ?mul_nan_r, ?add_nan_l, ?add_nan_r,
  ?ltb_nan_l, ?ltb_nan_r, ?leb_nan_l, ?leb_nan_r.

Lemma dead_nan : dead (E := E) (S754_nan, S754_nan).
Proof.
  split.
  - intros (a, b).
    assert (T : test_point_edge_side (E := E) (a, b) (S754_nan, S754_nan) = S754_nan).
    { unfold test_point_edge_side. cbn [vx vy fst snd fsub fmul E sf_env]. repeat nan. reflexivity. }
    unfold is_point_strictly_on_right_side_of_edge. rewrite T.
    unfold is_on_left_side, is_on_right_side, is_near_edge. cbn [flt fle fabs E sf_env SFabs]. nan. auto.
  - intros a b c. unfold is_vertex_in_triangle_circumcircle. cbn [vx vy fst snd fsub fmul fadd flt fle f0 E sf_env].
    repeat nan. rewrite ?andb_false_r. repeat nan. reflexivity.
Qed.

Lemma ltb_irrefl x : SFltb x x = false.
Proof.
  unfold SFltb. destruct x as [[]|[]| |[] m e]; cbn [SFcompare]; try reflexivity;
    rewrite Z.compare_refl, Pos.compare_refl; reflexivity.
Qed.

Lemma sub_self x : sf_is_finite x = true -> exists s, SFsub prec emax x x = S754_zero s.
Proof.
  destruct x as [s|s| |s m e]; cbn [sf_is_finite]; try discriminate; intros _.
  - destruct s; eexists; reflexivity.
  - cbn [SFsub]. rewrite Z.sub_diag. cbn. eauto.
Qed.

(** A coordinate strictly between [Float::MIN] and [Float::MAX]. *)
Definition inside (x : spec_float) : Prop := flt (Env := E) fMIN x = true /\ flt (Env := E) x fMAX = true.

Lemma inside_finite x : inside x -> sf_is_finite x = true.
Proof. intros (A & B). destruct x as [?|[]| |? ? ?]; try reflexivity; discriminate. Qed.

Lemma bounds_same x y n : inside x -> inside y -> (0 < n)%nat ->
  compute_bounds (E := E) (repeat (x, y) n) = (x, y, x, y).
Proof.
  intros (X1 & X2) (Y1 & Y2) Hn. destruct n as [|n]; [lia|]. unfold compute_bounds. cbn [repeat fold_left].
  unfold bounds_step at 2. cbn [vx vy fst snd]. rewrite X1, X2, Y1, Y2. clear Hn.
  induction n as [|n IH]; [reflexivity|]. cbn [repeat fold_left]. unfold bounds_step at 2. cbn [vx vy fst snd].
  cbn [flt E sf_env]. rewrite !ltb_irrefl. exact IH.
Qed.

Lemma normal_same x y n : inside x -> inside y -> (0 < n)%nat -> exists a b c,
  normalize_vertices_coordinates (E := E) (repeat (x, y) n) = (repeat (S754_nan, S754_nan) n, a, b, c).
Proof.
  intros X Y Hn. unfold normalize_vertices_coordinates. rewrite bounds_same by assumption.
  destruct (sub_self x (inside_finite _ X)) as (s & Hs). destruct (sub_self y (inside_finite _ Y)) as (s' & Hs').
  do 3 eexists. f_equal. f_equal. f_equal.
  assert (Z : exists z, fmax (Env := E) (fsub x x) (fsub y y) = S754_zero z).
  { cbn [fmax fsub E sf_env]. rewrite Hs, Hs'. unfold sf_max. destruct s, s'; cbn; eauto. }
  destruct Z as (z & ->). clear Hn. induction n as [|n IH]; [reflexivity|]. cbn [repeat map]. f_equal; [|exact IH].
  cbn [vx vy fst snd fsub fdiv E sf_env]. rewrite Hs, Hs'. reflexivity.
Qed.

Lemma count_same bins n c : nthN c 0 <> None -> exists idx c',
  count_bins (E := E) bins (repeat (S754_nan, S754_nan) n) c = Ret (idx, c').
Proof.
  revert c. induction n as [|n IH]; intros c Hc; [cbn; eauto|]. cbn [repeat count_bins].
  assert (B : bin_index_from_vertex (E := E) bins (S754_nan, S754_nan) = Some 0).
  { unfold bin_index_from_vertex. cbn [vx vy fst snd fmul f_to_N E sf_env]. rewrite !mul_nan_r. reflexivity. }
  rewrite B. destruct (nthN c 0) as [k|] eqn:Hk; [|contradiction].
  rewrite (getN_Some _ _ _ Hk). cbn [bind]. rewrite (setN_Some _ _ _ _ Hk). cbn [bind].
  destruct (IH (updN c 0 (k + 1))) as (idx & c' & ->).
  { intros K. apply nthN_None in K. apply nthN_lt in Hk. rewrite lenN_updN in K. lia. }
  cbn [bind]. eauto.
Qed.

Theorem identical fuel bins x y n : inside x -> inside y -> 1 <= bins -> 3 <= N.of_nat n ->
  2 * N.of_nat n + 2 <= idmax -> (3 <= fuel)%nat ->
  exists out, triangulation_from_2d_vertices (E := E) fuel bins (repeat (x, y) n) = Ret out /\ lenN out = 2 * N.of_nat n - 5 /\
    forall v, v < N.of_nat n -> exists a b c, In (a, b, c) out /\ (v = a \/ v = b \/ v = c).
Proof.
  intros X Y B Hn C F. unfold triangulation_from_2d_vertices.
  assert (L : forall p : vertex (E := E), lenN (repeat p n) = N.of_nat n) by (intros; unfold lenN; now rewrite repeat_length).
  rewrite L, (proj2 (N.ltb_ge _ _)) by lia.
  destruct (normal_same x y n X Y ltac:(lia)) as (a & b & c & ->).
  set (nvs := repeat (S754_nan, S754_nan) n : list (vertex (E := E))).
  assert (Ln : lenN nvs = N.of_nat n) by apply L.
  destruct (count_same bins n (repeat 0 (N.to_nat (bins * bins)))) as (idx & c' & Hc).
  { intros K. apply nthN_None in K. rewrite lenN_repeat in K. nia. }
  destruct (bin_sort_after_count (E := E) _ _ _ _ Hc) as (order & Ho & _).
  destruct (wrap_dead (E := E) nvs) with (fuel := fuel) (bins := bins) (m := @None (list N)) (order := order)
    as (s & Hs & _ & K1 & K2).
  - intros p Hp. apply repeat_spec in Hp. subst p. apply dead_nan.
  - rewrite Ln. exact C.
  - rewrite Ln. exact Hn.
  - exact F.
  - exact Ho.
  - rewrite Hs. cbn [bind]. eexists. split; [reflexivity|]. rewrite Ln in K1, K2. auto.
Qed.
End Float.
