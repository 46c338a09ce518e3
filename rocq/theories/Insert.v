(** * Insert: insertion of a vertex, with exact predicates: the splits and the Delaunay
    restoration keep a planar triangulation, never panic, and terminate. *)

From Coq Require Import NArith List Bool Lia QArith Lqa.
From Verif Require Import Base BaseFacts Arith Types Utils Infinite Triangulation Geom Mesh
  MeshOps Exact AnyDT MeshVerts Walk.
Import ListNotations.
Local Open Scope N_scope.

(** [lia] without the disequalities and implications of the context (each is a case split). *)
Ltac flia :=
  repeat match goal with
         | H : _ <> _ |- _ => clear H
         | H : ?A -> ?B |- _ => match type of A with Prop => clear H end
         | H : ~ _ |- _ => clear H
         | H : _ \/ _ |- _ => clear H
         end; lia.

Section Lists.
Context {E : Env}.

Lemma relink_other n o w j t : j <> n -> relink n o w j t = t.
Proof. intros H. unfold relink. apply N.eqb_neq in H. now rewrite H. Qed.

Lemma nthN_upd_cases {A} (l : list A) i x j :
  nthN (updN l i x) j = if (j =? i) then option_map (fun _ => x) (nthN l j) else nthN l j.
Proof.
  destruct (N.eqb_spec j i) as [->|Hne].
  - destruct (nthN l i) as [y|] eqn:H; simpl.
    + apply nthN_updN_same. now apply nthN_lt in H.
    + apply nthN_None. apply nthN_None in H. now rewrite lenN_updN.
  - apply nthN_updN_other. auto.
Qed.

Lemma update_and_push_spec ts st n o w t :
  lenN ts <= idmax -> (n <> NONE -> n < lenN ts) ->
  exists ts', update_and_push ts st n o w t = Ret (ts', push_if st t n) /\
    lenN ts' = lenN ts /\ forall j, nthN ts' j = option_map (relink n o w j) (nthN ts j).
Proof.
  intros Hl Hn. unfold update_and_push, push_if.
  destruct (nexists n) eqn:Hx.
  - assert (Hn' : n < lenN ts).
    { apply Hn. unfold nexists in Hx. apply negb_true_iff, N.eqb_neq in Hx. auto. }
    destruct (nthN_Some ts n Hn') as (x & Ex).
    unfold getN, setN. rewrite Ex. cbn [bind].
    eexists. split; [reflexivity|]. split; [apply lenN_updN|].
    intros j. rewrite nthN_upd_cases. unfold relink.
    destruct (N.eqb_spec j n) as [->|]; [rewrite Ex; reflexivity|]. now destruct (nthN ts j).
  - exists ts. repeat split; auto. intros j.
    destruct (nthN ts j) as [x|] eqn:Ej; auto. simpl. rewrite relink_other; auto.
    intros ->. unfold nexists in Hx. apply negb_false_iff, N.eqb_eq in Hx.
    apply nthN_lt in Ej. unfold NONE in Hx. lia.
Qed.

Lemma update_only_spec ts n o w :
  lenN ts <= idmax -> (n <> NONE -> n < lenN ts) ->
  exists ts', (if nexists n then
                let* x := getN ts n in setN ts n (update_triangle_neighbor x o w)
               else Ret ts) = Ret ts' /\
    lenN ts' = lenN ts /\ forall j, nthN ts' j = option_map (relink n o w j) (nthN ts j).
Proof.
  intros Hl Hn. destruct (nexists n) eqn:Hx.
  - assert (Hn' : n < lenN ts).
    { apply Hn. unfold nexists in Hx. apply negb_true_iff, N.eqb_neq in Hx. auto. }
    destruct (nthN_Some ts n Hn') as (x & Ex).
    unfold getN, setN. rewrite Ex. cbn [bind].
    eexists. split; [reflexivity|]. split; [apply lenN_updN|].
    intros j. rewrite nthN_upd_cases. unfold relink.
    destruct (N.eqb_spec j n) as [->|]; [rewrite Ex; reflexivity|]. now destruct (nthN ts j).
  - exists ts. repeat split; auto. intros j.
    destruct (nthN ts j) as [x|] eqn:Ej; auto. simpl. rewrite relink_other; auto.
    intros ->. unfold nexists in Hx. apply negb_false_iff, N.eqb_eq in Hx.
    apply nthN_lt in Ej. unfold NONE in Hx. lia.
Qed.

(** Number of triangles satisfying a test. *)
Definition cnt (f : tri -> bool) (ts : list tri) : nat := length (filter f ts).

Lemma cnt_upd f : forall ts i x y, nthN ts i = Some x ->
  (cnt f (updN ts i y) + (if f x then 1 else 0) = cnt f ts + (if f y then 1 else 0))%nat.
Proof.
  induction ts as [|t ts IH]; intros i x y H; [discriminate|].
  simpl in H |- *. destruct (i =? 0).
  - injection H as ->. unfold cnt; simpl. destruct (f x), (f y); simpl; lia.
  - specialize (IH _ _ y H). unfold cnt in *; simpl. destruct (f t); simpl; lia.
Qed.

Lemma cnt_le f ts : (cnt f ts <= length ts)%nat.
Proof. unfold cnt. induction ts; simpl; auto. destruct (f a); simpl; lia. Qed.

End Lists.

Section WithEnv.
Context {E : Env}.
Variable vs : list vertex.
Variables px py : N -> Q.
Hypothesis X : Exact vs px py.

Notation pos := (hpos px py).
Notation D a b c := (det (pos a) (pos b) (pos c)).
Notation Mesh := (Mesh pos).
Notation Ids := (Ids vs).
Notation vok := (vok vs).

Lemma nbr_lt ts i u v n : Mesh ts -> he ts i u v n -> n <> NONE -> n < lenN ts.
Proof. intros M H Hn. pose proof (glue_some _ _ M _ _ _ _ H Hn) as G. now apply he_lt in G. Qed.

(** ** The two splits *)

Lemma split3_spec ts tid v st t :
  Mesh ts -> nthN ts tid = Some t -> lenN ts + 2 <= idmax ->
  exists ts', split_triangle_into_three ts tid v st =
      Ret (ts', push_if (push_if (push_if st (lenN ts + 1) (t_n12 t)) (lenN ts) (t_n23 t)) tid (t_n31 t)) /\
    lenN ts' = lenN ts + 2 /\
    nthN ts' tid = Some (Tri v (t_v3 t) (t_v1 t) (lenN ts) (t_n31 t) (lenN ts + 1)) /\
    nthN ts' (lenN ts) = Some (Tri v (t_v2 t) (t_v3 t) (lenN ts + 1) (t_n23 t) tid) /\
    nthN ts' (lenN ts + 1) = Some (Tri v (t_v1 t) (t_v2 t) tid (t_n12 t) (lenN ts)) /\
    (forall j, j <> tid -> j < lenN ts ->
       nthN ts' j = option_map (fun x => relink (t_n23 t) tid (lenN ts) j
                                          (relink (t_n12 t) tid (lenN ts + 1) j x)) (nthN ts j)).
Proof.
  intros M Ht Hmax.
  assert (Htid : tid < lenN ts) by (now apply nthN_lt in Ht).
  assert (Nid : next_id ts = lenN ts) by (unfold next_id; apply as_id_small; flia).
  assert (Nid1 : next_id_plus_1 ts = Ret (lenN ts + 1)).
  { unfold next_id_plus_1. rewrite Nid. destruct (N.eqb_spec (lenN ts) idmax); [flia|auto]. }
  unfold split_triangle_into_three. rewrite Nid1, Nid. cbn [bind].
  unfold getN at 1. rewrite Ht. cbn [bind].
  destruct (view_he _ _ _ _ _ _ _ _ (view_exists _ _ _ Ht)) as (E1 & E2 & E3).
  destruct t as [a b c n4 n5 n6]; simpl in *.
  set (L := lenN ts) in *.
  set (A := Tri v b c (L + 1) n5 tid). set (B := Tri v a b tid n4 L).
  set (C := Tri v c a L n6 (L + 1)).
  assert (Lb : lenN ((ts ++ [A]) ++ [B]) = L + 2) by (rewrite !lenN_app; unfold lenN; simpl; fold (lenN ts); fold L; flia).
  unfold setN at 1.
  destruct (nthN_Some ((ts ++ [A]) ++ [B]) tid) as (y0 & Ey); [flia|]. rewrite Ey. cbn [bind].
  assert (H4 : n4 <> NONE -> n4 < L) by (intros Hn; exact (nbr_lt _ _ _ _ _ M E1 Hn)).
  assert (H5 : n5 <> NONE -> n5 < L) by (intros Hn; exact (nbr_lt _ _ _ _ _ M E2 Hn)).
  assert (Tn : tid <> NONE) by (unfold NONE; flia).
  assert (H4' : n4 <> tid) by (intros Q; rewrite Q in E1; exact (no_self _ _ M _ _ _ E1 Tn)).
  assert (H5' : n5 <> tid) by (intros Q; rewrite Q in E2; exact (no_self _ _ M _ _ _ E2 Tn)).
  assert (K4 : forall z, L <= z -> z < L + 2 -> z <> n4).
  { intros z Hz1 Hz2 <-. destruct (N.eq_dec z NONE) as [Q|Q]; [unfold NONE in Q; flia|]. apply H4 in Q; flia. }
  assert (K5 : forall z, L <= z -> z < L + 2 -> z <> n5).
  { intros z Hz1 Hz2 <-. destruct (N.eq_dec z NONE) as [Q|Q]; [unfold NONE in Q; flia|]. apply H5 in Q; flia. }
  set (base := updN ((ts ++ [A]) ++ [B]) tid C).
  assert (Bl : lenN base = L + 2) by (unfold base; rewrite lenN_updN; auto).
  destruct (update_and_push_spec base st n4 tid (L + 1) (L + 1)) as (ts1 & U1 & L1 & N1).
  { flia. } { intros Hn. apply H4 in Hn. flia. }
  rewrite U1. cbn [bind].
  destruct (update_and_push_spec ts1 (push_if st (L + 1) n4) n5 tid L L) as (ts2 & U2 & L2 & N2).
  { flia. } { intros Hn. apply H5 in Hn. flia. }
  rewrite U2. cbn [bind].
  assert (B0 : nthN base tid = Some C).
  { unfold base. apply nthN_updN_same. flia. }
  assert (B1 : nthN base L = Some A).
  { unfold base. rewrite nthN_updN_other by flia.
    rewrite nthN_app1 by (rewrite lenN_app; unfold lenN; simpl; fold (lenN ts); fold L; flia).
    rewrite nthN_app2 by (fold L; flia). fold L. now rewrite N.sub_diag. }
  assert (B2 : nthN base (L + 1) = Some B).
  { unfold base. rewrite nthN_updN_other by flia.
    assert (Q : lenN (ts ++ [A]) = L + 1) by (rewrite lenN_app; unfold lenN; simpl; fold (lenN ts); fold L; flia).
    rewrite nthN_app2 by flia. rewrite Q. now rewrite N.sub_diag. }
  assert (B3 : forall j, j <> tid -> j < L -> nthN base j = nthN ts j).
  { intros j Hj Hlt. unfold base. rewrite nthN_updN_other by auto.
    rewrite nthN_app1 by (rewrite lenN_app; unfold lenN; simpl; fold (lenN ts); fold L; flia).
    now rewrite nthN_app1. }
  exists ts2. split; [reflexivity|]. split; [flia|].
  assert (NN : forall j, nthN ts2 j = option_map (fun x => relink n5 tid L j (relink n4 tid (L + 1) j x)) (nthN base j)).
  { intros j. rewrite N2, N1. now destruct (nthN base j). }
  split; [|split; [|split]].
  - rewrite NN, B0. simpl. rewrite !relink_other; auto.
  - rewrite NN, B1. simpl. rewrite !relink_other; auto; [apply K4 | apply K5]; flia.
  - rewrite NN, B2. simpl. rewrite !relink_other; auto; [apply K4 | apply K5]; flia.
  - intros j Hj Hlt. rewrite NN, B3; auto.
Qed.

Lemma opp_vertex t2 k u v d ed :
  tv t2 k = v -> tv t2 (next_cw k) = u -> tv t2 (next_ccw k) = d ->
  u <> v -> u <> d -> v <> d -> ed = Edge u v ->
  get_opposite_vertex_id t2 ed = d /\ vertex_index t2 d = next_ccw k.
Proof.
  intros A B C H1 H2 H3 ->. unfold get_opposite_vertex_id, edge_contains, vertex_index.
  destruct t2, k; simpl in *; subst;
    repeat match goal with |- context [?x =? ?y] => destruct (N.eqb_spec x y); try congruence end;
    simpl; auto.
Qed.

Lemma split4_spec ts tid k P st t t2 u v c d n1 n2 n3 n4 :
  Mesh ts -> nthN ts tid = Some t -> lenN ts + 2 <= idmax ->
  rot t k = Tri u v c t2 n1 n2 -> view ts t2 v u d tid n3 n4 ->
  exists ts', split_quad_into_four ts tid k (Edge u v) P st =
      Ret (ts', push_if (push_if (push_if (push_if st (lenN ts) n1) (lenN ts + 1) n4) tid n2) t2 n3) /\
    lenN ts' = lenN ts + 2 /\
    nthN ts' tid = Some (Tri P c u (lenN ts) n2 t2) /\
    nthN ts' t2 = Some (Tri P u d tid n3 (lenN ts + 1)) /\
    nthN ts' (lenN ts) = Some (Tri P v c (lenN ts + 1) n1 tid) /\
    nthN ts' (lenN ts + 1) = Some (Tri P d v t2 n4 (lenN ts)) /\
    (forall j, j <> tid -> j <> t2 -> j < lenN ts ->
       nthN ts' j = option_map (fun x => relink n4 t2 (lenN ts + 1) j
                                          (relink n1 tid (lenN ts) j x)) (nthN ts j)).
Proof.
  intros M Ht Hmax Hr V2.
  assert (V1 : view ts tid u v c t2 n1 n2) by (exists t, k; auto).
  assert (Htid : tid < lenN ts) by (now apply nthN_lt in Ht).
  assert (Ht2 : t2 < lenN ts) by (now apply view_lt in V2).
  assert (Nid : next_id ts = lenN ts) by (unfold next_id; apply as_id_small; flia).
  assert (Nid1 : next_id_plus_1 ts = Ret (lenN ts + 1)).
  { unfold next_id_plus_1. rewrite Nid. destruct (N.eqb_spec (lenN ts) idmax); [flia|auto]. }
  pose proof (M_cw _ _ M _ _ _ _ _ _ _ V1) as C1.
  pose proof (M_cw _ _ M _ _ _ _ _ _ _ V2) as C2.
  destruct (D_distinct pos _ _ _ C1) as (X1 & X2 & X3).
  destruct (D_distinct pos _ _ _ C2) as (X4 & X5 & X6).
  destruct (view_he _ _ _ _ _ _ _ _ V1) as (E1 & E2 & E3).
  destruct (view_he _ _ _ _ _ _ _ _ V2) as (E4 & E5 & E6).
  assert (Tn1 : tid <> NONE) by (unfold NONE; flia).
  assert (Tn2 : t2 <> NONE) by (unfold NONE; flia).
  assert (T12 : tid <> t2).
  { intros Q. rewrite <- Q in *. exact (no_self pos ts M _ _ _ E1 Tn1). }
  unfold split_quad_into_four.
  unfold rot in Hr. injection Hr as R1 R2 R3 R4 R5 R6.
  unfold getN at 1. rewrite Ht. cbn [bind]. rewrite Nid1, Nid. cbn [bind].
  destruct V2 as (tr2 & k2 & Htr2 & Hr2). unfold rot in Hr2. injection Hr2 as S1 S2 S3 S4 S5 S6.
  destruct (opp_vertex tr2 k2 u v d (Edge u v)) as (O1 & O2); auto; try congruence.
  rewrite R4. unfold getN at 1. rewrite Htr2. cbn [bind]. rewrite O1, O2.
  assert (Op : opposite_vertex_index k = next_ccw k) by (destruct k; reflexivity).
  rewrite Op, R3, R5, R6. unfold vertex_next_ccw_edge_index, vertex_next_cw_edge_index.
  assert (Cc : next_ccw (next_ccw k2) = next_cw k2) by (destruct k2; reflexivity).
  rewrite Cc, S5, S6. cbn [efrom eto].
  set (L := lenN ts) in *.
  set (A := Tri P v c (L + 1) n1 tid). set (B := Tri P d v t2 n4 L).
  set (C := Tri P c u L n2 t2). set (F := Tri P u d tid n3 (L + 1)).
  assert (Lb : lenN ((ts ++ [A]) ++ [B]) = L + 2) by (rewrite !lenN_app; unfold lenN; simpl; fold (lenN ts); fold L; flia).
  unfold setN at 1.
  destruct (nthN_Some ((ts ++ [A]) ++ [B]) tid) as (y0 & Ey); [flia|]. rewrite Ey. cbn [bind].
  unfold setN at 1.
  destruct (nthN_Some (updN ((ts ++ [A]) ++ [B]) tid C) t2) as (y1 & Ey1); [rewrite lenN_updN; flia|].
  rewrite Ey1. cbn [bind].
  assert (H1 : n1 <> NONE -> n1 < L) by (intros Hn; exact (nbr_lt _ _ _ _ _ M E2 Hn)).
  assert (H4 : n4 <> NONE -> n4 < L) by (intros Hn; exact (nbr_lt _ _ _ _ _ M E6 Hn)).
  assert (V2 : view ts t2 v u d tid n3 n4).
  { exists tr2, k2. split; auto. unfold rot. congruence. }
  assert (N1t : n1 <> tid) by (intros Q; rewrite Q in E2; exact (no_self _ _ M _ _ _ E2 Tn1)).
  assert (N4t : n4 <> t2) by (intros Q; rewrite Q in E6; exact (no_self _ _ M _ _ _ E6 Tn2)).
  assert (N1t2 : n1 <> t2).
  { intros Q. exact (two_edges pos ts M _ _ _ _ _ _ _ _ V1 Tn2 eq_refl Q). }
  assert (N4t1 : n4 <> tid).
  { intros Q. exact (two_edges pos ts M _ _ _ _ _ _ _ _ (view_rot2 _ _ _ _ _ _ _ _ V2) Tn1 Q eq_refl). }
  assert (K1 : forall z, L <= z -> z < L + 2 -> z <> n1).
  { intros z Hz1 Hz2 Q0. rewrite <- Q0 in H1. destruct (N.eq_dec z NONE) as [Q|Q]; [unfold NONE in Q; flia|]. apply H1 in Q; flia. }
  assert (K4 : forall z, L <= z -> z < L + 2 -> z <> n4).
  { intros z Hz1 Hz2 Q0. rewrite <- Q0 in H4. destruct (N.eq_dec z NONE) as [Q|Q]; [unfold NONE in Q; flia|]. apply H4 in Q; flia. }
  set (base := updN (updN ((ts ++ [A]) ++ [B]) tid C) t2 F).
  assert (Bl : lenN base = L + 2) by (unfold base; rewrite !lenN_updN; auto).
  destruct (update_and_push_spec base st n1 tid L L) as (ts1 & U1 & L1 & N1).
  { flia. } { intros Hn. apply H1 in Hn. flia. }
  rewrite U1. cbn [bind].
  destruct (update_and_push_spec ts1 (push_if st L n1) n4 t2 (L + 1) (L + 1)) as (ts2 & U2 & L2 & N2).
  { flia. } { intros Hn. apply H4 in Hn. flia. }
  rewrite U2. cbn [bind].
  assert (B0 : nthN base tid = Some C).
  { unfold base. rewrite nthN_updN_other by auto. apply nthN_updN_same. flia. }
  assert (B0' : nthN base t2 = Some F).
  { unfold base. apply nthN_updN_same. rewrite lenN_updN. flia. }
  assert (B1 : nthN base L = Some A).
  { unfold base. rewrite !nthN_updN_other by flia.
    rewrite nthN_app1 by (rewrite lenN_app; unfold lenN; simpl; fold (lenN ts); fold L; flia).
    rewrite nthN_app2 by (fold L; flia). fold L. now rewrite N.sub_diag. }
  assert (B2 : nthN base (L + 1) = Some B).
  { unfold base. rewrite !nthN_updN_other by flia.
    assert (Q : lenN (ts ++ [A]) = L + 1) by (rewrite lenN_app; unfold lenN; simpl; fold (lenN ts); fold L; flia).
    rewrite nthN_app2 by flia. rewrite Q. now rewrite N.sub_diag. }
  assert (B3 : forall j, j <> tid -> j <> t2 -> j < L -> nthN base j = nthN ts j).
  { intros j Hj Hj2 Hlt. unfold base. rewrite !nthN_updN_other by auto.
    rewrite nthN_app1 by (rewrite lenN_app; unfold lenN; simpl; fold (lenN ts); fold L; flia).
    now rewrite nthN_app1. }
  exists ts2. split; [reflexivity|]. split; [flia|].
  assert (NN : forall j, nthN ts2 j = option_map (fun x => relink n4 t2 (L + 1) j (relink n1 tid L j x)) (nthN base j)).
  { intros j. rewrite N2, N1. now destruct (nthN base j). }
  split; [|split; [|split; [|split]]].
  - rewrite NN, B0. simpl. rewrite !relink_other; auto.
  - rewrite NN, B0'. simpl. rewrite !relink_other; auto.
  - rewrite NN, B1. simpl. rewrite !relink_other; auto; [apply K1 | apply K4]; flia.
  - rewrite NN, B2. simpl. rewrite !relink_other; auto; [apply K1 | apply K4]; flia.
  - intros j Hj Hj2 Hlt. rewrite NN, B3; auto.
Qed.

(** ** The swap test *)

Lemma should_swap_post a b c P :
  vok a -> vok b -> vok c -> vok P -> is_finite P = true ->
  (D P a b < 0)%Q -> (D b a c < 0)%Q ->
  exists r, should_swap_diagonals (Quad a b c P) vs = Ret r /\
    (r = true -> is_finite c = true /\ (D P a c < 0)%Q /\ (D P c b < 0)%Q).
Proof.
  intros Va Vb Vc VP FP H1 H2. unfold should_swap_diagonals. cbn [q1 q2 q3 q4].
  destruct (is_infinite c) eqn:Ic; [exists false; split; auto; discriminate|].
  rewrite inf_not_fin in Ic. apply negb_false_iff in Ic.
  destruct (get_vertex vs P VP FP) as (pP & GP & NP).
  destruct (get_vertex vs c Vc Ic) as (pc & Gc & Nc).
  destruct (is_finite a) eqn:Fa, (is_finite b) eqn:Fb; cbn [andb negb].
  - destruct (get_vertex vs a Va Fa) as (pa & Ga & Na).
    destruct (get_vertex vs b Vb Fb) as (pb & Gb & Nb).
    rewrite Ga, Gb, Gc, GP. cbn [bind]. eexists; split; [reflexivity|]. intros R.
    apply (X_circle _ _ _ X _ _ _ _ _ _ _ _ Na Nb Nc NP H1 H2) in R.
    split; auto. rewrite (hpos_fin px py P FP), (hpos_fin px py a Fa), (hpos_fin px py b Fb),
      (hpos_fin px py c Ic) in *.
    now apply (incircle_convex (px a) (py a) (px b) (py b)).
  - (* b infinite *)
    unfold is_vertex_in_half_plane_1. cbn [opposite_edge_index edge_to_verts fst snd tidx_to_qidx qv q1 q2 q3 q4].
    destruct (get_vertex vs a Va Fa) as (pa & Ga & Na).
    rewrite Ga, Gc, GP. cbn [bind]. eexists; split; [reflexivity|]. intros R.
    apply (X_strict _ _ _ X _ _ _ _ _ _ Na Nc NP) in R. split; auto.
    pose proof (det_rot3 (pos P) (pos a) (pos c)). split; [lra|].
    pose proof (one_inf px py c b a P Fb Ic Fa FP) as S.
    pose proof (det_rot3 (pos P) (pos c) (pos b)). pose proof (det_rot3 (pos b) (pos a) (pos c)).
    pose proof (det_rot3 (pos P) (pos a) (pos b)).
    pose proof (det_rot3 (pos a) (pos b) (pos P)). lra.
  - (* a infinite *)
    unfold is_vertex_in_half_plane_1. cbn [opposite_edge_index edge_to_verts fst snd tidx_to_qidx qv q1 q2 q3 q4].
    destruct (get_vertex vs b Vb Fb) as (pb & Gb & Nb).
    rewrite Gb, Gc, GP. cbn [bind]. eexists; split; [reflexivity|]. intros R.
    apply (X_strict _ _ _ X _ _ _ _ _ _ Nc Nb NP) in R. split; auto.
    pose proof (one_inf px py P a b c Fa FP Fb Ic) as S. split; [lra|].
    pose proof (det_rot3 (pos P) (pos c) (pos b)). lra.
  - exfalso. pose proof (two_inf px py a b c P Fa Fb Ic FP) as S.
    pose proof (det_rot3 (pos P) (pos a) (pos b)). pose proof (det_anti (pos a) (pos b) (pos c)).
    lra.
Qed.

Lemma quad_of_pair_view ts y t2 x P a b c n3 n4 :
  Mesh ts -> nthN ts y = Some t2 -> x <> NONE -> view ts y b a c x n3 n4 ->
  quad_of_pair t2 x P = (Quad a b c P, n3, n4).
Proof.
  intros M Ht Hx (t2' & k & Ht' & Hr). assert (t2' = t2) by congruence. subst t2'.
  pose proof (slot_unique _ _ _ _ _ M Ht Hx) as U.
  unfold rot in Hr. unfold quad_of_pair.
  destruct t2 as [v1 v2 v3 m1 m2 m3], k; simpl in *; injection Hr as -> -> -> -> -> ->.
  - now rewrite N.eqb_refl.
  - destruct (N.eqb_spec n4 x) as [Q|Q].
    + assert (A : I1 = I2) by (apply U; auto). discriminate.
    + now rewrite N.eqb_refl.
  - destruct (N.eqb_spec n3 x) as [Q|Q].
    + assert (A : I1 = I3) by (apply U; auto). discriminate.
    + destruct (N.eqb_spec n4 x) as [Q'|Q']; auto.
      assert (A : I2 = I3) by (apply U; auto). discriminate.
Qed.

(** ** The swap *)

Lemma swap_pair_spec ts P a b c x y n1 n2 n3 n4 st :
  Mesh ts -> nthN ts x = Some (Tri P a b n2 y n1) -> view ts y b a c x n3 n4 ->
  exists ts', swap_pair ts (Quad a b c P) n3 n4 x y st =
      Ret (ts', push_if (push_if st x n3) y n4) /\
    lenN ts' = lenN ts /\
    nthN ts' x = Some (Tri P a c n2 n3 y) /\
    nthN ts' y = Some (Tri P c b x n4 n1) /\
    (forall j, j <> x -> j <> y -> j < lenN ts ->
       nthN ts' j = option_map (fun t => if j =? n1 then update_triangle_neighbor t x y
                                         else if j =? n3 then update_triangle_neighbor t y x
                                         else t) (nthN ts j)).
Proof.
  intros M Ht V2.
  pose proof (view_exists _ _ _ Ht) as V1; simpl in V1.
  destruct (flip_facts pos ts x y a b c P n1 n2 n3 n4 M V1 V2)
    as (L1 & L2 & T12 & Tn1 & Tn2 & _ & _ & _ & _ & _ & _ & X7).
  destruct (view_he _ _ _ _ _ _ _ _ V1) as (E1 & E2 & E3).
  destruct (view_he _ _ _ _ _ _ _ _ V2) as (E4 & E5 & E6).
  pose proof (M_len _ _ M) as Hmax.
  unfold swap_pair, setN. unfold getN at 1. rewrite Ht. cbn [bind t_n31 t_n12 q1 q2 q3 q4].
  set (A := Tri P a c n2 n3 y). set (B := Tri P c b x n4 n1).
  assert (Hy : nthN (updN ts x A) y = nthN ts y) by (apply nthN_updN_other; auto).
  destruct (nthN_Some ts y L2) as (ty & Hty). rewrite Hy, Hty. cbn [bind].
  set (base := updN (updN ts x A) y B).
  assert (Bl : lenN base = lenN ts) by (unfold base; now rewrite !lenN_updN).
  assert (N1lt : n1 <> NONE -> n1 < lenN ts) by (intros Hn; exact (nbr_lt _ _ _ _ _ M E3 Hn)).
  assert (N3lt : n3 <> NONE -> n3 < lenN ts) by (intros Hn; exact (nbr_lt _ _ _ _ _ M E5 Hn)).
  destruct (update_only_spec base n1 x y) as (ts1 & U1 & Ll1 & K1).
  { lia. } { intros Hn. rewrite Bl. auto. }
  unfold setN in U1. rewrite U1. cbn [bind].
  destruct (update_and_push_spec ts1 st n3 y x x) as (ts2 & U2 & Ll2 & K2).
  { lia. } { intros Hn. rewrite Ll1, Bl. auto. }
  rewrite U2. cbn [bind].
  assert (N1x : n1 <> x) by (intros Q; rewrite Q in E3; exact (no_self _ _ M _ _ _ E3 Tn1)).
  assert (N3y : n3 <> y) by (intros Q; rewrite Q in E5; exact (no_self _ _ M _ _ _ E5 Tn2)).
  assert (N1y : n1 <> y).
  { intros Q. exact (two_edges pos ts M _ _ _ _ _ _ _ _ (view_rot _ _ _ _ _ _ _ _ V1) Tn2 eq_refl Q). }
  assert (N3x : n3 <> x).
  { intros Q. exact (two_edges pos ts M _ _ _ _ _ _ _ _ V2 Tn1 eq_refl Q). }
  exists ts2. split; [reflexivity|]. split; [lia|].
  assert (NN : forall j, nthN ts2 j = option_map (fun t => relink n3 y x j (relink n1 x y j t)) (nthN base j)).
  { intros j. rewrite K2, K1. now destruct (nthN base j). }
  assert (Bx : nthN base x = Some A).
  { unfold base. rewrite nthN_updN_other by auto. now apply nthN_updN_same. }
  assert (By : nthN base y = Some B).
  { unfold base. apply nthN_updN_same. now rewrite lenN_updN. }
  split; [|split].
  - rewrite NN, Bx. simpl. rewrite !relink_other; auto.
  - rewrite NN, By. simpl. rewrite !relink_other; auto.
  - intros j J1 J2 Hj. rewrite NN. unfold base. rewrite !nthN_updN_other by auto.
    destruct (nthN ts j) as [t|]; auto. simpl. f_equal. unfold relink.
    destruct (N.eqb_spec j n1) as [Q1|Q1], (N.eqb_spec j n3) as [Q3|Q3]; auto.
    exfalso. assert (n1 = NONE) by (apply X7; congruence). unfold NONE in *. lia.
Qed.

(** ** Restoration *)

(** Invariant of the restoration loop around the new vertex [P]. *)
Record Rinv (ts : list tri) (P : N) (st : stack) : Prop := {
  R_mesh : Mesh ts;
  R_ids : Ids ts;
  R_first : forall i t k, nthN ts i = Some t -> tv t k = P -> k = I1;
  R_stk : forall x y, In (x, y) st -> exists a b n1 n2,
      nthN ts x = Some (Tri P a b n2 y n1) /\ y <> NONE;
  R_nodup : NoDup (map fst st);
  R_legal : forall x y a b c n1 n2 n3 n4,
      nthN ts x = Some (Tri P a b n2 y n1) -> view ts y b a c x n3 n4 ->
      In (x, y) st \/ should_swap_diagonals (Quad a b c P) vs = Ret false
}.

(** [ts'] has the corners and the outer edges of [ts]. *)
Definition keeps (ts ts' : list tri) : Prop :=
  (forall w, (exists i, corner ts i w) <-> (exists i, corner ts' i w)) /\
  (forall u v, (exists i, he ts i u v NONE) -> exists i, he ts' i u v NONE).

Lemma keeps_refl ts : keeps ts ts.
Proof. split; [tauto|auto]. Qed.

Lemma keeps_trans a b c : keeps a b -> keeps b c -> keeps a c.
Proof.
  intros (A1 & A2) (B1 & B2). split; [intros w; now rewrite A1, B1|auto].
Qed.

Definition noP (P : N) (t : tri) : bool := negb (t_v1 t =? P).

Lemma push_if_In st x n x' y' :
  In (x', y') (push_if st x n) <-> (x' = x /\ y' = n /\ n <> NONE) \/ In (x', y') st.
Proof.
  unfold push_if, nexists. destruct (N.eqb_spec n NONE) as [Q|Q]; simpl.
  - intuition.
  - split.
    + intros [H|H]; auto. injection H as -> ->. auto.
    + intros [(-> & -> & _)|H]; auto.
Qed.

Lemma push_if_fst st x n : (forall y, ~ In (x, y) st) -> NoDup (map fst st) -> NoDup (map fst (push_if st x n)).
Proof.
  intros H N. unfold push_if. destruct (nexists n); auto. simpl. constructor; auto.
  intros Hin. apply in_map_iff in Hin. destruct Hin as ((x', y') & Q & Hin). simpl in Q. subst x'.
  eapply H; eauto.
Qed.

Lemma push_if_length st x n : (length (push_if st x n) <= S (length st))%nat.
Proof. unfold push_if. destruct (nexists n); simpl; lia. Qed.

Lemma cnt_ext f : forall ts ts', lenN ts = lenN ts' ->
  (forall j t t', nthN ts j = Some t -> nthN ts' j = Some t' -> f t = f t') -> cnt f ts = cnt f ts'.
Proof.
  induction ts as [|t ts IH]; intros [|t' ts'] L H; auto; try (unfold lenN in L; simpl in L; lia).
  assert (A : f t = f t') by (apply (H 0 t t'); reflexivity).
  assert (B : cnt f ts = cnt f ts').
  { apply IH; [unfold lenN in *; simpl in L; lia|].
    intros j u u' Hu Hu'. apply (H (N.succ j) u u'); simpl;
      (destruct (N.eqb_spec (N.succ j) 0); [lia|]); now rewrite N.pred_succ. }
  unfold cnt in *. simpl. rewrite A. destruct (f t'); simpl; auto.
Qed.

Lemma check_and_swap_spec ts P x y st :
  is_finite P = true -> vok P -> Rinv ts P ((x, y) :: st) ->
  exists ts' st', check_and_swap ts vs P x y st = Ret (ts', st') /\ Rinv ts' P st' /\
    lenN ts' = lenN ts /\
    ((ts' = ts /\ st' = st) \/
     (cnt (noP P) ts = S (cnt (noP P) ts') /\ (length st' <= 2 + length st)%nat)) /\
    keeps ts ts'.
Proof.
  intros FP VP [M I F S Nd Lg].
  destruct (S x y (or_introl eq_refl)) as (a & b & n1 & n2 & Hx & Hy).
  pose proof (view_exists _ _ _ Hx) as V1; simpl in V1.
  destruct (view_he _ _ _ _ _ _ _ _ V1) as (_ & E2 & _).
  pose proof (glue_some _ _ M _ _ _ _ E2 Hy) as (c & n3 & n4 & V2).
  assert (Hxn : x <> NONE) by (apply view_lt in V1; pose proof (M_len _ _ M); unfold NONE; lia).
  destruct (view_nth _ _ _ _ _ _ _ _ V2) as (t2 & Ht2).
  unfold check_and_swap. unfold getN at 1. rewrite Ht2. cbn [bind].
  rewrite (quad_of_pair_view ts y t2 x P a b c n3 n4 M Ht2 Hxn V2).
  destruct (Ids_view _ _ _ _ _ _ _ _ _ I V1) as (_ & Va & Vb).
  destruct (Ids_view _ _ _ _ _ _ _ _ _ I V2) as (_ & _ & Vc).
  pose proof (M_cw _ _ M _ _ _ _ _ _ _ V1) as C1. pose proof (M_cw _ _ M _ _ _ _ _ _ _ V2) as C2.
  destruct (should_swap_post a b c P Va Vb Vc VP FP C1 C2) as (r & Hr & Hconv).
  rewrite Hr. cbn [bind]. destruct r.
  2:{ exists ts, st. split; [reflexivity|]. split; [|split; [reflexivity|split; [auto|apply keeps_refl]]].
      constructor; auto.
      - intros x' y' Hin. apply S. now right.
      - simpl in Nd. now inversion Nd.
      - intros x' y' a' b' c' m1 m2 m3 m4 Hx' V'.
        destruct (Lg _ _ _ _ _ _ _ _ _ Hx' V') as [[Q|Q]|Q]; auto.
        injection Q as <- <-. right. rewrite Hx in Hx'. injection Hx' as <- <- <- <-.
        pose proof (D_distinct pos _ _ _ C2) as (X1 & X2 & X3).
        assert (c' = c).
        { destruct (view_fun _ _ _ _ _ _ _ _ _ _ _ _ _ _ V2 V') as [Q|[Q|Q]]; intuition congruence. }
        subst c'. exact Hr. }
  destruct (Hconv eq_refl) as (Fc & N1 & N2).
  destruct (swap_pair_spec ts P a b c x y n1 n2 n3 n4 st M Hx V2) as (ts' & Hs & Hl & A & B & O).
  pose proof (flip_facts pos ts x y a b c P n1 n2 n3 n4 M V1 V2)
    as (L1 & L2 & T12 & Tn1 & Tn2 & Y1 & Y2 & Y3 & Y4 & Y5 & Y6 & X7).
  pose proof (view_exists _ _ _ A) as VA; simpl in VA.
  pose proof (view_exists _ _ _ B) as VB; simpl in VB.
  assert (M' : Mesh ts') by exact (mesh_flip pos ts ts' x y a b c P n1 n2 n3 n4 M V1 V2 N1 N2 Hl VA VB O).
  exists ts', (push_if (push_if st x n3) y n4). split; [exact Hs|].
  (* shape of the outer triangles *)
  assert (Out : forall j t', j <> x -> j <> y -> nthN ts' j = Some t' -> exists t,
            nthN ts j = Some t /\ (forall k, tv t' k = tv t k) /\
            (forall k, tn t' k = if (j =? n1) && (tn t k =? x) then y
                                 else if (j =? n3) && (tn t k =? y) then x else tn t k)).
  { intros j t' J1 J2 Ht'.
    assert (Hj : j < lenN ts) by (apply nthN_lt in Ht'; lia).
    destruct (nthN_Some ts j Hj) as (t & Ht). exists t. split; auto.
    assert (Q := fun k => flip_outer_tn pos ts ts' x y a b c P n1 n2 n3 n4 M V1 V2 Hl O j t t' k).
    split; [exact (proj1 (Q I1 J1 J2 Ht Ht'))|]. intros k. exact (proj2 (Q k J1 J2 Ht Ht')). }
  assert (Hyv : t_v1 t2 <> P).
  { intros Q. assert (Cy : corner ts y P).
    { exists (t_v2 t2), (t_n12 t2). pose proof (he_at ts y t2 I1 Ht2) as H. simpl in H. now rewrite Q in H. }
    destruct (corner_cases px py _ _ _ _ _ _ _ _ _ V2 Cy) as [Z|[Z|Z]]; congruence. }
  (* a triangle with first vertex P and not x keeps its outer side *)
  assert (Keep : forall j u w m1 m2 m3, j <> x -> j <> y ->
             nthN ts' j = Some (Tri P u w m1 m2 m3) ->
             exists m1' m3', nthN ts j = Some (Tri P u w m1' m2 m3') /\ m2 <> y /\ m2 <> x).
  { intros j u w m1 m2 m3 J1 J2 Hj.
    destruct (Out j _ J1 J2 Hj) as (t & Ht & Hv & Hn).
    pose proof (Hv I1) as v1. pose proof (Hv I2) as v2. pose proof (Hv I3) as v3. simpl in v1, v2, v3.
    pose proof (Hn I2) as nn. simpl in nn.
    destruct t as [a1 a2 a3 b1 b2 b3]; simpl in *; subst a1 a2 a3.
    pose proof (view_exists _ _ _ Ht) as Vj; simpl in Vj.
    destruct (view_he _ _ _ _ _ _ _ _ Vj) as (_ & Hj2 & _).
    pose proof (M_cw _ _ M _ _ _ _ _ _ _ Vj) as Cj.
    pose proof (D_distinct pos _ _ _ Cj) as (Z1 & Z2 & Z3).
    assert (B2x : b2 <> x).
    { intros Q. rewrite Q in Hj2. pose proof (glue_some _ _ M _ _ _ _ Hj2 Hxn) as G.
      destruct (he_cases _ _ _ _ _ _ _ _ _ _ _ V1 G) as [(Q1 & Q2 & Q3)|[(Q1 & Q2 & Q3)|(Q1 & Q2 & Q3)]].
      - subst w. congruence.
      - congruence.
      - subst u. congruence. }
    assert (B2y : b2 <> y).
    { intros Q. rewrite Q in Hj2. pose proof (glue_some _ _ M _ _ _ _ Hj2 Hy) as G.
      destruct (he_cases _ _ _ _ _ _ _ _ _ _ _ V2 G) as [(Q1 & Q2 & Q3)|[(Q1 & Q2 & Q3)|(Q1 & Q2 & Q3)]].
      - congruence.
      - subst u w. pose proof (det_anti (pos P) (pos a) (pos c)). lra.
      - subst u w. pose proof (det_anti (pos P) (pos b) (pos c)). pose proof (det_anti (pos P) (pos c) (pos b)). lra. }
    assert (Q : m2 = b2).
    { rewrite nn. apply N.eqb_neq in B2x, B2y. rewrite B2x, B2y, !andb_false_r. reflexivity. }
    exists b1, b3. rewrite Q. auto. }
  pose proof (view_he _ _ _ _ _ _ _ _ V1) as (E1 & _ & E3).
  pose proof (view_he _ _ _ _ _ _ _ _ V2) as (E4 & E5 & E6).
  pose proof (view_he _ _ _ _ _ _ _ _ VA) as (F1 & F2 & F3).
  pose proof (view_he _ _ _ _ _ _ _ _ VB) as (F4 & F5 & F6).
  assert (Corn : keeps ts ts').
  { split; [intros w; split; intros (i & u & n & Hw)|intros u v (i & Hw)];
      (destruct (N.eq_dec i x) as [->|J1]; [|destruct (N.eq_dec i y) as [->|J2]]).
    - destruct (he_cases _ _ _ _ _ _ _ _ _ _ _ V1 Hw) as [(-> & _)|[(-> & _)|(-> & _)]].
      + exists x, a, n2; auto.
      + exists x, c, n3; auto.
      + exists y, P, n1; auto.
    - destruct (he_cases _ _ _ _ _ _ _ _ _ _ _ V2 Hw) as [(-> & _)|[(-> & _)|(-> & _)]].
      + exists y, P, n1; auto.
      + exists x, c, n3; auto.
      + exists y, b, n4; auto.
    - apply he_inv in Hw. destruct Hw as (t & k & Ht & Eu & Ev & En).
      destruct (nthN_Some ts' i) as (t' & Ht'); [rewrite Hl; now apply nthN_lt in Ht|].
      destruct (Out i t' J1 J2 Ht') as (t0 & Ht0 & Hv & _).
      assert (t0 = t) by congruence. subst t0.
      exists i, (tv t' (next_cw k)), (tn t' k). rewrite <- Eu, <- Hv. now apply he_at.
    - destruct (he_cases _ _ _ _ _ _ _ _ _ _ _ VA Hw) as [(-> & _)|[(-> & _)|(-> & _)]].
      + exists x, a, n2; auto.
      + exists x, b, y; auto.
      + exists y, b, n4; auto.
    - destruct (he_cases _ _ _ _ _ _ _ _ _ _ _ VB Hw) as [(-> & _)|[(-> & _)|(-> & _)]].
      + exists x, a, n2; auto.
      + exists y, b, n4; auto.
      + exists y, a, x; auto.
    - apply he_inv in Hw. destruct Hw as (t' & k & Ht' & Eu & Ev & En).
      destruct (Out i t' J1 J2 Ht') as (t & Ht & Hv & _).
      exists i, (tv t (next_cw k)), (tn t k). rewrite <- Eu, Hv. now apply he_at.
    - destruct (he_cases _ _ _ _ _ _ _ _ _ _ _ V1 Hw) as [(-> & -> & Q)|[(-> & -> & Q)|(-> & -> & Q)]].
      + exists x. rewrite Q; auto.
      + congruence.
      + exists y. rewrite Q; auto.
    - destruct (he_cases _ _ _ _ _ _ _ _ _ _ _ V2 Hw) as [(-> & -> & Q)|[(-> & -> & Q)|(-> & -> & Q)]].
      + congruence.
      + exists x. rewrite Q; auto.
      + exists y. rewrite Q; auto.
    - apply he_inv in Hw. destruct Hw as (t & k & Ht & Eu & Ev & En).
      destruct (nthN_Some ts' i) as (t' & Ht'); [rewrite Hl; now apply nthN_lt in Ht|].
      destruct (Out i t' J1 J2 Ht') as (t0 & Ht0 & Hv & Hn).
      assert (t0 = t) by congruence. subst t0.
      exists i. rewrite <- Eu, <- Ev, <- !Hv.
      assert (Q : tn t' k = NONE).
      { rewrite Hn, En. apply not_eq_sym, N.eqb_neq in Tn1, Tn2. now rewrite Tn1, Tn2, !andb_false_r. }
      rewrite <- Q. now apply he_at. }
  split; [|split; [exact Hl|split; [right; split|exact Corn]]].
  - constructor; auto.
    + intros t Ht. apply In_nthN in Ht. destruct Ht as (i & Ht).
      destruct (N.eq_dec i x) as [->|J1]; [|destruct (N.eq_dec i y) as [->|J2]].
      * rewrite A in Ht. injection Ht as <-. repeat split; auto.
      * rewrite B in Ht. injection Ht as <-. repeat split; auto.
      * destruct (Out i t J1 J2 Ht) as (t0 & Ht0 & Hv & _).
        pose proof (Hv I1) as v1. pose proof (Hv I2) as v2. pose proof (Hv I3) as v3. simpl in *.
        unfold tri_all. rewrite v1, v2, v3. apply I. eapply nthN_In; eauto.
    + intros i t k Ht Hk.
      destruct (N.eq_dec i x) as [->|J1]; [|destruct (N.eq_dec i y) as [->|J2]].
      * rewrite A in Ht. injection Ht as <-. destruct k; simpl in Hk; congruence.
      * rewrite B in Ht. injection Ht as <-. destruct k; simpl in Hk; congruence.
      * destruct (Out i t J1 J2 Ht) as (t0 & Ht0 & Hv & _). rewrite Hv in Hk. eauto.
    + intros x' y' Hin. apply push_if_In in Hin. destruct Hin as [(-> & -> & Hn)|Hin].
      { exists c, b, n1, x. auto. }
      apply push_if_In in Hin. destruct Hin as [(-> & -> & Hn)|Hin].
      { exists a, c, y, n2. auto. }
      destruct (S x' y' (or_intror Hin)) as (a' & b' & m1 & m2 & Hx' & Hy').
      assert (J1 : x' <> x).
      { intros ->. simpl in Nd. inversion Nd as [|? ? Ni _]. apply Ni.
        apply in_map_iff. exists (x, y'). auto. }
      assert (J2 : x' <> y).
      { intros ->. rewrite Ht2 in Hx'. injection Hx' as ->. simpl in Hyv. congruence. }
      assert (Hj : x' < lenN ts') by (rewrite Hl; now apply nthN_lt in Hx').
      destruct (nthN_Some ts' x' Hj) as (t' & Ht').
      destruct (Out x' t' J1 J2 Ht') as (t0 & Ht0 & Hv & Hn).
      assert (t0 = Tri P a' b' m2 y' m1) by congruence. subst t0.
      destruct t' as [u1 u2 u3 k1 k2 k3].
      pose proof (Hv I1) as v1. pose proof (Hv I2) as v2. pose proof (Hv I3) as v3. simpl in v1, v2, v3.
      subst u1 u2 u3.
      destruct (Keep x' _ _ _ _ _ J1 J2 Ht') as (m1' & m3' & Ht0' & _).
      assert (k2 = y') by congruence. subst k2. eauto 6.
    + apply push_if_fst.
      * intros y' Hin. apply push_if_In in Hin. destruct Hin as [(Q & _)|Hin]; [congruence|].
        destruct (S y y' (or_intror Hin)) as (a' & b' & m1 & m2 & Hx' & _).
        rewrite Ht2 in Hx'. injection Hx' as ->. simpl in Hyv. congruence.
      * simpl in Nd. inversion Nd as [|? ? Ni Nd']. apply push_if_fst; auto.
        intros y' Hin. apply Ni. apply in_map_iff. exists (x, y'). auto.
    + intros x' y' a' b' c' m1 m2 m3 m4 Hx' V'.
      destruct (N.eq_dec x' x) as [->|J1]; [|destruct (N.eq_dec x' y) as [->|J2]].
      * rewrite A in Hx'. injection Hx' as <- <- <- <-. left. apply push_if_In. right. apply push_if_In. left.
        repeat split; auto. intros Q. rewrite Q in V'. apply view_lt in V'.
        pose proof (M_len _ _ M'). unfold NONE in V'. lia.
      * rewrite B in Hx'. injection Hx' as <- <- <- <-. left. apply push_if_In. left.
        repeat split; auto. intros Q. rewrite Q in V'. apply view_lt in V'.
        pose proof (M_len _ _ M'). unfold NONE in V'. lia.
      * destruct (Keep x' _ _ _ _ _ J1 J2 Hx') as (m1' & m3' & Hx0 & K1 & K2).
        (* the opposite triangle is outside the quad: same corners *)
        destruct V' as (t' & k & Ht' & Hr').
        destruct (Out y' t' K2 K1 Ht') as (t0 & Ht0 & Hv & Hn).
        pose proof (view_at ts y' t0 k Ht0) as V0.
        unfold rot in Hr'. injection Hr' as r1 r2 r3 r4 r5 r6.
        rewrite <- !Hv, r1, r2, r3 in V0.
        pose proof (view_exists _ _ _ Hx0) as Vx0; simpl in Vx0.
        destruct (view_he _ _ _ _ _ _ _ _ Vx0) as (_ & Hx2 & _).
        assert (Hy'n : y' <> NONE) by (apply view_lt in V0; pose proof (M_len _ _ M); unfold NONE; flia).
        pose proof (glue_some _ _ M _ _ _ _ Hx2 Hy'n) as G.
        pose proof (proj1 (view_he _ _ _ _ _ _ _ _ V0)) as G0.
        pose proof (he_fun _ _ M _ _ _ _ _ G G0) as Q. rewrite <- Q in V0.
        destruct (Lg _ _ _ _ _ _ _ _ _ Hx0 V0) as [[Z|Z]|Z]; auto.
        -- congruence.
        -- left. apply push_if_In. right. apply push_if_In. now right.
  - (* the count of triangles without P *)
    assert (C0 : cnt (noP P) ts' = cnt (noP P) (updN (updN ts x (Tri P a c n2 n3 y)) y (Tri P c b x n4 n1))).
    { apply cnt_ext; [rewrite !lenN_updN; auto|].
      intros j t t' Ht Ht'. rewrite nthN_upd_cases in Ht'.
      destruct (N.eqb_spec j y) as [->|J2].
      - rewrite nthN_updN_other in Ht' by auto. rewrite Ht2 in Ht'. simpl in Ht'.
        injection Ht' as <-. rewrite B in Ht. injection Ht as <-. reflexivity.
      - rewrite nthN_upd_cases in Ht'. destruct (N.eqb_spec j x) as [->|J1].
        + rewrite Hx in Ht'. simpl in Ht'. injection Ht' as <-. rewrite A in Ht. injection Ht as <-. reflexivity.
        + destruct (Out j t J1 J2 Ht) as (t0 & Ht0 & Hv & _).
          assert (t' = t0) by congruence. subst t'. unfold noP. pose proof (Hv I1) as v1. simpl in v1. now rewrite v1. }
    pose proof (cnt_upd (noP P) ts x _ (Tri P a c n2 n3 y) Hx) as K1.
    assert (Hy2 : nthN (updN ts x (Tri P a c n2 n3 y)) y = Some t2) by (rewrite nthN_updN_other by auto; exact Ht2).
    pose proof (cnt_upd (noP P) _ y t2 (Tri P c b x n4 n1) Hy2) as K2.
    assert (Fx : noP P (Tri P a b n2 y n1) = false) by (unfold noP; simpl; now rewrite N.eqb_refl).
    assert (Fx' : noP P (Tri P a c n2 n3 y) = false) by (unfold noP; simpl; now rewrite N.eqb_refl).
    assert (Fy' : noP P (Tri P c b x n4 n1) = false) by (unfold noP; simpl; now rewrite N.eqb_refl).
    assert (Fy : noP P t2 = true) by (unfold noP; apply negb_true_iff; now apply N.eqb_neq).
    rewrite Fx, Fx' in K1. rewrite Fy, Fy' in K2. lia.
  - pose proof (push_if_length (push_if st x n3) y n4). pose proof (push_if_length st x n3). lia.
Qed.

Lemma restore_spec P : is_finite P = true -> vok P -> forall fuel ts st,
  Rinv ts P st -> (2 * cnt (noP P) ts + length st <= fuel)%nat ->
  exists ts', restore_delaunay fuel ts vs P st = Ret ts' /\ Rinv ts' P [] /\ lenN ts' = lenN ts /\
    keeps ts ts'.
Proof.
  intros FP VP. induction fuel as [|fuel IH]; intros ts st R Hf.
  - destruct st as [|(x, y) st]; [|simpl in Hf; lia]. exists ts. simpl. auto using keeps_refl.
  - destruct st as [|(x, y) st]; [exists ts; simpl; auto using keeps_refl|].
    destruct (check_and_swap_spec ts P x y st FP VP R) as (ts1 & st1 & Hc & R1 & L1 & K & C1).
    simpl. rewrite Hc. cbn [bind].
    destruct (IH ts1 st1 R1) as (ts2 & Hr & R2 & L2 & C2).
    { simpl in Hf. destruct K as [(-> & ->)|(K1 & K2)]; lia. }
    exists ts2. split; auto. split; auto. split; [lia|].
    eapply keeps_trans; eauto.
Qed.

End WithEnv.
