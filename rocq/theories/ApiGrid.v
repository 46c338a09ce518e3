(** * ApiGrid: the exact-predicate properties for the inputs of [GridSpec.v]. *)

From Coq Require Import ZArith NArith List Bool Lia QArith Lqa Permutation.
From Verif Require Import Base BaseFacts Arith Types Utils Infinite Triangulation Geom Mesh Exact ExactC
  AnyDT Walk Insert DTExact Spec DTOut Rep Norm GridSpec GridNum InputSpec GridApi ApiProps Pred PredApi.
Import ListNotations.
Local Open Scope N_scope.

Lemma normalized_len {E : Env} (vs : list vertex) : length (normalized vs) = length vs.
Proof.
  unfold normalized. pose proof (normalize_length vs) as K.
  destruct (normalize_vertices_coordinates vs) as (((nvs, c1), c2), c3). exact (K _ _ _ _ eq_refl).
Qed.

Lemma normalized_lenN {E : Env} (vs : list vertex) : lenN (normalized vs) = lenN vs.
Proof. unfold lenN. now rewrite normalized_len. Qed.

Section Grid.
Context {E : Env}.
Variables (vs : list vertex) (px py : N -> Q) (bound : Z).
Notation pos := (pair_at px py).
Hypothesis G : exact_input vs pos bound.
Hypothesis Hid : 2 * lenN vs + 2 <= idmax.

Lemma fin_lt v : v < lenN vs -> is_finite v = true.
Proof. intros H. unfold is_finite, INF0. apply N.ltb_lt. lia. Qed.

(** ** C09 *)
Lemma grid_clockwise fuel bins out : (4 * length vs + 12 <= fuel)%nat ->
  triangulation_from_2d_vertices fuel bins vs = Ret out ->
  forall a b c, In (a, b, c) out ->
    clockwise (pos a) (pos b) (pos c) /\ a <> b /\ b <> c /\ a <> c.
Proof.
  intros Hf H a b c Hin. pose proof (vm_clockwise _ _ _ (proj1 (grid_valid vs pos bound G Hid fuel bins out Hf H)) _ Hin) as C.
  split; [exact C|]. simpl in C. unfold clockwise, orient in C.
  split; [|split]; intros Q; subst; lra.
Qed.

(** ** C39 *)
Lemma grid_predicates a b c d va vb vc vd :
  nthN (normalized vs) a = Some va -> nthN (normalized vs) b = Some vb ->
  nthN (normalized vs) c = Some vc -> nthN (normalized vs) d = Some vd ->
  let o := orient (pos a) (pos b) (pos c) in
  let s := test_point_edge_side (va, vb) vc in
  ((is_on_left_side s = true <-> (0 < o)%Q) /\ (is_near_edge s = true <-> (o == 0)%Q) /\
   (is_point_strictly_on_right_side_of_edge (va, vb) vc = true <-> (o < 0)%Q)) /\
  (clockwise (pos d) (pos a) (pos b) -> clockwise (pos b) (pos a) (pos c) ->
   is_vertex_in_triangle_circumcircle va vb vc vd = true <->
   in_circumcircle (pos a) (pos b) (pos c) (pos d)) /\
  (is_vertex_pair_too_close va vb = true <-> same_place (pos a) (pos b)) /\
  (is_crossing (egdes_intersect (va, vb) (vc, vd)) = true <->
   segments_cross (pos a) (pos b) (pos c) (pos d)).
Proof.
  intros A B C D o s. destruct (input_api vs px py bound G Hid) as (X & XC & _).
  assert (Fin : forall v w, nthN (normalized vs) v = Some w -> is_finite v = true).
  { intros v w Hv. apply fin_lt. apply nthN_lt in Hv. now rewrite normalized_lenN in Hv. }
  assert (Or : forall x y z wx wy wz, nthN (normalized vs) x = Some wx -> nthN (normalized vs) y = Some wy -> nthN (normalized vs) z = Some wz ->
    (det (hpos (px) (py) x) (hpos (px) (py) y) (hpos (px) (py) z) == orient (pos x) (pos y) (pos z))%Q).
  { intros x y z wx wy wz Hx Hy Hz. rewrite !hpos_fin by eauto. unfold det, orient; simpl. unfold pair_at; simpl; ring. }
  split; [|split; [|split]].
  - destruct (X_side _ _ _ X _ _ _ _ _ _ A B C) as (S1 & S2). pose proof (X_strict _ _ _ X _ _ _ _ _ _ A B C) as S3.
    cbv zeta in S1, S2. rewrite (Or _ _ _ _ _ _ A B C) in S1, S2, S3. auto.
  - intros K1 K2. pose proof (X_circle _ _ _ X _ _ _ _ _ _ _ _ A B C D) as S.
    rewrite (Or _ _ _ _ _ _ D A B), (Or _ _ _ _ _ _ B A C) in S. rewrite (S K1 K2).
    assert (K3 : (orient (pos c) (pos b) (pos a) < 0)%Q) by (unfold clockwise, orient in *; lra).
    pose proof (in_circle_iff (pos b) (pos a) (pos d) (pos c) K3) as J.
    rewrite circle_perm in J. rewrite <- J. unfold pair_at; cbn [fst snd].
    match goal with |- (0 < ?u)%Q <-> (0 < ?v)%Q => assert (Q : (u == v)%Q) by (unfold incircle; ring); rewrite Q; reflexivity end.
  - exact (X_close _ _ _ X _ _ _ _ A B).
  - rewrite (XC_fin _ _ _ XC _ _ _ _ _ _ _ _ A B C D). unfold crosses, segments_cross.
    rewrite (Or _ _ _ _ _ _ A B C), (Or _ _ _ _ _ _ A B D), (Or _ _ _ _ _ _ C D A), (Or _ _ _ _ _ _ C D B). reflexivity.
Qed.

(** ** C08 *)
Lemma grid_merge fuel bins s : (4 * length vs + 12 <= fuel)%nat ->
  wrap_and_triangulate fuel bins (normalized vs) (Some (rangeN 0 (length vs))) = Ret s ->
  exists m, s_map s = Some m /\ lenN m = lenN vs /\
    (forall v, v < lenN vs -> exists w, nthN m v = Some w /\ w < lenN vs /\
       (exists t, In t (s_ts s) /\ tri_corner (tverts t) w) /\
       same_place (pos w) (pos v)) /\
    (forall s1 t u v, In s1 (s_ts s) -> In t (s_ts s) -> tri_corner (tverts s1) u -> tri_corner (tverts t) v ->
       u < lenN vs -> v < lenN vs -> same_place (pos u) (pos v) -> u = v).
Proof.
  intros Hf W. destruct (input_api vs px py bound G Hid) as (X & _ & _). pose proof (input_len _ _ _ G) as L2.
  rewrite <- (normalized_len vs) in W. rewrite <- (normalized_lenN vs).
  apply (wrap_merge fuel bins (normalized vs) (px) (py) s X); auto; rewrite ?normalized_lenN, ?normalized_len; auto. lia.
Qed.

(** ** C13 *)
Lemma grid_locate fuel m first rest s P p from : (4 * length vs + 12 <= fuel)%nat ->
  start_map vs m -> NoDup (first :: rest) -> (forall v, In v (first :: rest) -> v < lenN vs) ->
  inserted fuel (normalized vs) m first rest s ->
  nthN (normalized vs) P = Some p -> from < lenN (s_ts s) ->
  exists pl, find_vertex_placement p from (s_ts s) (normalized vs) = Ret pl /\
    located pos (s_ts s) P pl.
Proof.
  intros Hf Hm Nd Hl H Hp Hfrom. destruct (input_api vs px py bound G Hid) as (X & _ & _).
  destruct (inserted_inv (normalized vs) (px) (py) fuel m first rest s X) as (done & _ & DI);
    rewrite ?normalized_lenN, ?normalized_len; auto.
  { unfold start_map in *. now rewrite normalized_len. }
  destruct (V_inv _ _ _ _ _ DI) as [M I J O].
  exact (locate (normalized vs) (px) (py) (s_ts s) P p from X M I Hp Hfrom).
Qed.

(** ** C15 *)
Lemma grid_insert_legal fuel m first rest P s s' : (4 * length vs + 12 <= fuel)%nat ->
  start_map vs m -> NoDup (first :: rest ++ [P]) -> (forall v, In v (first :: rest ++ [P]) -> v < lenN vs) ->
  inserted fuel (normalized vs) m first rest s ->
  insert_vertex fuel (normalized vs) s P = Ret s' ->
  (s_ts s' = s_ts s /\ exists w t, w < lenN vs /\ In t (s_ts s) /\ tri_corner (tverts t) w /\ same_place (pos w) (pos P)) \/
  (lenN (s_ts s') = lenN (s_ts s) + 2 /\
   forall a b c, is_tri (filter_triangles (s_ts s')) P a b -> is_tri (filter_triangles (s_ts s')) b a c ->
     ~ in_circumcircle (pos P) (pos a) (pos b) (pos c)).
Proof.
  intros Hf Hm Nd Hl H1 H2. destruct (input_api vs px py bound G Hid) as (X & _ & _).
  destruct (insert_legal (normalized vs) (px) (py) X fuel first rest P m s s') as [(A & w & W1 & (j & W2) & W3)|(A & B)];
    rewrite ?normalized_lenN, ?normalized_len; auto.
  - left. split; auto. destruct (corner_inv _ _ _ W2) as (t & k & Ht & Hk). exists w, t.
    split; [|split; [eapply nthN_In; eauto|split; [destruct k; simpl in Hk; simpl; intuition congruence|exact W3]]].
    assert (Nd' : NoDup (first :: rest)).
    { clear - Nd. change (first :: rest ++ [P]) with ((first :: rest) ++ [P]) in Nd. apply NoDup_remove_1 in Nd. now rewrite app_nil_r in Nd. }
    destruct (inserted_inv (normalized vs) (px) (py) fuel m first rest s X) as (done & Hd & DI);
      rewrite ?normalized_lenN, ?normalized_len; auto.
    { unfold start_map in *. now rewrite normalized_len. }
    { intros v Hv. apply Hl. simpl in *. rewrite in_app_iff. tauto. }
    pose proof (V_done _ _ _ _ _ DI) as C. apply Hl.
    assert (In w (first :: rest)) by (apply Hd; eapply C; eauto; now exists j).
    simpl in *. rewrite in_app_iff. tauto.
Qed.

Lemma grid_last_legal fuel bins first rest P out : (4 * length vs + 12 <= fuel)%nat -> 3 <= lenN vs ->
  bin_sort bins (normalized vs) = Ret (first :: rest ++ [P]) ->
  triangulation_from_2d_vertices fuel bins vs = Ret out ->
  forall a b c, is_tri out P a b -> is_tri out b a c ->
    ~ in_circumcircle (pos P) (pos a) (pos b) (pos c).
Proof.
  intros Hf H3 Hb. unfold triangulation_from_2d_vertices.
  destruct (N.ltb_spec (lenN vs) 3) as [H|_]; [lia|].
  unfold normalized in Hb. destruct (normalize_vertices_coordinates vs) as (((nvs, c1), c2), c3) eqn:En. cbn [fst] in Hb.
  assert (Hn : nvs = normalized vs) by (unfold normalized; now rewrite En).
  unfold wrap_and_triangulate. rewrite Hb. cbn [bind].
  assert (L4 : last_id (create_initial_triangles first) = Ret 3).
  { unfold last_id, create_initial_triangles. f_equal. apply as_id_small. cbn; lia. }
  rewrite L4. cbn [bind].
  intros H.
  assert (Perm : Permutation (first :: rest ++ [P]) (rangeN 0 (length vs))).
  { pose proof (bin_sort_permutation bins nvs (first :: rest ++ [P])) as K. rewrite Hn, normalized_lenN, normalized_len in K. apply K; [lia|].
    now rewrite <- Hn. }
  assert (Nd : NoDup (first :: rest ++ [P])).
  { eapply Permutation_NoDup; [apply Permutation_sym; exact Perm|]. apply NoDup_rangeN. }
  assert (Hl : forall v, In v (first :: rest ++ [P]) -> v < lenN vs).
  { intros v Hv. apply (Permutation_in _ Perm) in Hv. apply In_rangeN in Hv. unfold lenN. lia. }
  rewrite foldM_app in H.
  destruct (foldM (insert_vertex fuel nvs) rest (St (create_initial_triangles first) 3 None)) as [s| | |] eqn:Es; try discriminate.
  cbn [bind foldM] in H. destruct (insert_vertex fuel nvs s P) as [s'| | |] eqn:Ei; try discriminate. cbn [bind] in H.
  injection H as <-. intros a b c T1 T2. rewrite Hn in Es, Ei.
  destruct (grid_insert_legal fuel None first rest P s s' Hf (or_introl eq_refl) Nd Hl Es Ei) as [(A & _)|(_ & B)]; [|now apply B].
  exfalso. clear T2. rewrite A in T1.
  destruct (inserted_inv (normalized vs) (px) (py) fuel None first rest s) as (done & Hd & DI);
    rewrite ?normalized_lenN, ?normalized_len; auto.
  { exact (proj1 (input_api vs px py bound G Hid)). }
  { left; auto. }
  { clear - Nd. change (first :: rest ++ [P]) with ((first :: rest) ++ [P]) in Nd. apply NoDup_remove_1 in Nd. now rewrite app_nil_r in Nd. }
  { intros v Hv. apply Hl. simpl in *. rewrite in_app_iff. tauto. }
  destruct (is_tri_view _ _ _ _ T1) as (i & x & y & z & V & FP & _ & _).
  pose proof (V_done _ _ _ _ _ DI) as C.
  assert (K : In P (first :: rest)).
  { apply Hd. eapply C; eauto. exists i. destruct (view_he _ _ _ _ _ _ _ _ V) as (h1 & _). eexists; eexists; eauto. }
  clear - Nd K. change (first :: rest ++ [P]) with ((first :: rest) ++ [P]) in Nd. apply NoDup_remove_2 in Nd. rewrite app_nil_r in Nd. contradiction.
Qed.

(** ** C17 *)
Definition known (v : N) : Prop := v < lenN vs \/ (idmax - 3 <= v /\ v <= idmax).

Lemma grid_swap a b c P : known a -> known b -> known c -> P < lenN vs ->
  let at_ v := site_at pos v in
  (turn (at_ P) (at_ a) (at_ b) < 0)%Q -> (turn (at_ b) (at_ a) (at_ c) < 0)%Q ->
  exists r, should_swap_diagonals (Quad a b c P) (normalized vs) = Ret r /\
    (r = true -> c < lenN vs /\
       (turn (at_ P) (at_ a) (at_ c) < 0)%Q /\ (turn (at_ P) (at_ c) (at_ b) < 0)%Q).
Proof.
  intros Ka Kb Kc KP at_ H1 H2. destruct (input_api vs px py bound G Hid) as (X & _ & _).
  assert (Vk : forall v, known v -> vok (normalized vs) v).
  { intros v Hv Fv. rewrite normalized_lenN. unfold known, is_finite, INF0 in *. apply N.ltb_lt in Fv. lia. }
  unfold at_ in *. change pos with (place (px) (py)) in *. rewrite turn_det in H1, H2.
  destruct (should_swap_post (normalized vs) (px) (py) X a b c P) as (r & R1 & R2); auto.
  { apply Vk. now left. }
  { now apply fin_lt. }
  exists r. split; auto. intros Hr. destruct (R2 Hr) as (Fc & N1 & N2). rewrite !turn_det. split; auto.
  destruct Kc as [Kc|Kc]; auto. unfold is_finite, INF0 in Fc. apply N.ltb_lt in Fc. lia.
Qed.

End Grid.

(** Swapping the diagonal of a convex quad keeps the region, also when corners are at
    infinity. *)
Definition in_sites (a b c : site) (p : point) : Prop :=
  (turn a b (Place p) <= 0 /\ turn b c (Place p) <= 0 /\ turn c a (Place p) <= 0)%Q.

Definition hsite (s : site) : pt3 := let '(x, y, w) := homogeneous s in P3 x y w.

Lemma turn_hsite a b c : (turn a b c == det (hsite a) (hsite b) (hsite c))%Q.
Proof. unfold turn, hsite, det. destruct a, b, c; simpl; ring. Qed.

Lemma swap_region P a b c p :
  (turn P a b < 0 -> turn b a c < 0 -> turn P a c < 0 -> turn P c b < 0 ->
   (in_sites P a b p \/ in_sites b a c p <-> in_sites P a c p \/ in_sites P c b p))%Q.
Proof.
  unfold in_sites. rewrite !turn_hsite. set (x := hsite (Place p)).
  generalize (hsite P) (hsite a) (hsite b) (hsite c). clear. intros q4 q1 q2 q3 H1 H2 N1 N2. split.
  - intros [H|H].
    + exact (flip_cover1 q1 q2 q3 q4 H1 H2 N1 N2 x H).
    + exact (flip_cover2 q1 q2 q3 q4 H1 H2 N1 N2 x H).
  - pose proof (det_rot3 q4 q1 q3) as (R1 & R2). pose proof (det_rot3 q2 q1 q3) as (R3 & R4). pose proof (det_rot3 q4 q1 q2) as (R5 & R6).
    assert (K1 : (det q1 q3 q4 < 0)%Q) by lra. assert (K3 : (det q1 q3 q2 < 0)%Q) by lra. assert (K4 : (det q1 q2 q4 < 0)%Q) by lra.
    intros [(X1 & X2 & X3)|H].
    + assert (H' : in_closed q1 q3 q4 x) by (split; [exact X2|split; [exact X3|exact X1]]).
      destruct (flip_cover1 q3 q4 q2 q1 K1 N2 K3 K4 x H') as [(Y1 & Y2 & Y3)|(Y1 & Y2 & Y3)]; [right|left]; auto.
    + destruct (flip_cover2 q3 q4 q2 q1 K1 N2 K3 K4 x H) as [(Y1 & Y2 & Y3)|(Y1 & Y2 & Y3)]; [right|left]; auto.
Qed.

Lemma grid_swap_region {E : Env} (vs : list vertex) px py bound : exact_input vs (pair_at px py) bound -> 2 * lenN vs + 2 <= idmax ->
  forall a b c P, known vs a -> known vs b -> known vs c -> P < lenN vs ->
  let at_ v := site_at (pair_at px py) v in
  (turn (at_ P) (at_ a) (at_ b) < 0)%Q -> (turn (at_ b) (at_ a) (at_ c) < 0)%Q ->
  exists r, should_swap_diagonals (Quad a b c P) (normalized vs) = Ret r /\
    (r = true -> c < lenN vs /\
       (turn (at_ P) (at_ a) (at_ c) < 0)%Q /\ (turn (at_ P) (at_ c) (at_ b) < 0)%Q /\
       forall p, in_sites (at_ P) (at_ a) (at_ b) p \/ in_sites (at_ b) (at_ a) (at_ c) p <->
                 in_sites (at_ P) (at_ a) (at_ c) p \/ in_sites (at_ P) (at_ c) (at_ b) p).
Proof.
  intros G H a b c P Ka Kb Kc KP at_ H1 H2.
  destruct (grid_swap vs px py bound G H a b c P Ka Kb Kc KP H1 H2) as (r & R1 & R2). exists r. split; auto.
  intros Hr. destruct (R2 Hr) as (A & B & C). split; auto. split; auto. split; auto. intros p. now apply swap_region.
Qed.

Lemma none_degenerate {E : Env} (c : F -> Q -> Prop) (vs : list vertex) (l : list (Z * Z)) bound :
  exact_coords E c -> Forall2 (fun v p => vertex_is c v (inject_Z (fst p), inject_Z (snd p))) vs l ->
  forall fuel bins out, on_grid vs l bound -> 2 * lenN vs + 2 <= idmax -> (4 * length vs + 12 <= fuel)%nat ->
  triangulation_from_2d_vertices fuel bins vs = Ret out ->
  check_degenerate_triangles out vs = Ret (0, 0).
Proof.
  intros C F2 fuel bins out G H Hf R.
  set (ps := map (fun p => (inject_Z (fst p), inject_Z (snd p))) l).
  assert (F2' : Forall2 (vertex_is c) vs ps).
  { unfold ps. clear - F2. induction F2; simpl; constructor; auto. }
  pose proof (dt_ids fuel bins vs out) as Ids. destruct Ids as (Ids & _); [lia|auto|].
  assert (Cw : forall a b c, In (a, b, c) out -> clockwise (zpoint l a) (zpoint l b) (zpoint l c) /\ a <> b /\ b <> c /\ a <> c)
    by exact (grid_clockwise vs (zpx l) (zpy l) bound (Input_grid vs l bound G) H fuel bins out Hf R).
  rewrite (api_degenerate E c C vs ps out F2').
  2:{ intros ((x, y), z) Ht v Hv. destruct (Ids _ _ _ Ht) as (I1 & I2 & I3). simpl in Hv. destruct Hv as [->|[->| ->]]; auto. }
  assert (At : forall v, nth (N.to_nat v) ps (0, 0)%Q = zpoint l v).
  { intros v. unfold ps, zpoint. rewrite <- (map_nth (fun p => (inject_Z (fst p), inject_Z (snd p)))). reflexivity. }
  assert (Nil : forall f : N * N * N -> bool, (forall t, In t out -> f t = false) -> filter f out = []).
  { clear. intros f. induction out as [|t out IH]; intros Hf; [reflexivity|]. simpl. rewrite Hf by now left. apply IH. intros t' Ht'. apply Hf. now right. }
  rewrite !Nil; [reflexivity| |].
  - intros ((x, y), z) Ht. destruct (Cw _ _ _ Ht) as (K & _). unfold tri_ccw, clockwise in *. rewrite !At.
    apply negb_false_iff, Qle_bool_iff. lra.
  - intros ((x, y), z) Ht. destruct (Cw _ _ _ Ht) as (K & _). unfold tri_flat, clockwise in *. rewrite !At.
    match goal with |- ?b = false => destruct b eqn:Eb; auto end. apply Qeq_bool_iff in Eb. lra.
Qed.
