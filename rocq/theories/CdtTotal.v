(** * CdtTotal: what a call of the constrained triangulation can end with. *)

From Coq Require Import NArith List Bool Lia QArith Lqa Permutation.
From Verif Require Import Base BaseFacts Arith Types Utils Infinite Triangulation Constrained Geom Mesh
  MeshOps Exact ExactC MeshVerts AnyDT SpecCdt AnyCDT Walk Insert DTExact Spec DTOut CSwap CCross CReg CPres
  CTerm CApply CTotal CdtApi.
Import ListNotations.
Local Open Scope N_scope.

(** ** The merge mapping does not influence the triangulation *)
Section Erase.
Context {E : Env}.

Definition erase (s : state) : state := Triangulation.St (s_ts s) (s_start s) None.

Definition erased (r r' : res state) : Prop :=
  match r with
  | Ret s => r' = Ret (erase s)
  | Fail e => r' = Fail e
  | Panic => True
  | OutOfFuel => r' = OutOfFuel
  end.

Lemma finish_erased fuel vs m vid r : erased (finish_insert fuel vs m vid r) (finish_insert fuel vs None vid r).
Proof.
  unfold finish_insert. destruct r as (ts, st).
  destruct (restore_delaunay fuel ts vs vid st) as [ts'| | |]; cbn [bind erased]; auto.
  destruct (last_id ts') as [j| | |]; cbn [bind erased]; auto.
Qed.

Lemma insert_erased fuel vs s vid : erased (insert_vertex fuel vs s vid) (insert_vertex fuel vs (erase s) vid).
Proof.
  unfold insert_vertex, erase; cbn [s_ts s_start s_map].
  destruct (getN vs vid) as [p| | |]; cbn [bind erased]; auto.
  destruct (find_vertex_placement p (s_start s) (s_ts s) vs) as [pl| | |]; cbn [bind erased]; auto.
  assert (Mg : forall tgt, erased (let* m := record_merge (s_map s) vid tgt in Ret (Triangulation.St (s_ts s) (s_start s) m))
     (let* m := record_merge None vid tgt in Ret (Triangulation.St (s_ts s) (s_start s) m))).
  { intros tgt. cbn [record_merge bind]. destruct (s_map s) as [m|]; cbn [record_merge bind erased]; auto.
    destruct (setN m vid tgt) eqn:Q; cbn [bind erased]; auto; unfold setN in Q; destruct (nthN m vid); discriminate. }
  destruct pl as [t|t ei ed|]; cbn [erased]; auto.
  - destruct (split_triangle_into_three (s_ts s) t vid []) as [r| | |]; cbn [bind erased]; auto. apply finish_erased.
  - destruct (close_to vs (efrom ed) p) as [[]| | |]; cbn [bind erased]; auto.
    destruct (close_to vs (eto ed) p) as [[]| | |]; cbn [bind erased]; auto.
    destruct (split_quad_into_four (s_ts s) t ei ed vid []) as [r| | |]; cbn [bind erased]; auto. apply finish_erased.
Qed.

Lemma fold_erased fuel vs : forall l s,
  erased (foldM (insert_vertex fuel vs) l s) (foldM (insert_vertex fuel vs) l (erase s)).
Proof.
  induction l as [|v l IH]; intros s; cbn [foldM]; [reflexivity|].
  pose proof (insert_erased fuel vs s v) as I.
  destruct (insert_vertex fuel vs s v) as [s1| | |]; cbn [erased bind] in *; auto; try (rewrite I; reflexivity).
  rewrite I. cbn [bind]. apply IH.
Qed.

Lemma wrap_erased fuel bins vs m :
  erased (wrap_and_triangulate fuel bins vs m) (wrap_and_triangulate fuel bins vs None).
Proof.
  unfold wrap_and_triangulate. destruct (bin_sort bins vs) as [o| | |]; cbn [bind erased]; auto.
  destruct o as [|f rest]; cbn [erased]; auto.
  destruct (last_id (create_initial_triangles f)) as [j| | |]; cbn [bind erased]; auto.
  apply (fold_erased fuel vs rest (Triangulation.St (create_initial_triangles f) j m)).
Qed.

Lemma mesh_links pos (ts : list tri) : Mesh pos ts -> links_ok ts.
Proof.
  intros M i t k Ht. pose proof (view_exists _ _ _ Ht) as V.
  destruct (view_he _ _ _ _ _ _ _ _ V) as (H1 & H2 & H3).
  assert (K : forall u v n, he ts i u v n -> n = NONE \/ n < lenN ts).
  { intros u v n Hh. destruct (M_glue _ _ M _ _ _ _ Hh) as [(-> & _)|Q]; auto.
    right. destruct Q as (w & y & z & V'). now apply view_lt in V'. }
  destruct k; cbn [tn]; eapply K; eauto.
Qed.
End Erase.

(** ** The entry point *)
Section Api.
Context {E : Env}.
Variables (fuel : nat) (bins : N) (vs : list vertex).
Variables px py : N -> Q.
Hypothesis X : Exact (normalized vs) px py.
Hypothesis XC : ExactC (normalized vs) px py.
Hypothesis Hid : 2 * lenN vs + 2 <= idmax.
(** Steps for the constraints: at most (2 n + 2)^2 + (2 n + 2) per constraint. *)
Hypothesis Hf : ((2 * length vs + 4) * (2 * length vs + 4) <= fuel)%nat.
Notation at_ := (place px py).

Notation clear_segment c := (clear_between at_ (lenN vs) (efrom c) (eto c)).
Notation covered out c := (covers_between at_ out (efrom c) (eto c)).

Lemma norm_len : lenN (normalized vs) = lenN vs /\ length (normalized vs) = length vs.
Proof.
  unfold normalized. pose proof (normalize_length vs) as Ln.
  destruct (normalize_vertices_coordinates vs) as (((nvs, c1), c2), c3). specialize (Ln _ _ _ _ eq_refl).
  unfold lenN. cbn [fst]. now rewrite Ln.
Qed.

(** The triangulation before the constraints. *)
Record Base0 (s : state) (m : list N) (v2t : list N) : Prop := {
  B_wrap : wrap_and_triangulate fuel bins (normalized vs) (Some (rangeN 0 (length vs))) = Ret s;
  B_map : s_map s = Some m;
  B_index : index_triangles (repeat 0 (length (normalized vs))) 0 (s_ts s) = Ret v2t;
  B_inv : CInv (normalized vs) px py (fun _ _ => False) (CSt (s_ts s) v2t []);
  B_mapped : mapped m (s_ts s);
  B_len : lenN m = lenN vs;
  B_same : forall v w, nthN m v = Some w -> samepos px py w v;
  B_corner : forall w, hascorner (s_ts s) w -> is_finite w = true -> w < lenN vs;
  B_size : (length (s_ts s) <= 2 * length vs + 2)%nat
}.

Lemma base_total order : 3 <= lenN vs -> bin_sort bins (normalized vs) = Ret order ->
  (exists s m v2t, Base0 s m v2t) \/
  (exists v, v < lenN vs /\
     wrap_and_triangulate fuel bins (normalized vs) (Some (rangeN 0 (length vs))) = Fail (ErrPlacementNotFound v)).
Proof.
  intros H3 Hb. destruct norm_len as (LN' & LN).
  assert (Hf' : (4 * length vs + 12 <= fuel)%nat) by (unfold lenN in H3; nia).
  pose proof (wrap_post (normalized vs) px py X fuel bins _ order Hb (or_intror eq_refl)) as Wp.
  rewrite LN in Wp.
  destruct (wrap_and_triangulate fuel bins (normalized vs) (Some (rangeN 0 (length vs)))) as [s|e| |] eqn:W; cbn [post] in Wp;
    [|right; destruct Wp as (v & Hv & ->); [lia|lia|lia|]; exists v; split; auto; lia|exfalso; apply Wp; lia|exfalso; apply Wp; lia].
  left. destruct Wp as (done & Hd & Ld & DI); [lia|lia|lia|].
  destruct (wrap_mapping fuel bins (normalized vs) s) as (m & SM & _); [exact (X_len _ _ _ X)|rewrite LN; exact W|].
  destruct DI as [A B C D1 R Mp]. destruct (Mp m SM) as (Lm & Hm & _).
  destruct (index_ok (normalized vs) px py (s_ts s) A) as (v2t & Ix & V).
  exists s, m, v2t. constructor; auto.
  - constructor; auto; contradiction.
  - intros v w Hv. pose proof (nthN_lt _ _ _ Hv) as Lv. rewrite Lm, LN' in Lv.
    destruct (Hm v) as (w' & Q & Cw & Fw & _); [apply Hd; lia|lia|]. rewrite Hv in Q. injection Q as <-. auto.
  - lia.
  - intros v w Hv. pose proof (nthN_lt _ _ _ Hv) as Lv. rewrite Lm, LN' in Lv.
    destruct (Hm v) as (w' & Q & Cw & Fw & Sp); [apply Hd; lia|lia|]. rewrite Hv in Q. injection Q as <-. auto.
  - intros w Hw Fw. rewrite <- LN'. apply Hd, D1; auto.
  - rewrite Ld, LN' in C. unfold lenN in C. lia.
Qed.

Lemma cdt_unfold s m v2t cs : 3 <= lenN vs -> Base0 s m v2t ->
  constrained_triangulation_from_2d_vertices fuel bins vs cs =
  let* s' := foldM (apply_constraint fuel (normalized vs) m) cs (CSt (s_ts s) v2t []) in
  cdt_filter_triangles fuel (c_ts s') (c_set s').
Proof.
  intros H3 [A B C _ _ _ _ _ _]. unfold constrained_triangulation_from_2d_vertices, normalized in *.
  rewrite (proj2 (N.ltb_ge _ _) H3).
  destruct (normalize_vertices_coordinates vs) as (((nvs, c1), c2), c3). cbn [fst] in *.
  rewrite A. cbn [bind]. rewrite B. unfold apply_constraints. rewrite C. cbn [bind].
  destruct (foldM _ cs _); reflexivity.
Qed.

Lemma filter_ret s m v2t cs s' : Base0 s m v2t ->
  foldM (apply_constraint fuel (normalized vs) m) cs (CSt (s_ts s) v2t []) = Ret s' ->
  exists out, cdt_filter_triangles fuel (c_ts s') (c_set s') = Ret out.
Proof.
  intros [_ _ _ C0 Mp _ _ _ Sz] Fo.
  destruct (fold_sound (normalized vs) px py X XC m fuel _ _ _ _ C0 Mp (fun _ _ _ _ _ _ _ A => match A with end) Fo)
    as (C1 & _ & L1 & _). cbn [c_ts] in L1.
  apply (cdt_filter_terminates fuel (c_ts s') (c_set s')).
  - unfold lenN in L1. nia.
  - exact (mesh_links _ _ (I_mesh _ _ _ _ (C_inv _ _ _ _ _ C1))).
Qed.

(** The place of a point of the mesh's segment. *)
Lemma onseg_place a b s : is_finite a = true -> is_finite b = true ->
  peq (onseg px py a b (1 - s) s) (P3 (fst (along (at_ a) (at_ b) s)) (snd (along (at_ a) (at_ b) s)) 1).
Proof.
  intros Fa Fb. unfold onseg. rewrite (hpos_fin px py a Fa), (hpos_fin px py b Fb).
  unfold along, place; cbn [fst snd]. split; [|split]; cbn [hx hy hw padd pscale]; ring.
Qed.

Lemma clear_no_vertex s m v2t c a b : Base0 s m v2t -> map_edge m c = Some (Edge a b) -> clear_segment c ->
  no_vertex px py a b (s_ts s).
Proof.
  intros [_ _ _ _ Mp _ Sp Cn _] Hm Cl w s0 t0 Hw Fw Hs Ht P.
  apply map_edge_inv in Hm. destruct Hm as (Ha & Hb).
  destruct (Mp _ _ Ha) as (_ & Fa). destruct (Mp _ _ Hb) as (_ & Fb).
  destruct (Sp _ _ Ha) as (A1 & A2). destruct (Sp _ _ Hb) as (B1 & B2).
  unfold onseg in P. rewrite (hpos_fin px py w Fw), (hpos_fin px py a Fa), (hpos_fin px py b Fb) in P.
  destruct P as (P1 & P2 & P3). cbn [hx hy hw padd pscale] in *.
  apply (Cl w t0); [now apply Cn|lra|].
  unfold along, place; cbn [fst snd]. split; cbn [fst snd].
  - rewrite P1, <- A1, <- B1. assert (Q : (s0 == 1 - t0)%Q) by lra. rewrite Q. ring.
  - rewrite P2, <- A2, <- B2. assert (Q : (s0 == 1 - t0)%Q) by lra. rewrite Q. ring.
Qed.

Lemma covered_segcov s m v2t c a b : Base0 s m v2t -> map_edge m c = Some (Edge a b) ->
  covered (filter_triangles (s_ts s)) c -> segcov px py a b (s_ts s).
Proof.
  intros [_ _ _ _ Mp _ Sp _ _] Hm Cv s0 t0 Hs Ht.
  apply map_edge_inv in Hm. destruct Hm as (Ha & Hb).
  destruct (Mp _ _ Ha) as (_ & Fa). destruct (Mp _ _ Hb) as (_ & Fb).
  destruct (Sp _ _ Ha) as (A1 & A2). destruct (Sp _ _ Hb) as (B1 & B2).
  assert (Hst : (~ s0 + t0 == 0)%Q) by lra.
  set (r := (t0 / (s0 + t0))%Q).
  assert (Er : (r * (s0 + t0) == t0)%Q) by (unfold r; field; auto).
  assert (Hr : (0 < r < 1)%Q) by (split; nra).
  destruct (Cv r Hr) as (((x, y), z) & Ht' & G1 & G2 & G3).
  destruct (out_inv _ _ _ _ Ht') as (i & n1 & n2 & n3 & V & Fx & Fy & Fz).
  exists i, x, y, z, n1, n2, n3. split; auto. split; auto. split; auto. split; auto.
  assert (K : forall u v, is_finite u = true -> is_finite v = true ->
    (orient (at_ u) (at_ v) (along (at_ (efrom c)) (at_ (eto c)) r) <= 0)%Q ->
    (det (hpos px py u) (hpos px py v) (onseg px py a b s0 t0) <= 0)%Q).
  { intros u v Fu Fv G. rewrite (det_onseg px py), !(det_orient px py) by auto.
    rewrite orient_along in G.
    assert (S0 : forall p, same_place p p) by (intros p; split; reflexivity).
    rewrite (orient_same (at_ u) (at_ v) (at_ a) (at_ u) (at_ v) (at_ (efrom c))) by (auto; split; assumption).
    rewrite (orient_same (at_ u) (at_ v) (at_ b) (at_ u) (at_ v) (at_ (eto c))) by (auto; split; assumption).
    assert (Q : (s0 == (1 - r) * (s0 + t0))%Q) by lra.
    set (o1 := orient _ _ (at_ (efrom c))) in *. set (o2 := orient _ _ (at_ (eto c))) in *.
    assert (Q2 : (s0 * o1 + t0 * o2 == ((1 - r) * o1 + r * o2) * (s0 + t0))%Q).
    { rewrite <- Er at 1. rewrite Q at 1. ring. }
    rewrite Q2. nra. }
  split; [|split]; apply K; auto.
Qed.

(** Any list of constraints: the call ends, and can only fail while searching for the edges
    crossed by a constraint with a vertex between its ends. *)
Lemma cdt_outcome cs order : bin_sort bins (normalized vs) = Ret order ->
  (exists out, constrained_triangulation_from_2d_vertices fuel bins vs cs = Ret out) \/
  constrained_triangulation_from_2d_vertices fuel bins vs cs = Panic \/
  (exists v, v < lenN vs /\ constrained_triangulation_from_2d_vertices fuel bins vs cs = Fail (ErrPlacementNotFound v)) \/
  (exists e c, constrained_triangulation_from_2d_vertices fuel bins vs cs = Fail e /\ search_error e /\
     In c cs /\ ~ same_place (at_ (efrom c)) (at_ (eto c)) /\ ~ clear_segment c).
Proof.
  intros Hb. destruct (N.ltb_spec (lenN vs) 3) as [L|H3].
  { left. exists []. unfold constrained_triangulation_from_2d_vertices. now rewrite (proj2 (N.ltb_lt _ _) L). }
  destruct (base_total order H3 Hb) as [(s & m & v2t & B)|(v & Hv & W)].
  2:{ right; right; left. exists v. split; auto. unfold constrained_triangulation_from_2d_vertices, normalized in *.
      rewrite (proj2 (N.ltb_ge _ _) H3). destruct (normalize_vertices_coordinates vs) as (((nvs, c1), c2), c3).
      cbn [fst] in W. now rewrite W. }
  rewrite (cdt_unfold s m v2t cs H3 B).
  assert (Sz : (length (s_ts s) * length (s_ts s) + length (s_ts s) <= fuel)%nat).
  { pose proof (B_size _ _ _ B). nia. }
  destruct (fold_outcome (normalized vs) px py X XC m fuel cs _ (B_inv _ _ _ B) (B_mapped _ _ _ B) Sz)
    as [(s' & Fo)|[Fo|(e & c & a & b & Fo & He & Hc & Hm & Hn & Nv)]].
  - rewrite Fo. cbn [bind]. left. exact (filter_ret s m v2t cs s' B Fo).
  - rewrite Fo. now right; left.
  - rewrite Fo. cbn [bind]. right; right; right. exists e, c. split; auto. split; auto. split; auto. split.
    + intros Sp. apply Hn. pose proof Hm as Hm'. apply map_edge_inv in Hm'. destruct Hm' as (Ha & Hb').
      destruct (B_mapped _ _ _ B _ _ Ha) as (Ca & Fa). destruct (B_mapped _ _ _ B _ _ Hb') as (Cb & Fb).
      pose proof (I_inj _ _ _ _ (C_inv _ _ _ _ _ (B_inv _ _ _ B))) as Ij. cbn [c_ts] in Ij. destruct Ca as (ia & Ca). destruct Cb as (ib & Cb). apply (Ij ia ib a b); auto.
      destruct (B_same _ _ _ B _ _ Ha) as (A1 & A2). destruct (B_same _ _ _ B _ _ Hb') as (B1 & B2).
      destruct Sp as (S1 & S2). cbn [fst snd place] in S1, S2. split; rewrite ?A1, ?A2, ?B1, ?B2; auto.
    + intros Cl. apply Nv. exact (clear_no_vertex s m v2t c a b B Hm Cl).
Qed.

(** Constraints without a vertex between their ends and inside the area triangulated by the
    unconstrained triangulation: the call returns a list. *)
Lemma cdt_returns cs out0 order : bin_sort bins (normalized vs) = Ret order ->
  triangulation_from_2d_vertices fuel bins vs = Ret out0 ->
  (forall c, In c cs -> efrom c < lenN vs /\ eto c < lenN vs /\
     (~ same_place (at_ (efrom c)) (at_ (eto c)) -> clear_segment c /\ covered out0 c)) ->
  exists out, constrained_triangulation_from_2d_vertices fuel bins vs cs = Ret out.
Proof.
  intros Hb H0 Hcs. destruct (N.ltb_spec (lenN vs) 3) as [L|H3].
  { exists []. unfold constrained_triangulation_from_2d_vertices. now rewrite (proj2 (N.ltb_lt _ _) L). }
  apply dt_inv in H0. destruct H0 as [(L & _)|(_ & nvs & c1 & c2 & c3 & s0 & NV & _ & W0 & E0)]; [lia|].
  assert (EN : nvs = normalized vs) by (unfold normalized; now rewrite NV). rewrite EN in *. clear EN NV.
  pose proof (wrap_erased fuel bins (normalized vs) (Some (rangeN 0 (length vs)))) as Er.
  destruct (base_total order H3 Hb) as [(s & m & v2t & B)|(v & Hv & W)].
  2:{ rewrite W in Er. cbn [erased] in Er. congruence. }
  rewrite (B_wrap _ _ _ B) in Er. cbn [erased] in Er. rewrite W0 in Er. apply Ret_inj in Er. subst s0. cbn [erase s_ts] in E0.
  rewrite (cdt_unfold s m v2t cs H3 B).
  assert (Sz : (length (s_ts s) * length (s_ts s) + length (s_ts s) <= fuel)%nat).
  { pose proof (B_size _ _ _ B). nia. }
  destruct (fold_ret (normalized vs) px py X XC m fuel cs _ (B_inv _ _ _ B) (B_mapped _ _ _ B) Sz) as (s' & Fo).
  - intros c Hc. destruct (Hcs c Hc) as (L1 & L2 & Hcc).
    assert (Gm : forall v, v < lenN vs -> exists w, nthN m v = Some w).
    { intros v Hv. destruct (nthN m v) eqn:Q; eauto. apply nthN_None in Q. rewrite (B_len _ _ _ B) in Q. lia. }
    destruct (Gm _ L1) as (a & Ha). destruct (Gm _ L2) as (b & Hb').
    assert (Hm : map_edge m c = Some (Edge a b)) by (apply map_edge_inv; auto).
    exists a, b. split; auto. intros Hne. cbn [c_ts].
    destruct Hcc as (Cl & Cv).
    + intros Sp. apply Hne.
      destruct (B_mapped _ _ _ B _ _ Ha) as (Ca & Fa). destruct (B_mapped _ _ _ B _ _ Hb') as (Cb & Fb).
      pose proof (I_inj _ _ _ _ (C_inv _ _ _ _ _ (B_inv _ _ _ B))) as Ij. cbn [c_ts] in Ij. destruct Ca as (ia & Ca). destruct Cb as (ib & Cb). apply (Ij ia ib a b); auto.
      destruct (B_same _ _ _ B _ _ Ha) as (A1 & A2). destruct (B_same _ _ _ B _ _ Hb') as (B1 & B2).
      destruct Sp as (S1 & S2). cbn [fst snd place] in S1, S2. split; rewrite ?A1, ?A2, ?B1, ?B2; auto.
    + split; [exact (clear_no_vertex s m v2t c a b B Hm Cl)|].
      apply (covered_segcov s m v2t c a b B Hm). now rewrite <- E0.
  - rewrite Fo. cbn [bind]. exact (filter_ret s m v2t cs s' B Fo).
Qed.

End Api.
