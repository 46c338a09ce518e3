(** * DTOut: from the invariant of the loop to the returned triangle list. *)

From Coq Require Import NArith List Bool Lia QArith Lqa Permutation.
From Verif Require Import Base BaseFacts Arith Types Utils Infinite Triangulation Geom Mesh
  MeshOps Exact AnyDT MeshVerts Walk Insert DTExact Spec.
Import ListNotations.
Local Open Scope N_scope.

(** ** Pairs of list elements *)

Lemma fop_of_index {A} (R : A -> A -> Prop) l :
  (forall i j x y, i <> j -> nthN l i = Some x -> nthN l j = Some y -> R x y) -> ForallOrdPairs R l.
Proof.
  induction l as [|x l IH]; intros H; constructor.
  - apply Forall_forall. intros y Hy. apply In_nthN in Hy. destruct Hy as (j & Hj).
    apply (H 0 (N.succ j)); [lia|reflexivity|]. simpl.
    destruct (N.eqb_spec (N.succ j) 0); [lia|]. now rewrite N.pred_succ.
  - apply IH. intros i j a b Hne Hi Hj. apply (H (N.succ i) (N.succ j)); [lia| |];
      simpl; rewrite (proj2 (N.eqb_neq _ _)) by lia; now rewrite N.pred_succ.
Qed.

Lemma fop_filter {A} (R : A -> A -> Prop) f l : ForallOrdPairs R l -> ForallOrdPairs R (filter f l).
Proof.
  induction 1 as [|x l H _ IH]; simpl; [constructor|]. destruct (f x); auto. constructor; auto.
  apply Forall_forall. intros y Hy. apply filter_In in Hy. rewrite Forall_forall in H. now apply H.
Qed.

Lemma fop_map {A B} (R : B -> B -> Prop) (g : A -> B) l :
  ForallOrdPairs (fun x y => R (g x) (g y)) l -> ForallOrdPairs R (map g l).
Proof.
  induction 1 as [|x l H _ IH]; simpl; constructor; auto.
  apply Forall_forall. intros y Hy. apply in_map_iff in Hy. destruct Hy as (a & <- & Ha).
  rewrite Forall_forall in H. now apply H.
Qed.

Lemma fop_impl {A} (R S : A -> A -> Prop) l : (forall x y, In x l -> In y l -> R x y -> S x y) ->
  ForallOrdPairs R l -> ForallOrdPairs S l.
Proof.
  intros HI F. induction F as [|x l H F IH]; constructor.
  - rewrite Forall_forall in *. intros y Hy. apply HI; [now left|now right|now apply H].
  - apply IH. intros; apply HI; auto; now right.
Qed.

Lemma fop_nth {A} (R : A -> A -> Prop) l : (forall x y, R x y -> R y x) ->
  ForallOrdPairs R l -> forall i j x y, i <> j -> nth_error l i = Some x -> nth_error l j = Some y -> R x y.
Proof.
  intros Sy F. induction F as [|a l H F IH]; intros i j x y Hne Hi Hj.
  - destruct i; discriminate.
  - rewrite Forall_forall in H. destruct i as [|i], j as [|j]; simpl in *.
    + congruence.
    + injection Hi as ->. apply H. eapply nth_error_In; eauto.
    + injection Hj as ->. apply Sy, H. eapply nth_error_In; eauto.
    + apply (IH i j); auto.
Qed.

Lemma fop_nodup_flat {A B} (g : A -> list B) l :
  (forall x, In x l -> NoDup (g x)) ->
  ForallOrdPairs (fun x y => forall b, In b (g x) -> In b (g y) -> False) l -> NoDup (flat_map g l).
Proof.
  intros Hg F. induction F as [|x l H F IH]; simpl; [constructor|].
  rewrite Forall_forall in H.
  assert (N1 : NoDup (g x)) by (apply Hg; now left).
  assert (N2 : NoDup (flat_map g l)) by (apply IH; intros; apply Hg; now right).
  assert (Dj : forall b, In b (g x) -> ~ In b (flat_map g l)).
  { intros b Hb Hf. apply in_flat_map in Hf. destruct Hf as (y & Hy & Hb'). exact (H y Hy b Hb Hb'). }
  clear - N1 N2 Dj. induction (g x) as [|b bs IH]; simpl; auto.
  inversion N1; subst. constructor.
  - intros Hin. apply in_app_or in Hin. destruct Hin as [Hin|Hin]; [tauto|].
    apply (Dj b); [now left|auto].
  - apply IH; auto. intros c Hc. apply Dj. now right.
Qed.

(** Elements failing a test are not counted. *)
Lemma cnt_others {A} (f : A -> bool) : forall (l : list A) (ids : list N),
  NoDup ids -> (forall i, In i ids -> exists x, nthN l i = Some x /\ f x = false) ->
  (length (filter f l) + length ids <= length l)%nat.
Proof.
  induction l as [|x l IH]; intros ids Nd H.
  - destruct ids as [|i ids]; [simpl; lia|]. destruct (H i (or_introl eq_refl)) as (y & Hy & _). discriminate.
  - set (ids' := map N.pred (filter (fun i => negb (i =? 0)) ids)).
    assert (Nd' : NoDup ids').
    { unfold ids'. clear - Nd. induction Nd as [|i ids Hi Nd IH]; simpl; [constructor|].
      destruct (N.eqb_spec i 0) as [->|Hne]; simpl; auto. constructor; auto.
      intros Hin. apply in_map_iff in Hin. destruct Hin as (j & Hj & Hin).
      apply filter_In in Hin. destruct Hin as (Hin & Hj0).
      apply negb_true_iff, N.eqb_neq in Hj0. assert (i = j) by lia. congruence. }
    assert (H' : forall i, In i ids' -> exists x, nthN l i = Some x /\ f x = false).
    { intros i Hi. apply in_map_iff in Hi. destruct Hi as (j & <- & Hj). apply filter_In in Hj.
      destruct Hj as (Hj & Hj0). apply negb_true_iff in Hj0.
      destruct (H j Hj) as (y & Hy & Fy). simpl in Hy. rewrite Hj0 in Hy. eauto. }
    specialize (IH ids' Nd' H').
    assert (Hlen : (length ids <= length ids' + (if in_dec N.eq_dec 0%N ids then 1 else 0))%nat).
    { unfold ids'. rewrite map_length. clear - Nd. induction Nd as [|i ids Hi Nd IH]; [simpl; lia|].
      cbn [filter length]. destruct (N.eqb_spec i 0) as [->|Hne]; cbn [negb length].
      - destruct (in_dec N.eq_dec 0 ids); [tauto|].
        destruct (in_dec N.eq_dec 0 (0 :: ids)) as [|K]; [lia|]. exfalso; apply K; now left.
      - destruct (in_dec N.eq_dec 0 ids) as [K|K].
        + destruct (in_dec N.eq_dec 0 (i :: ids)) as [|K']; [lia|]. exfalso; apply K'; now right.
        + destruct (in_dec N.eq_dec 0 (i :: ids)) as [[Q|Q]|_]; [congruence|tauto|lia]. }
    destruct (in_dec N.eq_dec 0 ids) as [K|K].
    + destruct (H 0 K) as (y & Hy & Fy). simpl in Hy. injection Hy as <-. simpl. rewrite Fy. lia.
    + simpl. destruct (f x); simpl; lia.
Qed.

Section WithEnv.
Context {E : Env}.
Variable vs : list vertex.
Variables px py : N -> Q.
Hypothesis X : Exact vs px py.

Notation pos := (hpos px py).
Notation D a b c := (det (pos a) (pos b) (pos c)).
Notation Mesh := (Mesh pos).

Definition place (v : N) : point := (px v, py v).

Lemma det_orient a b c : is_finite a = true -> is_finite b = true -> is_finite c = true ->
  (D a b c == orient (place a) (place b) (place c))%Q.
Proof.
  intros A B C. rewrite (hpos_fin px py a A), (hpos_fin px py b B), (hpos_fin px py c C).
  unfold det, orient, place; simpl. ring.
Qed.

Lemma det_orient_p a b p : is_finite a = true -> is_finite b = true ->
  (det (pos a) (pos b) (P3 (fst p) (snd p) 1) == orient (place a) (place b) p)%Q.
Proof.
  intros A B. rewrite (hpos_fin px py a A), (hpos_fin px py b B).
  unfold det, orient, place; simpl. ring.
Qed.

Lemma tri_fin_parts t : tri_is_finite t = true ->
  is_finite (t_v1 t) = true /\ is_finite (t_v2 t) = true /\ is_finite (t_v3 t) = true.
Proof. unfold tri_is_finite. rewrite !andb_true_iff. tauto. Qed.

Lemma out_inv ts a b c : In (a, b, c) (filter_triangles ts) ->
  exists i x y z, view ts i a b c x y z /\ is_finite a = true /\ is_finite b = true /\ is_finite c = true.
Proof.
  unfold filter_triangles. rewrite in_map_iff. intros (t & Q & Ht). apply filter_In in Ht.
  destruct Ht as (Ht & Ff). apply tri_fin_parts in Ff. apply In_nthN in Ht. destruct Ht as (i & Ht).
  pose proof (view_exists _ _ _ Ht) as V. unfold tverts in Q. injection Q as <- <- <-. eauto 8.
Qed.

Lemma valid_of_inv done ts :
  MInv vs px py ts ->
  (forall w, hascorner ts w -> is_finite w = true -> In w done) ->
  (forall v, In v done -> exists w, hascorner ts w /\ is_finite w = true /\ samepos px py w v) ->
  (forall v, v < lenN vs -> In v done) ->
  valid_mesh place (lenN vs) (filter_triangles ts).
Proof.
  intros [M I J O] Hd Hrep Hall. constructor.
  - intros ((a, b), c) Hin. destruct (out_inv _ _ _ _ Hin) as (i & x & y & z & V & A & B & C).
    simpl. unfold clockwise. rewrite <- det_orient by auto. exact (M_cw _ _ M _ _ _ _ _ _ _ V).
  - intros i j s t p Hne Hs Ht Ps Pt.
    assert (F : ForallOrdPairs (fun s t => tri_inside place s p -> tri_inside place t p -> False) (filter_triangles ts)).
    { unfold filter_triangles. apply fop_map.
      apply (fop_impl (fun s t => in_open (pos (t_v1 s)) (pos (t_v2 s)) (pos (t_v3 s)) (P3 (fst p) (snd p) 1) ->
                                  in_open (pos (t_v1 t)) (pos (t_v2 t)) (pos (t_v3 t)) (P3 (fst p) (snd p) 1) -> False)).
      - intros u v Hu Hv Hr Iu Iv. apply filter_In in Hu, Hv.
        destruct Hu as (_ & Fu). destruct Hv as (_ & Fv). apply tri_fin_parts in Fu, Fv.
        destruct Fu as (? & ? & ?). destruct Fv as (? & ? & ?). simpl in Iu, Iv.
        destruct Iu as (? & ? & ?). destruct Iv as (? & ? & ?).
        apply Hr; repeat split; rewrite det_orient_p; auto.
      - apply fop_filter, fop_of_index. intros k l u v Hkl Hu Hv Iu Iv.
        apply (M_disj _ _ M k l (P3 (fst p) (snd p) 1) Hkl).
        + apply (inT_view _ _ _ _ _ _ _ _ _ _ (view_exists _ _ _ Hu)); auto.
        + apply (inT_view _ _ _ _ _ _ _ _ _ _ (view_exists _ _ _ Hv)); auto. }
    exact (fop_nth _ _ (fun x y H A B => H B A) F i j s t Hne Hs Ht Ps Pt).
  - unfold directed_edges, filter_triangles.
    apply fop_nodup_flat.
    + intros ((a, b), c) Hin. destruct (out_inv _ _ _ _ Hin) as (i & x & y & z & V & _).
      destruct (D_distinct pos _ _ _ (M_cw _ _ M _ _ _ _ _ _ _ V)) as (Q1 & Q2 & Q3). simpl.
      repeat constructor; simpl; intuition congruence.
    + apply fop_map, fop_filter, fop_of_index. intros i j u v Hne Hu Hv (p, q) Hp Hq.
      assert (K : forall k t, nthN ts k = Some t -> In (p, q) (tri_edges (tverts t)) -> exists n, he ts k p q n).
      { intros k t Ht Hin. destruct (view_he _ _ _ _ _ _ _ _ (view_exists _ _ _ Ht)) as (H1 & H2 & H3).
        unfold tverts in Hin. simpl in Hin. destruct Hin as [Q|[Q|[Q|[]]]]; injection Q as <- <-; eauto. }
      destruct (K _ _ Hu Hp) as (n & Hn). destruct (K _ _ Hv Hq) as (n' & Hn').
      apply Hne. exact (edge_share _ _ M _ _ _ _ _ _ Hn Hn').
  - intros ((a, b), c) v Hin Hv Hio. destruct (out_inv _ _ _ _ Hin) as (i & x & y & z & V & A & B & C).
    destruct (Hrep v (Hall v Hv)) as (w & (j & Cw) & Fw & Sp).
    assert (Fv : is_finite v = true).
    { unfold is_finite. apply N.ltb_lt. pose proof (X_len _ _ _ X). lia. }
    simpl in Hio. destruct Hio as (G1 & G2 & G3).
    destruct (vertex_in_closed px py ts i a b c x y z j w M V Cw Fw) as (u & Hu & Fu & Sp').
    { pose proof (det_same px py w v a b Fw Fv Sp). pose proof (det_same px py w v b c Fw Fv Sp).
      pose proof (det_same px py w v c a Fw Fv Sp).
      pose proof (det_orient a b v A B Fv). pose proof (det_orient b c v B C Fv).
      pose proof (det_orient c a v C A Fv).
      repeat split; lra. }
    exists u. split; [exact Hu|]. destruct Sp as (S1 & S2). destruct Sp' as (S3 & S4).
    split; simpl; lra.
  - intros ((a, b), c) ((a', b'), c') u v Hs Ht Hu Hv Sp.
    destruct (out_inv _ _ _ _ Hs) as (i & x & y & z & V & A & B & C).
    destruct (out_inv _ _ _ _ Ht) as (i' & x' & y' & z' & V' & A' & B' & C').
    destruct (view_he _ _ _ _ _ _ _ _ V) as (H1 & H2 & H3).
    destruct (view_he _ _ _ _ _ _ _ _ V') as (H1' & H2' & H3').
    assert (K : corner ts i u /\ is_finite u = true).
    { simpl in Hu. destruct Hu as [-> |[-> | ->]]; (split; [eexists; eexists; eauto|auto]). }
    assert (K' : corner ts i' v /\ is_finite v = true).
    { simpl in Hv. destruct Hv as [-> |[-> | ->]]; (split; [eexists; eexists; eauto|auto]). }
    destruct K as (K1 & K2). destruct K' as (K1' & K2'). exact (J _ _ _ _ K1 K1' K2 K2' Sp).
Qed.

Lemma size_of_inv ts : MInv vs px py ts -> lenN (filter_triangles ts) + 4 <= lenN ts.
Proof.
  intros [M I J ((i0 & H0) & (i1 & H1) & (i2 & H2) & (i3 & H3))].
  destruct (inf_facts vs px py X) as (F0 & F1 & F2 & F3 & L1 & L2 & L3).
  assert (K : forall i u v n, he ts i u v n -> is_finite u = false ->
             exists t, nthN ts i = Some t /\ tri_is_finite t = false).
  { intros i u v n H Fu. apply he_inv in H. destruct H as (t & k & Ht & Eu & _).
    exists t. split; auto. unfold tri_is_finite. destruct k; simpl in Eu; rewrite Eu, Fu, ?andb_false_r; auto. }
  assert (Dif : forall i u v u' v', he ts i u v NONE -> he ts i u' v' NONE ->
      is_finite u = false -> is_finite v = false -> is_finite u' = false -> is_finite v' = false -> u = u').
  { intros i u v u' v' (c & y & z & V) H' Fu Fv Fu' Fv'.
    pose proof (M_cw _ _ M _ _ _ _ _ _ _ V) as C.
    destruct (is_finite c) eqn:Fc.
    - destruct (he_cases _ _ _ _ _ _ _ _ _ _ _ V H') as [(-> & _)|[(-> & -> & _)|(-> & -> & _)]]; auto; congruence.
    - pose proof (three_inf px py _ _ _ Fu Fv Fc). lra. }
  assert (Nd : NoDup [i0; i1; i2; i3]).
  { repeat constructor; simpl; intros Q; decompose [or] Q; try contradiction; subst.
    - assert (INF1 = INF0) by (eapply Dif; eauto). lia.
    - assert (INF2 = INF0) by (eapply Dif; eauto). lia.
    - assert (INF3 = INF0) by (eapply Dif; eauto). lia.
    - assert (INF2 = INF1) by (eapply Dif; eauto). lia.
    - assert (INF3 = INF1) by (eapply Dif; eauto). lia.
    - assert (INF3 = INF2) by (eapply Dif; eauto). lia. }
  pose proof (cnt_others tri_is_finite ts _ Nd) as C.
  unfold filter_triangles, lenN. rewrite map_length.
  assert (Q : (length (filter tri_is_finite ts) + 4 <= length ts)%nat); [apply C|lia].
  simpl. intros i [<-|[<-|[<-|[<-|[]]]]]; eapply K; eauto.
Qed.

(** ** The circle test *)
Lemma circle_incircle a b c d :
  (orient d a b < 0)%Q -> in_circumcircle d a b c ->
  (0 < incircle (fst a) (snd a) (fst b) (snd b) (fst c) (snd c) (fst d) (snd d))%Q.
Proof.
  destruct a as (xa, ya), b as (xb, yb), c as (xc, yc), d as (xd, yd).
  intros O ((ox, oy) & H1 & H2 & H3). unfold orient, sqdist, incircle in *; cbn [fst snd] in *.
  set (R := ((ox - xd) * (ox - xd) + (oy - yd) * (oy - yd))%Q) in *.
  set (La := ((ox - xa) * (ox - xa) + (oy - ya) * (oy - ya))%Q) in *.
  set (Lb := ((ox - xb) * (ox - xb) + (oy - yb) * (oy - yb))%Q) in *.
  set (Lc := ((ox - xc) * (ox - xc) + (oy - yc) * (oy - yc))%Q) in *.
  set (oo := ((xa - xd) * (yb - yd) - (ya - yd) * (xb - xd))%Q) in *.
  match goal with |- (0 < ?X)%Q => set (inc := X) end.
  assert (Id : (inc == (La - R) * ((xb - xd) * (yc - yd) - (yb - yd) * (xc - xd))
                      - (Lb - R) * ((xa - xd) * (yc - yd) - (ya - yd) * (xc - xd))
                      + (Lc - R) * oo)%Q).
  { unfold inc, La, Lb, Lc, R, oo. ring. }
  assert (Ea : (La - R == 0)%Q) by lra. assert (Eb : (Lb - R == 0)%Q) by lra.
  rewrite Ea, Eb in Id. assert (P : (0 < (Lc - R) * oo)%Q) by nra. lra.
Qed.

(** ** One insertion *)
Lemma is_tri_view ts a b c : is_tri (filter_triangles ts) a b c ->
  exists i x y z, view ts i a b c x y z /\ is_finite a = true /\ is_finite b = true /\ is_finite c = true.
Proof.
  intros [H|[H|H]]; destruct (out_inv _ _ _ _ H) as (i & x & y & z & V & A & B & C).
  - eauto 8.
  - exists i, z, x, y. split; [now apply view_rot2|auto].
  - exists i, y, z, x. split; [now apply view_rot|auto].
Qed.

Lemma legal_circle ts P : MInv vs px py ts -> legal_around vs ts P ->
  forall a b c, is_tri (filter_triangles ts) P a b -> is_tri (filter_triangles ts) b a c ->
    ~ in_circumcircle (place P) (place a) (place b) (place c).
Proof.
  intros [M I J O] L a b c T1 T2 Hc.
  destruct (is_tri_view _ _ _ _ T1) as (i & x & y & z & V & FP & Fa & Fb).
  destruct (is_tri_view _ _ _ _ T2) as (j & x' & y' & z' & V' & _ & _ & Fc).
  assert (y = j).
  { destruct (view_he _ _ _ _ _ _ _ _ V) as (_ & H1 & _). destruct (view_he _ _ _ _ _ _ _ _ V') as (H2 & _).
    destruct (M_glue _ _ M _ _ _ _ H1) as [(_ & Q & _)|G].
    - rewrite inf_not_fin, Fa in Q. discriminate.
    - exact (edge_share _ _ M _ _ _ _ _ _ G H2). }
  subst j. pose proof (L _ _ _ _ _ _ _ _ _ _ V V') as S.
  destruct (Ids_view _ _ _ _ _ _ _ _ _ I V) as (VP & Va & Vb).
  destruct (Ids_view _ _ _ _ _ _ _ _ _ I V') as (_ & _ & Vc).
  destruct (get_vertex vs P VP FP) as (pP & GP & NP). destruct (get_vertex vs a Va Fa) as (pa & Ga & Na).
  destruct (get_vertex vs b Vb Fb) as (pb & Gb & Nb). destruct (get_vertex vs c Vc Fc) as (pc & Gc & Nc).
  unfold should_swap_diagonals in S. cbn [q1 q2 q3 q4] in S.
  rewrite inf_not_fin, Fa, Fb, Fc in S. cbn [negb andb] in S. rewrite Ga in S; cbn [bind] in S.
  rewrite Gb in S; cbn [bind] in S. rewrite Gc in S; cbn [bind] in S. rewrite GP in S; cbn [bind] in S.
  injection S as S.
  pose proof (M_cw _ _ M _ _ _ _ _ _ _ V) as C1. pose proof (M_cw _ _ M _ _ _ _ _ _ _ V') as C2.
  pose proof (X_circle _ _ _ X a b c P pa pb pc pP Na Nb Nc NP C1 C2) as Xc.
  rewrite S in Xc. destruct Xc as (_ & Xc).
  assert (K : false = true); [|discriminate]. apply Xc.
  rewrite det_orient in C1 by auto.
  exact (circle_incircle (place a) (place b) (place c) (place P) C1 Hc).
Qed.

Lemma insert_legal fuel first rest P m s s' :
  NoDup (first :: rest ++ [P]) -> (forall v, In v (first :: rest ++ [P]) -> v < lenN vs) ->
  m = None \/ m = Some (rangeN 0 (length vs)) ->
  2 * lenN vs + 2 <= idmax -> (4 * length vs + 12 <= fuel)%nat ->
  foldM (insert_vertex fuel vs) rest (St (create_initial_triangles first) 3 m) = Ret s ->
  insert_vertex fuel vs s P = Ret s' ->
  (s_ts s' = s_ts s /\ exists w, is_finite w = true /\ hascorner (s_ts s) w /\ same_place (place w) (place P)) \/
  (lenN (s_ts s') = lenN (s_ts s) + 2 /\
   forall a b c, is_tri (filter_triangles (s_ts s')) P a b -> is_tri (filter_triangles (s_ts s')) b a c ->
    ~ in_circumcircle (place P) (place a) (place b) (place c)).
Proof.
  intros Nd Hl Hm Hid Hf H1 H2.
  assert (Hlen : (length (first :: rest ++ [P]) <= length vs)%nat).
  { pose proof (NoDup_incl_length Nd (l' := rangeN 0 (length vs))) as K. rewrite length_rangeN in K.
    apply K. intros v Hv. apply In_rangeN. specialize (Hl v Hv). unfold lenN in Hl. lia. }
  cbn [length] in Hlen. rewrite app_length in Hlen. cbn [length] in Hlen.
  assert (D0 : DInv vs px py [first] (St (create_initial_triangles first) 3 m)).
  { apply initial_inv; auto; [apply Hl; now left|unfold lenN in Hid; lia|].
    intros m' Q. destruct Hm as [-> | ->]; congruence. }
  assert (Nd2 : NoDup (rest ++ [first])).
  { inversion Nd as [|? ? K1 K2]; subst. apply (Permutation_NoDup (l := first :: rest)); [apply Permutation_cons_append|].
    constructor; [intros Hin; apply K1; apply in_or_app; now left|]. clear - K2. induction rest as [|r rest IH]; [constructor|]. simpl in K2. inversion K2 as [|? ? K3 K4]; subst.
    constructor; [intros Hin; apply K3, in_or_app; now left|auto]. }
  pose proof (fold_post vs px py X fuel rest [first] _ D0 Nd2) as Fp.
  rewrite H1 in Fp. cbn [post] in Fp.
  destruct Fp as (done & Hd & Ld & DI).
  { intros v Hv. apply Hl. right. apply in_or_app. now left. }
  { unfold lenN in *. cbn [length]. lia. }
  { cbn [length]. lia. }
  assert (HP : P < lenN vs) by (apply Hl; right; apply in_or_app; right; now left).
  assert (NP : ~ In P done).
  { rewrite Hd. intros [Hin|[->|[]]].
    - inversion Nd as [|? ? K1 K2]; subst. clear - K2 Hin. induction rest as [|r rest IH]; [contradiction|].
      simpl in K2. inversion K2 as [|? ? K3 K4]; subst. destruct Hin as [-> |Hin]; [apply K3, in_or_app; right; now left|auto].
    - inversion Nd as [|? ? K1 K2]; subst. apply K1, in_or_app. right; now left. }
  pose proof (V_len _ _ _ _ _ DI) as Lt.
  pose proof (insert_post vs px py X fuel done s P DI HP NP) as Ip. rewrite H2 in Ip. cbn [post] in Ip.
  destruct Ip as (DI' & [(E1 & w & W1 & W2 & W3)|(_ & L2 & Lg)]).
  { unfold lenN in *. cbn [length] in *. lia. }
  { unfold lenN in *. cbn [length] in *. lia. }
  - left. split; auto. exists w. split; [auto|]. split; auto.
  - right. split; auto. apply legal_circle; auto. exact (V_inv _ _ _ _ _ DI').
Qed.

End WithEnv.

(** ** The entry point *)
Section Api.
Context {E : Env}.

(** The vertices the triangulation works on. *)
Definition normalized (vs : list vertex) : list vertex := fst (fst (fst (normalize_vertices_coordinates vs))).

Lemma dt_exact fuel bins (vs : list vertex) px py out :
  Exact (normalized vs) px py -> 2 * lenN vs + 2 <= idmax -> (4 * length vs + 12 <= fuel)%nat ->
  triangulation_from_2d_vertices fuel bins vs = Ret out ->
  valid_mesh (place px py) (lenN vs) out /\ (3 <= lenN vs -> lenN out + 2 <= 2 * lenN vs).
Proof.
  intros X Hid Hf. unfold triangulation_from_2d_vertices.
  destruct (N.ltb_spec (lenN vs) 3) as [H3|H3].
  { intros Q. injection Q as <-. split; [|lia]. constructor; simpl; try contradiction; try constructor.
    intros [|i] j s t p _ Q; discriminate Q. }
  unfold normalized in X. pose proof (normalize_length vs) as Ln.
  destruct (normalize_vertices_coordinates vs) as (((nvs, c1), c2), c3). specialize (Ln _ _ _ _ eq_refl). cbn [fst] in *.
  destruct (wrap_and_triangulate fuel bins nvs None) as [s| | |] eqn:W; try discriminate.
  intros Q. cbn [bind] in Q. injection Q as <-.
  assert (Hb : exists order, bin_sort bins nvs = Ret order).
  { unfold wrap_and_triangulate in W. destruct (bin_sort bins nvs); try discriminate. eauto. }
  destruct Hb as (order & Hb).
  assert (Ln' : lenN nvs = lenN vs) by (unfold lenN; now rewrite Ln).
  pose proof (wrap_post nvs px py X fuel bins None order Hb (or_introl eq_refl)) as Wp.
  rewrite W in Wp. cbn [post] in Wp.
  destruct Wp as (done & Hd & Ld & DI); [lia|lia|lia|].
  destruct DI as [A B C D1 R Mp]. rewrite <- Ln'. split.
  - apply (valid_of_inv nvs px py X done); auto. intros v Hv. now apply Hd.
  - intros _. pose proof (size_of_inv nvs px py X _ A). lia.
Qed.

Lemma dt_total fuel bins (vs : list vertex) px py order :
  Exact (normalized vs) px py -> 2 * lenN vs + 2 <= idmax -> (4 * length vs + 12 <= fuel)%nat ->
  bin_sort bins (normalized vs) = Ret order ->
  (exists out, triangulation_from_2d_vertices fuel bins vs = Ret out) \/
  (exists v, v < lenN vs /\ triangulation_from_2d_vertices fuel bins vs = Fail (ErrPlacementNotFound v)).
Proof.
  intros X Hid Hf Hb. unfold triangulation_from_2d_vertices.
  destruct (N.ltb_spec (lenN vs) 3) as [H3|H3]; [left; eauto|].
  unfold normalized in *. pose proof (normalize_length vs) as Ln.
  destruct (normalize_vertices_coordinates vs) as (((nvs, c1), c2), c3). specialize (Ln _ _ _ _ eq_refl). cbn [fst] in *.
  assert (Ln' : lenN nvs = lenN vs) by (unfold lenN; now rewrite Ln).
  pose proof (wrap_post nvs px py X fuel bins None order Hb (or_introl eq_refl)) as Wp.
  destruct (wrap_and_triangulate fuel bins nvs None) as [s|e| |]; cbn [post bind] in *.
  - left; eauto.
  - destruct Wp as (v & Hv & ->); [lia|lia|lia|]. right. exists v. split; auto. lia.
  - exfalso; apply Wp; lia.
  - exfalso; apply Wp; lia.
Qed.

Lemma wrap_merge fuel bins (vs : list vertex) px py s :
  Exact vs px py -> 1 <= lenN vs -> 2 * lenN vs + 2 <= idmax -> (4 * length vs + 12 <= fuel)%nat ->
  wrap_and_triangulate fuel bins vs (Some (rangeN 0 (length vs))) = Ret s ->
  exists m, s_map s = Some m /\ lenN m = lenN vs /\
    (forall v, v < lenN vs -> exists w, nthN m v = Some w /\ w < lenN vs /\
       (exists t, In t (s_ts s) /\ tri_corner (tverts t) w) /\
       same_place (place px py w) (place px py v)) /\
    (forall s1 t u v, In s1 (s_ts s) -> In t (s_ts s) -> tri_corner (tverts s1) u -> tri_corner (tverts t) v ->
       u < lenN vs -> v < lenN vs -> same_place (place px py u) (place px py v) -> u = v).
Proof.
  intros X H1 Hid Hf W.
  assert (Hb : exists order, bin_sort bins vs = Ret order).
  { unfold wrap_and_triangulate in W. destruct (bin_sort bins vs); try discriminate. eauto. }
  destruct Hb as (order & Hb).
  pose proof (wrap_post vs px py X fuel bins _ order Hb (or_intror eq_refl)) as Wp.
  rewrite W in Wp. cbn [post] in Wp.
  destruct Wp as (done & Hd & Ld & DI); [lia|lia|lia|].
  destruct DI as [A B C D1 R Mp].
  destruct (wrap_mapping fuel bins vs s) as (m & Em & _); auto.
  { exact (X_len _ _ _ X). }
  destruct (Mp m Em) as (L & Ha & _). exists m. split; auto. split; auto. split.
  - intros v Hv. destruct (Ha v (proj2 (Hd v) Hv) Hv) as (w & N1 & (j & Hc) & Fw & Sp).
    exists w. split; auto. split; [apply Hd, D1; auto; now exists j|]. split; [|exact Sp].
    destruct (corner_inv _ _ _ Hc) as (t & k & Ht & Hk). exists t. split.
    + eapply nthN_In; eauto.
    + destruct k; simpl in Hk; simpl; intuition congruence.
  - destruct A as [M I J O].
    assert (K : forall t u, In t (s_ts s) -> tri_corner (tverts t) u -> exists i, corner (s_ts s) i u).
    { intros t u Ht Hu. apply In_nthN in Ht. destruct Ht as (i & Ht). exists i.
      destruct (view_he _ _ _ _ _ _ _ _ (view_exists _ _ _ Ht)) as (h1 & h2 & h3).
      simpl in Hu. destruct Hu as [->|[->| ->]]; eexists; eexists; eauto. }
    intros s1 t u v Hs Ht Hu Hv Lu Lv Sp.
    destruct (K _ _ Hs Hu) as (i & Ci). destruct (K _ _ Ht Hv) as (j & Cj).
    apply (J i j u v Ci Cj); auto; unfold is_finite; apply N.ltb_lt; pose proof (X_len _ _ _ X); lia.
Qed.

End Api.
