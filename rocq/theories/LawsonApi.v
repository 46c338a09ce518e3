(** * LawsonApi: [Lawson.v] in the vocabulary of [Spec.v]. *)

From Coq Require Import ZArith NArith List Bool Lia QArith Lqa Permutation.
From Verif Require Import Base BaseFacts Arith Types Utils Infinite Triangulation Geom Mesh Exact
  AnyDT Walk Insert DTExact Spec DTOut Lifted Lawson GridSpec GridApi InputSpec ApiProps.
Import ListNotations.
Local Open Scope N_scope.

Section WithEnv.
Context {E : Env}.
Variable vs : list vertex.
Variables px py : N -> Q.
Notation pos := (hpos px py).
Notation fin v := (is_finite v = true).
Local Notation at_ := (pair_at px py).

Lemma view_out ts i a b c x y w : view ts i a b c x y w -> fin a -> fin b -> fin c ->
  is_tri (filter_triangles ts) a b c.
Proof.
  intros (t & k & Ht & R) Fa Fb Fc. unfold rot in R. injection R as r1 r2 r3 _ _ _.
  assert (Hin : In (tverts t) (filter_triangles ts)).
  { unfold filter_triangles. apply in_map. apply filter_In. split; [eapply nthN_In; eauto|].
    unfold tri_is_finite. destruct k; simpl in *; subst; now rewrite Fa, Fb, Fc. }
  unfold is_tri, tverts in *. destruct k; simpl in *; subst; auto.
Qed.

Lemma tri3_out ts i a b c : tri3 ts i a b c -> fin a -> fin b -> fin c -> is_tri (filter_triangles ts) a b c.
Proof. intros (x & y & w & V). eapply view_out; eauto. Qed.

Lemma out_tri3 ts a b c : is_tri (filter_triangles ts) a b c ->
  exists i, tri3 ts i a b c /\ fin a /\ fin b /\ fin c.
Proof.
  intros H. destruct (is_tri_view _ _ _ _ H) as (i & x & y & w & V & F). exists i. split; auto.
  do 3 eexists; eauto.
Qed.

Lemma ldel_out ts : all_ldel px py ts <-> locally_delaunay at_ (filter_triangles ts).
Proof.
  split.
  - intros AL a b c d T T'. destruct (out_tri3 _ _ _ _ T) as (i & Ti & Fa & Fb & Fc).
    destruct (out_tri3 _ _ _ _ T') as (j & Tj & _ & _ & Fd).
    apply (ldel_circle px py a b c d). eapply AL; eauto.
  - intros LD i j a b c d Ti Tj Fa Fb Fc Fd. apply ldel_circle.
    apply LD; eapply tri3_out; eauto.
Qed.

Lemma side_le a b x y : fin a -> fin b ->
  (det (pos a) (pos b) (P3 x y 1) <= 0)%Q <-> (orient (at_ a) (at_ b) (x, y) <= 0)%Q.
Proof.
  intros A B. pose proof (det_orient_p px py a b (x, y) A B) as Q. cbn [fst snd] in Q.
  split; intros H; [eapply Qle_trans; [|exact H]|eapply Qle_trans; [|exact H]];
    apply Qle_lteq; right; [symmetry; exact Q|exact Q].
Qed.

Lemma reg_out ts x y : reg px py ts (P3 x y 1) <-> covered at_ (filter_triangles ts) (x, y).
Proof.
  split.
  - intros (i & a & b & c & T & Fa & Fb & Fc & Hp).
    assert (K : inside_or_on (at_ a) (at_ b) (at_ c) (x, y)).
    { destruct Hp as (H1 & H2 & H3). repeat split; apply side_le; auto. }
    destruct K as (K1 & K2 & K3).
    destruct (tri3_out _ _ _ _ _ T Fa Fb Fc) as [H|[H|H]]; (eexists; split; [exact H|]);
      repeat split; assumption.
  - intros (((a, b), c) & Hin & (H1 & H2 & H3)).
    destruct (out_inv _ _ _ _ Hin) as (i & u & v & w & V & Fa & Fb & Fc).
    exists i, a, b, c. split; [do 3 eexists; eauto|]. repeat split; auto;
      apply side_le; assumption.
Qed.

Lemma inner_out ts P : inner px py ts P <-> surrounded at_ (filter_triangles ts) (at_ P).
Proof.
  split; intros (r & Hr & K); exists r; (split; [exact Hr|]).
  - intros (x, y) H1 H2. apply reg_out. now apply K.
  - intros x y H1 H2. apply reg_out. now apply (K (x, y)).
Qed.

(** ** Several insertions *)
Section Exact.
Hypothesis X : Exact vs px py.

Lemma step_inv fuel done s P s' :
  DInv vs px py done s -> P < lenN vs -> ~ In P done -> lenN (s_ts s) + 2 <= idmax ->
  (2 * length (s_ts s) + 8 <= fuel)%nat ->
  insert_vertex fuel vs s P = Ret s' ->
  DInv vs px py (P :: done) s' /\ (forall p, reg px py (s_ts s) p -> reg px py (s_ts s') p) /\
  (placed px py (s_ts s) P -> forall p, reg px py (s_ts s') p -> reg px py (s_ts s) p) /\
  (placed px py (s_ts s) P -> all_ldel px py (s_ts s) -> all_ldel px py (s_ts s')).
Proof.
  intros DI HP Nd Hmax Hf H.
  pose proof (insert_post vs px py X fuel done s P DI HP Nd Hmax Hf) as Ip. rewrite H in Ip. cbn [post] in Ip.
  destruct Ip as (DI' & K). split; auto. split; [|split].
  - intros p. exact (insert_area vs px py X fuel done s P s' p DI HP Nd Hmax H).
  - intros In_ p. exact (insert_same_area vs px py X fuel done s P s' p DI HP Nd Hmax H In_).
  - intros In_ AL. apply (insert_ldel vs px py X fuel done s P s'); auto.
    + exact (V_inv _ _ _ _ _ DI').
    + destruct K as [(-> & _)|(_ & _ & Lg)]; auto.
Qed.

Lemma fold_inv fuel : forall l done s s',
  DInv vs px py done s -> NoDup l -> (forall v, In v l -> v < lenN vs /\ ~ In v done) ->
  2 * (lenN l + lenN done) + 2 <= idmax -> (4 * (length l + length done) + 12 <= fuel)%nat ->
  foldM (insert_vertex fuel vs) l s = Ret s' ->
  (forall p, reg px py (s_ts s) p -> reg px py (s_ts s') p) /\
  ((forall v, In v l -> inner px py (s_ts s) v) ->
   (forall p, reg px py (s_ts s') p -> reg px py (s_ts s) p) /\
   (all_ldel px py (s_ts s) -> all_ldel px py (s_ts s'))).
Proof.
  induction l as [|v l IH]; intros done s s' DI Nd Hl Hid Hf H.
  - simpl in H. injection H as <-. auto.
  - cbn [foldM] in H. inversion Nd as [|? ? Ni Nd']; subst.
    rewrite lenN_cons in Hid. simpl length in Hf.
    pose proof (V_len _ _ _ _ _ DI) as VL.
    destruct (insert_vertex fuel vs s v) as [s1| | |] eqn:Hi; try discriminate. cbn [bind] in H.
    destruct (step_inv fuel done s v s1 DI) as (DI1 & A1 & S1 & B1); auto.
    { apply Hl. now left. }
    { apply Hl. now left. }
    { lia. }
    { unfold lenN in VL. lia. }
    destruct (IH (v :: done) s1 s' DI1) as (A2 & B2); auto.
    { intros w Hw. split; [apply Hl; now right|]. intros [<-|K]; [contradiction|]. apply (proj2 (Hl w (or_intror Hw)) K). }
    { rewrite lenN_cons. lia. }
    { simpl length. lia. }
    split; [auto|]. intros Hin. destruct B2 as (S2 & B2).
    { intros w Hw. destruct (Hin w (or_intror Hw)) as (r & Hr & K). exists r. split; auto. }
    pose proof (or_introl (Hin v (or_introl eq_refl)) : placed px py (s_ts s) v) as Iv. split; auto.
Qed.

Lemma insert_more fuel m first l1 l2 s s' :
  2 * lenN vs + 2 <= idmax -> (4 * length vs + 12 <= fuel)%nat -> start_map vs m ->
  NoDup (first :: l1 ++ l2) -> (forall v, In v (first :: l1 ++ l2) -> v < lenN vs) ->
  inserted fuel vs m first l1 s -> foldM (insert_vertex fuel vs) l2 s = Ret s' ->
  (forall p, covered at_ (filter_triangles (s_ts s)) p -> covered at_ (filter_triangles (s_ts s')) p) /\
  ((forall v, In v l2 -> surrounded at_ (filter_triangles (s_ts s)) (at_ v)) ->
   (forall p, covered at_ (filter_triangles (s_ts s')) p -> covered at_ (filter_triangles (s_ts s)) p) /\
   (locally_delaunay at_ (filter_triangles (s_ts s)) -> locally_delaunay at_ (filter_triangles (s_ts s')))).
Proof.
  intros Hid Hf Hm Nd Hl H1 H2.
  pose proof (order_len vs _ Nd Hl) as Hlen.
  cbn [length] in Hlen. rewrite app_length in Hlen.
  assert (D0 : DInv vs px py [first] (St (create_initial_triangles first) 3 m)).
  { apply initial_inv; auto; [apply Hl; now left|unfold lenN in Hid; lia|].
    intros m' Q. destruct Hm as [-> | ->]; congruence. }
  assert (Nf : ~ In first (l1 ++ l2)) by (now inversion Nd).
  assert (Nd2 : NoDup (l1 ++ l2)) by (now inversion Nd).
  assert (Sp : forall (a b : list N), NoDup (a ++ b) -> NoDup a /\ NoDup b /\ forall v, In v b -> ~ In v a).
  { clear. induction a as [|x a IH]; simpl; intros b H; [repeat split; auto; constructor|].
    inversion H as [|? ? H1 H2]; subst. destruct (IH b H2) as (A & B & C). rewrite in_app_iff in H1.
    repeat split; auto; [constructor; tauto|]. intros v Hv [->|Ha]; [tauto|exact (C v Hv Ha)]. }
  destruct (Sp _ _ Nd2) as (Na & Nb & Nab). rewrite in_app_iff in Nf.
  assert (Nd3 : NoDup (l1 ++ [first])).
  { apply (Permutation_NoDup (l := first :: l1)); [apply Permutation_cons_append|constructor; tauto]. }
  pose proof (fold_post vs px py X fuel l1 [first] _ D0 Nd3) as Fp.
  unfold inserted in H1. rewrite H1 in Fp. cbn [post] in Fp.
  destruct Fp as (done & Hd & Ld & DI).
  { intros v Hv. apply Hl. right. apply in_or_app. now left. }
  { unfold lenN in *. cbn [length]. lia. }
  { cbn [length]. lia. }
  assert (Lc : lenN [first] = 1) by reflexivity. rewrite Lc in Ld.
  destruct (fold_inv fuel l2 done s s' DI) as (A & B); auto.
  { intros v Hv. split; [apply Hl; right; apply in_or_app; now right|]. rewrite Hd.
    intros [K|[->|[]]]; [exact (Nab v Hv K)|tauto]. }
  { unfold lenN in *. lia. }
  { unfold lenN in *. lia. }
  split.
  - intros (x, y). rewrite <- !reg_out. apply A.
  - intros Hin. destruct B as (S & B); [intros v Hv; apply inner_out; auto|]. split.
    + intros (x, y). rewrite <- !reg_out. apply S.
    + intros LD. apply ldel_out, B. now apply ldel_out.
Qed.

End Exact.
End WithEnv.
