(** * ApiProps: the exact-predicate lemmas restated in the vocabulary of [Spec.v]. *)

From Coq Require Import ZArith NArith List Bool Lia QArith Lqa Permutation.
From Verif Require Import Base BaseFacts Arith Types Utils Infinite Triangulation Geom Mesh Exact ExactC
  AnyDT Walk Insert DTExact Spec DTOut Rep Norm GridSpec GridNum GridApi.
Import ListNotations.
Local Open Scope N_scope.

Section WithEnv.
Context {E : Env}.

Lemma turn_places a b c : (turn (Place a) (Place b) (Place c) == orient a b c)%Q.
Proof. unfold turn, orient; simpl. ring. Qed.

Lemma turn_det px py a b c :
  (turn (site_at (place px py) a) (site_at (place px py) b) (site_at (place px py) c)
   == det (hpos px py a) (hpos px py b) (hpos px py c))%Q.
Proof.
  assert (H : forall v, homogeneous (site_at (place px py) v)
            = (hx (hpos px py v), hy (hpos px py v), hw (hpos px py v))).
  { intros v. unfold site_at, hpos, is_finite, INF0, INF1, INF2.
    destruct (v <? idmax - 3); [reflexivity|]. destruct (v =? idmax - 3); [reflexivity|].
    destruct (v =? idmax - 2); [reflexivity|]. destruct (v =? idmax - 1); reflexivity. }
  unfold turn. rewrite !H. unfold det. ring.
Qed.

(** The state of the insertion loop after the vertices [first :: rest] (in this order). *)
Definition inserted (fuel : nat) (nvs : list vertex) (m : option (list N)) (first : N)
    (rest : list N) (s : state) : Prop :=
  foldM (insert_vertex fuel nvs) rest (St (create_initial_triangles first) 3 m) = Ret s.

Definition start_map (nvs : list vertex) (m : option (list N)) : Prop :=
  m = None \/ m = Some (rangeN 0 (length nvs)).

Lemma order_len (nvs : list vertex) l : NoDup l -> (forall v, In v l -> v < lenN nvs) -> (length l <= length nvs)%nat.
Proof.
  intros Nd Hl. pose proof (NoDup_incl_length Nd (l' := rangeN 0 (length nvs))) as K. rewrite length_rangeN in K.
  apply K. intros v Hv. apply In_rangeN. specialize (Hl v Hv). unfold lenN in Hl. lia.
Qed.

Lemma inserted_inv_len nvs px py fuel m first rest s :
  Exact nvs px py -> 2 * lenN nvs + 2 <= idmax -> (4 * length nvs + 12 <= fuel)%nat ->
  start_map nvs m -> NoDup (first :: rest) -> (forall v, In v (first :: rest) -> v < lenN nvs) ->
  inserted fuel nvs m first rest s ->
  exists done, (forall v, In v done <-> In v (first :: rest)) /\ lenN done = lenN (first :: rest) /\
    DInv nvs px py done s.
Proof.
  intros X Hid Hf Hm Nd Hl H. pose proof (order_len nvs _ Nd Hl) as Hlen. cbn [length] in Hlen.
  assert (D0 : DInv nvs px py [first] (St (create_initial_triangles first) 3 m)).
  { apply initial_inv; auto; [apply Hl; now left|unfold lenN in Hid; lia|].
    intros m' Q. destruct Hm as [-> | ->]; congruence. }
  assert (Nd2 : NoDup (rest ++ [first])).
  { apply (Permutation_NoDup (l := first :: rest)); [apply Permutation_cons_append|auto]. }
  pose proof (fold_post nvs px py X fuel rest [first] _ D0 Nd2) as Fp.
  unfold inserted in H. rewrite H in Fp. cbn [post] in Fp.
  destruct Fp as (done & Hd & Ld & DI).
  { intros v Hv. apply Hl. now right. }
  { unfold lenN in *. cbn [length]. lia. }
  { cbn [length]. lia. }
  exists done. split; [intros v; rewrite Hd; simpl; tauto|]. split; auto.
  rewrite Ld, !lenN_cons. change (lenN (@nil N)) with 0. lia.
Qed.

Lemma inserted_inv nvs px py fuel m first rest s :
  Exact nvs px py -> 2 * lenN nvs + 2 <= idmax -> (4 * length nvs + 12 <= fuel)%nat ->
  start_map nvs m -> NoDup (first :: rest) -> (forall v, In v (first :: rest) -> v < lenN nvs) ->
  inserted fuel nvs m first rest s ->
  exists done, (forall v, In v done <-> In v (first :: rest)) /\ DInv nvs px py done s.
Proof.
  intros X Hid Hf Hm Nd Hl H.
  destruct (inserted_inv_len nvs px py fuel m first rest s X Hid Hf Hm Nd Hl H) as (done & A & _ & B). eauto.
Qed.

(** ** C13: point location *)
Definition located (at_ : N -> point) (ts : list tri) (P : N) (pl : placement) : Prop :=
  match pl with
  | InsideTriangle i => exists t, nthN ts i = Some t /\ forall k,
      (turn (site_at at_ (tv t k)) (site_at at_ (tv t (next_cw k))) (Place (at_ P)) < 0)%Q
  | OnTriangleEdge i k e => exists t, nthN ts i = Some t /\ e = Edge (tv t k) (tv t (next_cw k)) /\
      (turn (site_at at_ (tv t k)) (site_at at_ (tv t (next_cw k))) (Place (at_ P)) == 0)%Q /\
      forall j, (turn (site_at at_ (tv t j)) (site_at at_ (tv t (next_cw j))) (Place (at_ P)) <= 0)%Q
  | NotFound => True
  end.

Lemma site_fin px py v : is_finite v = true -> site_at (place px py) v = Place (place px py v).
Proof. intros H. unfold site_at. unfold is_finite, INF0 in H. now rewrite H. Qed.

Lemma locate nvs px py ts P p from :
  Exact nvs px py -> Mesh (hpos px py) ts -> Ids nvs ts -> nthN nvs P = Some p -> from < lenN ts ->
  exists pl, find_vertex_placement p from ts nvs = Ret pl /\ located (place px py) ts P pl.
Proof.
  intros X M I Hp Hfrom. pose proof (find_post nvs px py X ts P p from M I Hp Hfrom) as F.
  assert (FP : is_finite P = true) by (eapply index_finite; eauto).
  destruct (find_vertex_placement p from ts nvs) as [pl| | |]; cbn [post] in F; try contradiction.
  exists pl. split; auto. destruct pl as [i|i k e|]; cbn [located location_ok] in *; auto.
  - destruct F as (a & b & c & x & y & z & V & O). destruct (view_nth _ _ _ _ _ _ _ _ V) as (t & Ht).
    exists t. split; auto. intros k. rewrite <- (site_fin px py P FP), turn_det.
    destruct V as (t' & k' & Ht' & Er). assert (t' = t) by congruence. subst t'.
    destruct O as (O1 & O2 & O3). destruct t, k', k; unfold rot in Er; simpl in Er; injection Er; intros; subst; simpl; auto.
  - destruct F as (t & Ht & -> & A & B & C). exists t. split; auto. split; [destruct k; reflexivity|].
    rewrite <- (site_fin px py P FP), turn_det. split; auto. intros j. rewrite turn_det.
    destruct k, j; cbn [next_cw next_ccw] in *; lra.
Qed.
End WithEnv.
