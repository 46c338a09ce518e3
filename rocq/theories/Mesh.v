(** * Mesh: what it means for a triangle array to be a planar triangulation, and the
    general lemma on local re-triangulations.

    Everything is relative to a position [pos : N -> pt3] of every vertex id (ordinary
    points for input vertices, directions for the four infinite ids). *)

From Coq Require Import NArith List Bool Lia QArith Lqa.
From Verif Require Import Base BaseFacts Arith Types Geom.
Import ListNotations.
Local Open Scope N_scope.

(** ** Triangles up to rotation *)

Definition rot (t : tri) (k : tidx) : tri :=
  Tri (tv t k) (tv t (next_cw k)) (tv t (next_ccw k))
      (tn t k) (tn t (next_cw k)) (tn t (next_ccw k)).

(** Triangle number [i], read from some corner: corners a, b, c in the stored cyclic
    order, and the neighbors x, y, z across ab, bc, ca. *)
Definition view (ts : list tri) (i a b c x y z : N) : Prop :=
  exists t k, nthN ts i = Some t /\ rot t k = Tri a b c x y z.

(** Triangle [i] has the directed edge (u, v), with neighbor [n] across it. *)
Definition he (ts : list tri) (i u v n : N) : Prop :=
  exists c y z, view ts i u v c n y z.

Lemma rot_I1 t : rot t I1 = t.
Proof. now destruct t. Qed.

Lemma view_at ts i t k :
  nthN ts i = Some t ->
  view ts i (tv t k) (tv t (next_cw k)) (tv t (next_ccw k))
            (tn t k) (tn t (next_cw k)) (tn t (next_ccw k)).
Proof. intros H; exists t, k; auto. Qed.

Lemma view_rot ts i a b c x y z : view ts i a b c x y z -> view ts i b c a y z x.
Proof.
  intros (t & k & H & E). exists t, (next_cw k). split; auto.
  destruct t, k; unfold rot in *; simpl in *; congruence.
Qed.

Lemma view_rot2 ts i a b c x y z : view ts i a b c x y z -> view ts i c a b z x y.
Proof. intros; now do 2 apply view_rot. Qed.

Lemma view_fun ts i a b c x y z a' b' c' x' y' z' :
  view ts i a b c x y z -> view ts i a' b' c' x' y' z' ->
  (a' = a /\ b' = b /\ c' = c /\ x' = x /\ y' = y /\ z' = z) \/
  (a' = b /\ b' = c /\ c' = a /\ x' = y /\ y' = z /\ z' = x) \/
  (a' = c /\ b' = a /\ c' = b /\ x' = z /\ y' = x /\ z' = y).
Proof.
  intros (t & k & H & E) (t' & k' & H' & E').
  assert (t' = t) by congruence. subst t'.
  destruct t, k, k'; unfold rot in *; simpl in *;
    injection E; injection E'; intros; subst; tauto.
Qed.

Lemma view_exists ts i t : nthN ts i = Some t ->
  view ts i (t_v1 t) (t_v2 t) (t_v3 t) (t_n12 t) (t_n23 t) (t_n31 t).
Proof. intros H. exists t, I1. split; auto. Qed.

Lemma view_nth ts i a b c x y z :
  view ts i a b c x y z -> exists t, nthN ts i = Some t.
Proof. intros (t & k & H & _); eauto. Qed.

Lemma view_lt ts i a b c x y z : view ts i a b c x y z -> i < lenN ts.
Proof. intros (t & k & H & _). now apply nthN_lt in H. Qed.

Lemma he_at ts i t k : nthN ts i = Some t -> he ts i (tv t k) (tv t (next_cw k)) (tn t k).
Proof. intros H. do 3 eexists. now apply view_at. Qed.

Lemma he_inv ts i u v n : he ts i u v n ->
  exists t k, nthN ts i = Some t /\ tv t k = u /\ tv t (next_cw k) = v /\ tn t k = n.
Proof.
  intros (c & y & z & t & k & H & E). exists t, k. unfold rot in E.
  injection E; intros; subst; auto.
Qed.

Lemma he_lt ts i u v n : he ts i u v n -> i < lenN ts.
Proof. intros (c & y & z & H). now apply view_lt in H. Qed.

Lemma view_he ts i a b c x y z : view ts i a b c x y z ->
  he ts i a b x /\ he ts i b c y /\ he ts i c a z.
Proof.
  intros H. split; [now exists c, y, z|split].
  - exists a, z, x. now apply view_rot.
  - exists b, x, y. now apply view_rot2.
Qed.

Lemma he_cases ts i a b c x y z u v n :
  view ts i a b c x y z -> he ts i u v n ->
  (u = a /\ v = b /\ n = x) \/ (u = b /\ v = c /\ n = y) \/ (u = c /\ v = a /\ n = z).
Proof.
  intros H (c' & y' & z' & H').
  destruct (view_fun _ _ _ _ _ _ _ _ _ _ _ _ _ _ H H') as [?|[?|?]]; tauto.
Qed.

Section WithPos.
Context {E : Env}.
Variable pos : N -> pt3.

Notation D a b c := (det (pos a) (pos b) (pos c)).

(** The open and the closed triangle number [i]. *)
Definition inT (ts : list tri) (i : N) (p : pt3) : Prop :=
  exists a b c x y z, view ts i a b c x y z /\ in_open (pos a) (pos b) (pos c) p.

Definition inC (ts : list tri) (i : N) (p : pt3) : Prop :=
  exists a b c x y z, view ts i a b c x y z /\ in_closed (pos a) (pos b) (pos c) p.

(** A triangulation of the whole plane with the four directions at infinity:
    clockwise triangles, disjoint interiors, consistent neighbor links (a missing
    neighbor only across an edge between two infinite vertices), and no point of the
    plane left out. *)
Record Mesh (ts : list tri) : Prop := {
  M_len : lenN ts <= idmax;
  M_cw : forall i a b c x y z, view ts i a b c x y z -> (D a b c < 0)%Q;
  M_disj : forall i j p, i <> j -> inT ts i p -> inT ts j p -> False;
  M_glue : forall i u v n, he ts i u v n ->
    (n = NONE /\ is_infinite u = true /\ is_infinite v = true) \/ he ts n v u i;
  M_cover : forall p, (0 < hw p)%Q -> exists i, inC ts i p
}.

Lemma inT_view ts i a b c x y z p :
  view ts i a b c x y z -> inT ts i p <-> in_open (pos a) (pos b) (pos c) p.
Proof.
  intros H; split.
  - intros (a' & b' & c' & x' & y' & z' & H' & I).
    destruct (view_fun _ _ _ _ _ _ _ _ _ _ _ _ _ _ H H') as [C|[C|C]];
      destruct C as (-> & -> & -> & -> & -> & ->); auto.
    + now do 2 apply in_open_rot.
    + now apply in_open_rot.
  - intros I. do 6 eexists; eauto.
Qed.

Lemma inC_view ts i a b c x y z p :
  view ts i a b c x y z -> inC ts i p <-> in_closed (pos a) (pos b) (pos c) p.
Proof.
  intros H; split.
  - intros (a' & b' & c' & x' & y' & z' & H' & I).
    destruct (view_fun _ _ _ _ _ _ _ _ _ _ _ _ _ _ H H') as [C|[C|C]];
      destruct C as (-> & -> & -> & -> & -> & ->); auto.
    + now do 2 apply in_closed_rot.
    + now apply in_closed_rot.
  - intros I. do 6 eexists; eauto.
Qed.

Lemma D_distinct a b c : (D a b c < 0)%Q -> a <> b /\ b <> c /\ c <> a.
Proof.
  intros H. repeat split; intros E0; revert H; rewrite E0.
  - pose proof (det_zero (pos b) (pos c)); lra.
  - pose proof (det_zero (pos c) (pos a)); lra.
  - pose proof (det_zero (pos a) (pos b)); lra.
Qed.

Section Derived.
Variable ts : list tri.
Hypothesis M : Mesh ts.

Lemma edge_share i j u v n n' : he ts i u v n -> he ts j u v n' -> i = j.
Proof.
  intros (c & y & z & H) (c' & y' & z' & H').
  destruct (N.eq_dec i j) as [|Hne]; auto. exfalso.
  destruct (same_edge_meet _ _ _ _ (M_cw _ M _ _ _ _ _ _ _ H) (M_cw _ M _ _ _ _ _ _ _ H'))
    as (p & A & B).
  apply (M_disj _ M i j p Hne); [apply (inT_view _ _ _ _ _ _ _ _ _ H) | apply (inT_view _ _ _ _ _ _ _ _ _ H')]; auto.
Qed.

(** Two different sides of a triangle never have the same neighbor. *)
Lemma two_edges i a b c x y z n :
  view ts i a b c x y z -> n <> NONE -> x = n -> y = n -> False.
Proof.
  intros H Hn -> ->.
  destruct (view_he _ _ _ _ _ _ _ _ H) as (E1 & E2 & _).
  destruct (M_glue _ M _ _ _ _ E1) as [(? & _)|G1]; [congruence|].
  destruct (M_glue _ M _ _ _ _ E2) as [(? & _)|G2]; [congruence|].
  destruct (D_distinct _ _ _ (M_cw _ M _ _ _ _ _ _ _ H)) as (N1 & N2 & N3).
  destruct G1 as (d & y' & z' & G1).
  destruct (he_cases _ _ _ _ _ _ _ _ _ _ _ G1 G2) as [(? & ? & ?)|[(? & ? & ?)|(? & ? & ?)]];
    subst; try congruence.
  pose proof (M_cw _ M _ _ _ _ _ _ _ H). pose proof (M_cw _ M _ _ _ _ _ _ _ G1).
  pose proof (det_anti (pos a) (pos b) (pos d)). lra.
Qed.

Lemma two_edges' i u v u' v' n :
  he ts i u v n -> he ts i u' v' n -> n <> NONE -> u = u' /\ v = v'.
Proof.
  intros (c & y & z & H) H' Hn.
  destruct (he_cases _ _ _ _ _ _ _ _ _ _ _ H H') as [(? & ? & ?)|[(? & ? & ?)|(? & ? & ?)]];
    subst; auto; exfalso.
  - now apply (two_edges _ _ _ _ _ _ _ _ H Hn).
  - now apply (two_edges _ _ _ _ _ _ _ _ (view_rot2 _ _ _ _ _ _ _ _ H) Hn).
Qed.

(** A triangle is not its own neighbor. *)
Lemma no_self i u v : he ts i u v i -> i <> NONE -> False.
Proof.
  intros H Hn. destruct (M_glue _ M _ _ _ _ H) as [(? & _)|G]; [congruence|].
  destruct H as (c & y & z & H).
  destruct (D_distinct _ _ _ (M_cw _ M _ _ _ _ _ _ _ H)) as (N1 & N2 & N3).
  destruct (he_cases _ _ _ _ _ _ _ _ _ _ _ H G) as [(? & ? & ?)|[(? & ? & ?)|(? & ? & ?)]];
    subst; congruence.
Qed.

Lemma he_fun i u v n n' : he ts i u v n -> he ts i u v n' -> n = n'.
Proof.
  intros (c & y & z & H) H'.
  destruct (D_distinct _ _ _ (M_cw _ M _ _ _ _ _ _ _ H)) as (N1 & N2 & N3).
  destruct (he_cases _ _ _ _ _ _ _ _ _ _ _ H H') as [(? & ? & ?)|[(? & ? & ?)|(? & ? & ?)]];
    subst; congruence.
Qed.

Lemma he_id i u v n : he ts i u v n -> i < idmax.
Proof. intros H. apply he_lt in H. pose proof (M_len _ M). lia. Qed.

Lemma glue_some i u v n : he ts i u v n -> n <> NONE -> he ts n v u i.
Proof. intros H Hn. destruct (M_glue _ M _ _ _ _ H) as [(? & _)|]; tauto. Qed.

Lemma glue_none i u v : he ts i u v NONE -> is_infinite u = true /\ is_infinite v = true.
Proof.
  intros H. destruct (M_glue _ M _ _ _ _ H) as [(_ & ?)|G]; auto.
  apply he_id in G. unfold NONE in G. lia.
Qed.

(** An open triangle contains no point of another closed triangle. *)
Lemma open_closed_excl i j p : inT ts i p -> inC ts j p -> i = j.
Proof.
  intros (a & b & c & x & y & z & H & I) (a' & b' & c' & x' & y' & z' & H' & I').
  destruct (N.eq_dec i j) as [|Hne]; auto. exfalso.
  destruct (open_closed_meet _ _ _ _ _ _ p (M_cw _ M _ _ _ _ _ _ _ H') I I') as (q & A & B).
  apply (M_disj _ M i j q Hne).
  - now apply (inT_view _ _ _ _ _ _ _ _ _ H).
  - now apply (inT_view _ _ _ _ _ _ _ _ _ H').
Qed.

End Derived.

(** ** Local re-triangulation

    [ts'] is obtained from [ts] by replacing the triangles [R] by the triangles [S]
    (the ids of [R] are reused), the others keeping their corners and having their
    links into [R] redirected. *)
Lemma mesh_replace ts ts' (R S : list N) :
  Mesh ts ->
  lenN ts' <= idmax ->
  (forall r, In r R -> r < lenN ts) ->
  (forall r, In r R -> In r S) ->
  (forall s, In s S -> s < lenN ts -> In s R) ->
  (* the triangles outside S *)
  (forall j t', ~ In j S -> nthN ts' j = Some t' -> exists t, nthN ts j = Some t) ->
  (forall j t, ~ In j S -> nthN ts j = Some t -> exists t', nthN ts' j = Some t' /\
     (forall k, tv t' k = tv t k) /\
     (forall k, (~ In (tn t k) R /\ tn t' k = tn t k) \/
                (In (tn t k) R /\ he ts' (tn t' k) (tv t (next_cw k)) (tv t k) j))) ->
  (* the triangles in S *)
  (forall s, In s S -> exists t, nthN ts' s = Some t) ->
  (forall s a b c x y z, In s S -> view ts' s a b c x y z -> (D a b c < 0)%Q) ->
  (forall s u v n, In s S -> he ts' s u v n ->
     (In n S /\ he ts' n v u s) \/ (exists r, In r R /\ he ts r u v n /\ ~ In n R)) ->
  (forall s s' p, In s S -> In s' S -> s <> s' -> inT ts' s p -> inT ts' s' p -> False) ->
  (forall s p a b c, In s S -> inT ts' s p -> in_open a b c p ->
     exists q r, In r R /\ inT ts r q /\ in_open a b c q) ->
  (forall r p, In r R -> inC ts r p -> exists s, In s S /\ inC ts' s p) ->
  Mesh ts'.
Proof.
  intros M Hlen HR HRS HSR Hout1 Hout2 HS HScw HSglue HSdisj HSsub HScov.
  (* views of the outside triangles *)
  assert (V1 : forall j a b c x' y' z', ~ In j S -> view ts' j a b c x' y' z' ->
             exists x y z, view ts j a b c x y z).
  { intros j a b c x' y' z' Hj (t' & k & Ht' & Er).
    destruct (Hout1 j t' Hj Ht') as (t & Ht).
    destruct (Hout2 j t Hj Ht) as (t2 & Ht2 & Hv & _).
    assert (t2 = t') by congruence. subst t2.
    unfold rot in Er. rewrite !Hv in Er. injection Er; intros; subst.
    do 3 eexists. now apply view_at. }
  assert (V2 : forall j a b c x y z, ~ In j S -> view ts j a b c x y z ->
             exists x' y' z', view ts' j a b c x' y' z').
  { intros j a b c x y z Hj (t & k & Ht & Er).
    destruct (Hout2 j t Hj Ht) as (t' & Ht' & Hv & _).
    unfold rot in Er. injection Er; intros; subst.
    exists (tn t' k), (tn t' (next_cw k)), (tn t' (next_ccw k)).
    rewrite <- !Hv. now apply view_at. }
  assert (Cw : forall i a b c x y z, view ts' i a b c x y z -> (D a b c < 0)%Q).
  { intros i a b c x y z H. destruct (in_dec N.eq_dec i S) as [Hi|Hi]; [eapply HScw; eauto|].
    destruct (V1 _ _ _ _ _ _ _ Hi H) as (x' & y' & z' & H'). exact (M_cw _ M _ _ _ _ _ _ _ H'). }
  assert (T1 : forall j p, ~ In j S -> inT ts' j p -> inT ts j p).
  { intros j p Hj (a & b & c & x & y & z & H & I).
    destruct (V1 _ _ _ _ _ _ _ Hj H) as (x' & y' & z' & H').
    now apply (inT_view _ _ _ _ _ _ _ _ _ H'). }
  assert (Hmix : forall s j p, In s S -> ~ In j S -> inT ts' s p -> inT ts' j p -> False).
  { intros s j p Hs Hj Is Ij. apply T1 in Ij; auto.
    destruct Ij as (a & b & c & x & y & z & H & I).
    destruct (HSsub s p _ _ _ Hs Is I) as (q & r & Hr & Ir & Iq).
    apply (M_disj _ M r j q); auto.
    - intros ->. auto.
    - now apply (inT_view _ _ _ _ _ _ _ _ _ H). }
  assert (Disj : forall i j p, i <> j -> inT ts' i p -> inT ts' j p -> False).
  { intros i j p Hne Hi Hj.
    destruct (in_dec N.eq_dec i S) as [Si|Si], (in_dec N.eq_dec j S) as [Sj|Sj].
    - eapply HSdisj; eauto.
    - exact (Hmix i j p Si Sj Hi Hj).
    - exact (Hmix j i p Sj Si Hj Hi).
    - apply (M_disj _ M i j p Hne); auto. }
  assert (Share : forall i j u v n n', he ts' i u v n -> he ts' j u v n' -> i = j).
  { intros i j u v n n' (c & y & z & H) (c' & y' & z' & H').
    destruct (N.eq_dec i j) as [|Hne]; auto. exfalso.
    destruct (same_edge_meet _ _ _ _ (Cw _ _ _ _ _ _ _ H) (Cw _ _ _ _ _ _ _ H')) as (p & A & B).
    apply (Disj i j p Hne); [apply (inT_view _ _ _ _ _ _ _ _ _ H) | apply (inT_view _ _ _ _ _ _ _ _ _ H')]; auto. }
  assert (NoneR : ~ In NONE R).
  { intros Hr. apply HR in Hr. pose proof (M_len _ M). unfold NONE in Hr. lia. }
  (* old outer half edge -> new half edge *)
  assert (Hhe : forall j u v n, ~ In j S -> he ts j u v n -> exists n', he ts' j u v n' /\
             ((~ In n R /\ n' = n) \/ (In n R /\ he ts' n' v u j))).
  { intros j u v n Hj H. apply he_inv in H. destruct H as (t & k & Ht & <- & <- & <-).
    destruct (Hout2 j t Hj Ht) as (t' & Ht' & Hv & Hl).
    exists (tn t' k). split.
    - rewrite <- !Hv. now apply he_at.
    - destruct (Hl k) as [(A & B)|(A & B)]; auto. }
  constructor; auto.
  - (* glue *)
    intros i u v n H. destruct (in_dec N.eq_dec i S) as [Si|Si].
    + destruct (HSglue i u v n Si H) as [(_ & G)|(r & Hr & G & Hn)]; auto.
      destruct (M_glue _ M _ _ _ _ G) as [C|G']; [now left|right].
      assert (Sn : ~ In n S).
      { intros Sn. apply Hn. apply HSR; auto. now apply he_lt in G'. }
      destruct (Hhe _ _ _ _ Sn G') as (n' & H' & [(C & _)|(_ & C)]); [tauto|].
      assert (n' = i) by (eapply Share; eauto). now subst n'.
    + apply he_inv in H. destruct H as (t' & k & Ht' & Eu & Ev & En).
      destruct (Hout1 i t' Si Ht') as (t & Ht).
      destruct (Hout2 i t Si Ht) as (t2 & Ht2 & Hv & Hl).
      assert (t2 = t') by congruence. subst t2.
      rewrite Hv in Eu, Ev.
      destruct (Hl k) as [(A & B)|(A & B)].
      * assert (G : he ts i u v n).
        { pose proof (he_at ts i t k Ht) as G. rewrite <- B in G. now rewrite Eu, Ev, En in G. }
        rewrite En in B. rewrite <- B in A.
        destruct (M_glue _ M _ _ _ _ G) as [C|G']; [now left|right].
        assert (Sn : ~ In n S).
        { intros Sn. apply A. apply HSR; auto. now apply he_lt in G'. }
        destruct (Hhe _ _ _ _ Sn G') as (n' & H' & [(_ & ->)|(C & _)]); auto.
        exfalso. apply Si. auto.
      * right. now rewrite Eu, Ev, En in B.
  - (* cover *)
    intros p Hp. destruct (M_cover _ M p Hp) as (i & I).
    destruct (in_dec N.eq_dec i R) as [Ri|Ri].
    + destruct (HScov i p Ri I) as (s & _ & I'); eauto.
    + assert (Si : ~ In i S).
      { intros Si. apply Ri. apply HSR; auto. destruct I as (? & ? & ? & ? & ? & ? & V & _).
        now apply view_lt in V. }
      destruct I as (a & b & c & x & y & z & V & I).
      destruct (V2 _ _ _ _ _ _ _ Si V) as (x' & y' & z' & V').
      exists i. now apply (inC_view _ _ _ _ _ _ _ _ _ V').
Qed.

End WithPos.
