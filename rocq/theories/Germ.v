(** * Germ: counting the triangles of a mesh by the directions at its vertices.

    Take a direction which is not parallel to any segment between two vertices.  From exactly one corner of each
    triangle does one of the two rays along this direction enter the triangle.  So the number of triangles is the
    number of pairs of a vertex and a ray which starts in the area of the triangles: it depends only on the area
    and on the vertices in it. *)

From Coq Require Import NArith List Bool QArith Qminmax Lqa Lia.
From Verif Require Import Spec.
Import ListNotations.
Local Open Scope Q_scope.

(** ** A direction *)
Section Direction.
Variable m : Q.
Definition height (p : point) : Q := snd p - m * fst p.
Definition sg (b : bool) : Q := if b then 1 else -1.
Definition ray (p : point) (b : bool) (e : Q) : point := (fst p + sg b * e, snd p + sg b * e * m).

Lemma orient_ray a c p b e : orient a c (ray p b e) == orient a c p - e * (sg b * (height c - height a)).
Proof. unfold orient, ray, height. cbn [fst snd]. ring. Qed.

Lemma height_place p q : same_place p q -> height p == height q.
Proof. intros (A & B). unfold height. now rewrite A, B. Qed.
Lemma orient_place a c p q : same_place p q -> orient a c p == orient a c q.
Proof. intros (A & B). unfold orient. now rewrite A, B. Qed.
Lemma place_refl p : same_place p p. Proof. split; reflexivity. Qed.
Lemma place_sym p q : same_place p q -> same_place q p. Proof. intros (A & B). split; now symmetry. Qed.
Lemma place_trans p q r : same_place p q -> same_place q r -> same_place p r.
Proof. intros (A & B) (C & D). split; etransitivity; eauto. Qed.

(** ** Eventually in or eventually out *)
Lemma eventually A K : exists e1, 0 < e1 /\
  ((A <= 0 /\ (A == 0 -> 0 <= K) /\ (A < 0 \/ 0 < K -> forall e, 0 < e < e1 -> A - e * K < 0)) \/
   (0 <= A /\ forall e, 0 < e < e1 -> 0 < A - e * K)).
Proof.
  destruct (Qlt_le_dec A 0) as [N|P].
  - destruct (Qlt_le_dec K 0) as [KN|KP].
    + exists (A / K). assert (D : (A / K) * K == A) by (field; lra).
      assert (0 < A / K). { apply Qnot_le_lt. intros X. assert (0 <= (A / K) * K) by nra. lra. }
      split; [assumption|]. left. split; [lra|]. split; [lra|]. intros _ e (E1 & E2). nra.
    + exists 1. split; [lra|]. left. split; [lra|]. split; [lra|]. intros _ e (E1 & E2). nra.
  - destruct (Qlt_le_dec 0 A) as [AP|AZ].
    + destruct (Qlt_le_dec 0 K) as [KP|KN].
      * exists (A / K). assert (D : (A / K) * K == A) by (field; lra).
        assert (0 < A / K). { apply Qnot_le_lt. intros X. assert ((A / K) * K <= 0) by nra. lra. }
        split; [assumption|]. right. split; [lra|]. intros e (E1 & E2). nra.
      * exists 1. split; [lra|]. right. split; [lra|]. intros e (E1 & E2). nra.
    + destruct (Qlt_le_dec K 0) as [KN|KP].
      * exists 1. split; [lra|]. right. split; [lra|]. intros e (E1 & E2). nra.
      * exists 1. split; [lra|]. left. split; [lra|]. split; [lra|]. intros [X|X] e (E1 & E2); [lra|]. nra.
Qed.

Definition leaves_in (a c p : point) (b : bool) : Prop :=
  orient a c p <= 0 /\ (orient a c p == 0 -> 0 <= sg b * (height c - height a)).

Lemma edge_eventually a c p b : exists e1, 0 < e1 /\
  (leaves_in a c p b \/ forall e, 0 < e < e1 -> ~ orient a c (ray p b e) <= 0).
Proof.
  destruct (eventually (orient a c p) (sg b * (height c - height a))) as (e1 & E & [(X & Y & _)|(_ & H)]); exists e1; (split; [exact E|]).
  - left. now split.
  - right. intros e He. rewrite orient_ray. specialize (H e He). lra.
Qed.

Lemma tri_eventually a c d p b : exists e1, 0 < e1 /\
  (leaves_in a c p b /\ leaves_in c d p b /\ leaves_in d a p b \/
   forall e, 0 < e < e1 -> ~ inside_or_on a c d (ray p b e)).
Proof.
  destruct (edge_eventually a c p b) as (e1 & E1 & [H1|H1]).
  2:{ exists e1. split; [exact E1|]. right. intros e He (I & _). exact (H1 e He I). }
  destruct (edge_eventually c d p b) as (e2 & E2 & [H2|H2]).
  2:{ exists e2. split; [exact E2|]. right. intros e He (_ & I & _). exact (H2 e He I). }
  destruct (edge_eventually d a p b) as (e3 & E3 & [H3|H3]).
  2:{ exists e3. split; [exact E3|]. right. intros e He (_ & _ & I). exact (H3 e He I). }
  exists e1. auto.
Qed.

(** ** Which corner, which ray *)
Section Mesh.
Variable at_ : N -> point.

Definition rotated (t : N * N * N) (x y z : N) : Prop := t = (x, y, z) \/ t = (z, x, y) \/ t = (y, z, x).
Definition germ (t : N * N * N) (c : N) (b : bool) : Prop :=
  exists x y, rotated t c x y /\ 0 < sg b * (height (at_ x) - height (at_ c)) /\ 0 < sg b * (height (at_ c) - height (at_ y)).

Lemma germ_corner t c b : germ t c b -> tri_corner t c.
Proof. intros (x & y & [-> | [-> | ->]] & _); simpl; auto. Qed.

Lemma germ_fun t c b c' b' : germ t c b -> germ t c' b' -> c = c' /\ b = b'.
Proof.
  intros (x & y & R & A & B) (x' & y' & R' & A' & B').
  destruct R as [-> | [-> | ->]]; destruct R' as [Q | [Q | Q]]; injection Q as -> -> ->;
    destruct b, b'; cbn [sg] in *; auto; exfalso; lra.
Qed.

Lemma germ_total t : tri_clockwise at_ t ->
  (forall u v, tri_corner t u -> tri_corner t v -> ~ same_place (at_ u) (at_ v) -> ~ height (at_ u) == height (at_ v)) ->
  exists c b, germ t c b.
Proof.
  destruct t as ((u, v), w). intros C G. cbn in C. unfold clockwise in C.
  assert (N1 : ~ height (at_ u) == height (at_ v)).
  { apply G; cbn; auto. intros (X & Y). unfold orient in C. rewrite <- X, <- Y in C. nra. }
  assert (N2 : ~ height (at_ v) == height (at_ w)).
  { apply G; cbn; auto. intros (X & Y). unfold orient in C. rewrite <- X, <- Y in C. nra. }
  assert (N3 : ~ height (at_ w) == height (at_ u)).
  { apply G; cbn; auto. intros (X & Y). unfold orient in C. rewrite X, Y in C. nra. }
  clear C G. remember (height (at_ u)) as U. remember (height (at_ v)) as V. remember (height (at_ w)) as W.
  destruct (Q_dec U V) as [[L1|L1]|L1]; [| |tauto];
  destruct (Q_dec V W) as [[L2|L2]|L2]; try tauto;
  destruct (Q_dec W U) as [[L3|L3]|L3]; try tauto; try (exfalso; lra).
  - (* U < V < W *) exists v, true, w, u. subst. split; [right; left; reflexivity|]. cbn [sg]. split; lra.
  - (* U < V, W < V, W < U : W < U < V *) exists u, true, v, w. subst. split; [left; reflexivity|]. cbn [sg]. split; lra.
  - (* U < W < V *) exists w, false, u, v. subst. split; [right; right; reflexivity|]. cbn [sg]. split; lra.
  - (* V < U, V < W, W < U *) exists w, true, u, v. subst. split; [right; right; reflexivity|]. cbn [sg]. split; lra.
  - (* V < U < W *) exists u, false, v, w. subst. split; [left; reflexivity|]. cbn [sg]. split; lra.
  - (* W < V < U *) exists v, false, w, u. subst. split; [right; left; reflexivity|]. cbn [sg]. split; lra.
Qed.

Lemma strictly_rotated t x y z p : rotated t x y z -> strictly_inside (at_ x) (at_ y) (at_ z) p -> tri_inside at_ t p.
Proof. intros [-> | [-> | ->]] (A & B & C); cbn; repeat split; assumption. Qed.
Lemma clockwise_rotated t x y z : rotated t x y z -> tri_clockwise at_ t -> clockwise (at_ x) (at_ y) (at_ z).
Proof. intros [-> | [-> | ->]]; cbn; unfold clockwise, orient; intros C; lra. Qed.

(** The ray starts inside the triangle. *)
Lemma germ_inside t c b p : tri_clockwise at_ t -> germ t c b -> same_place (at_ c) p ->
  exists e1, 0 < e1 /\ forall e, 0 < e < e1 -> tri_inside at_ t (ray p b e).
Proof.
  intros C (x & y & R & A & B) (P1 & P2).
  apply (clockwise_rotated _ _ _ _ R) in C. unfold clockwise in C.
  assert (Z1 : orient (at_ c) (at_ x) p == 0) by (unfold orient; rewrite <- P1, <- P2; ring).
  assert (Z2 : orient (at_ y) (at_ c) p == 0) by (unfold orient; rewrite <- P1, <- P2; ring).
  assert (Z3 : orient (at_ x) (at_ y) p < 0).
  { assert (Q : orient (at_ x) (at_ y) p == orient (at_ c) (at_ x) (at_ y)) by (unfold orient; rewrite <- P1, <- P2; ring). lra. }
  destruct (eventually (orient (at_ x) (at_ y) p) (sg b * (height (at_ y) - height (at_ x)))) as (e1 & E & [(_ & _ & X)|(X & _)]).
  2:{ exfalso. lra. }
  exists e1. split; [exact E|]. intros e He. apply (strictly_rotated _ _ _ _ _ R). unfold strictly_inside.
  rewrite !orient_ray. specialize (X (or_introl Z3) e He).
  remember (sg b * (height (at_ x) - height (at_ c))) as K1. remember (sg b * (height (at_ c) - height (at_ y))) as K2.
  remember (orient (at_ c) (at_ x) p) as O1. remember (orient (at_ y) (at_ c) p) as O2.
  clear - Z1 Z2 X A B He. destruct He. repeat split; try nra; exact X.
Qed.

Variable n : N.
Variable out : list (N * N * N).

Lemma out_eventually p b : exists e1, 0 < e1 /\
  ((exists x y z, In (x, y, z) out /\ leaves_in (at_ x) (at_ y) p b /\ leaves_in (at_ y) (at_ z) p b /\ leaves_in (at_ z) (at_ x) p b) \/
   forall e, 0 < e < e1 -> ~ covered at_ out (ray p b e)).
Proof.
  induction out as [|((x, y), z) l IH].
  - exists 1. split; [lra|]. right. intros e _ (t & [] & _).
  - destruct IH as (e1 & E1 & [(x' & y' & z' & I & H)|H1]).
    + exists e1. split; [exact E1|]. left. exists x', y', z'. simpl; auto.
    + destruct (tri_eventually (at_ x) (at_ y) (at_ z) p b) as (e2 & E2 & [H|H2]).
      * exists e2. split; [exact E2|]. left. exists x, y, z. simpl; auto.
      * exists (Qmin e1 e2). split; [now apply Q.min_glb_lt|]. right. intros e (P & L) (t & [<-|I] & C).
        -- apply (H2 e); [split; [exact P|]|exact C]. eapply Qlt_le_trans; [exact L|apply Q.le_min_r].
        -- apply (H1 e); [split; [exact P|]|exists t; split; assumption]. eapply Qlt_le_trans; [exact L|apply Q.le_min_l].
Qed.

Hypothesis VM : valid_mesh at_ n out.
Hypothesis Range : forall t c, In t out -> tri_corner t c -> (c < n)%N.
Hypothesis Generic : forall u v, (u < n)%N -> (v < n)%N -> ~ same_place (at_ u) (at_ v) -> ~ height (at_ u) == height (at_ v).

Lemma mesh_germ t : In t out -> exists c b, germ t c b.
Proof.
  intros I. apply germ_total; [exact (vm_clockwise _ _ _ VM t I)|].
  intros u v U V. apply Generic; eapply Range; eauto.
Qed.

Lemma corner_germ x y z v c b : In (x, y, z) out -> clockwise (at_ x) (at_ y) (at_ z) ->
  (v < n)%N -> leaves_in (at_ x) (at_ y) (at_ v) b -> leaves_in (at_ y) (at_ z) (at_ v) b -> leaves_in (at_ z) (at_ x) (at_ v) b ->
  c = x -> same_place (at_ c) (at_ v) -> 0 < sg b * (height (at_ y) - height (at_ x)) /\ 0 < sg b * (height (at_ x) - height (at_ z)).
Proof.
  intros I C V (L1 & K1) (L2 & K2) (L3 & K3) -> (P1 & P2).
  assert (Z1 : orient (at_ x) (at_ y) (at_ v) == 0) by (unfold orient; rewrite <- P1, <- P2; ring).
  assert (Z3 : orient (at_ z) (at_ x) (at_ v) == 0) by (unfold orient; rewrite <- P1, <- P2; ring).
  specialize (K1 Z1). specialize (K3 Z3).
  assert (N1 : ~ height (at_ x) == height (at_ y)).
  { apply Generic; [eapply Range; [exact I|cbn; auto]..|].
    intros (X & Y). unfold clockwise, orient in C. rewrite <- X, <- Y in C. nra. }
  assert (N3 : ~ height (at_ z) == height (at_ x)).
  { apply Generic; [eapply Range; [exact I|cbn; auto]..|].
    intros (X & Y). unfold clockwise, orient in C. rewrite X, Y in C. nra. }
  clear - K1 K3 N1 N3. destruct b; cbn [sg] in *; split; apply Qnot_le_lt; intros X; [apply N1|apply N3|apply N1|apply N3]; lra.
Qed.

(** A ray from a vertex that starts in the area starts in a triangle with this vertex as a corner. *)
Lemma germ_found v b : (v < n)%N ->
  (forall e1, 0 < e1 -> exists e, 0 < e < e1 /\ covered at_ out (ray (at_ v) b e)) ->
  exists t c, In t out /\ germ t c b /\ same_place (at_ c) (at_ v).
Proof.
  intros V H. destruct (out_eventually (at_ v) b) as (e1 & E1 & [(x & y & z & I & L1 & L2 & L3)|X]).
  2:{ destruct (H e1 E1) as (e & He & Q). destruct (X e He Q). }
  pose proof (vm_clockwise _ _ _ VM _ I) as C. cbn in C.
  destruct (vm_empty _ _ _ VM _ v I V) as (c & K & P).
  { cbn. destruct L1, L2, L3. repeat split; assumption. }
  exists (x, y, z), c. split; [exact I|]. split; [|exact P]. destruct K as [K|[K|K]].
  - exists y, z. subst c. split; [left; reflexivity|]. apply (corner_germ x y z v x b); auto.
  - exists z, x. subst c. split; [right; left; reflexivity|].
    assert (C' : clockwise (at_ y) (at_ z) (at_ x)) by (unfold clockwise, orient in *; lra).
    destruct L1 as (A1 & B1), L2 as (A2 & B2), L3 as (A3 & B3). destruct P as (P1 & P2).
    assert (Z1 : orient (at_ y) (at_ z) (at_ v) == 0) by (unfold orient; rewrite <- P1, <- P2; ring).
    assert (Z3 : orient (at_ x) (at_ y) (at_ v) == 0) by (unfold orient; rewrite <- P1, <- P2; ring).
    specialize (B2 Z1). specialize (B1 Z3).
    assert (N1 : ~ height (at_ y) == height (at_ z)).
    { apply Generic; [eapply Range; [exact I|cbn; auto]..|].
      intros (X & Y). unfold clockwise, orient in C'. rewrite <- X, <- Y in C'. nra. }
    assert (N3 : ~ height (at_ x) == height (at_ y)).
    { apply Generic; [eapply Range; [exact I|cbn; auto]..|].
      intros (X & Y). unfold clockwise, orient in C'. rewrite X, Y in C'. nra. }
    clear - B1 B2 N1 N3. destruct b; cbn [sg] in *; split; apply Qnot_le_lt; intros X; [apply N1|apply N3|apply N1|apply N3]; lra.
  - exists x, y. subst c. split; [right; right; reflexivity|].
    assert (C' : clockwise (at_ z) (at_ x) (at_ y)) by (unfold clockwise, orient in *; lra).
    destruct L1 as (A1 & B1), L2 as (A2 & B2), L3 as (A3 & B3). destruct P as (P1 & P2).
    assert (Z1 : orient (at_ y) (at_ z) (at_ v) == 0) by (unfold orient; rewrite <- P1, <- P2; ring).
    assert (Z3 : orient (at_ z) (at_ x) (at_ v) == 0) by (unfold orient; rewrite <- P1, <- P2; ring).
    specialize (B2 Z1). specialize (B3 Z3).
    assert (N1 : ~ height (at_ y) == height (at_ z)).
    { apply Generic; [eapply Range; [exact I|cbn; auto]..|].
      intros (X & Y). unfold clockwise, orient in C'. rewrite X, Y in C'. nra. }
    assert (N3 : ~ height (at_ z) == height (at_ x)).
    { apply Generic; [eapply Range; [exact I|cbn; auto]..|].
      intros (X & Y). unfold clockwise, orient in C'. rewrite <- X, <- Y in C'. nra. }
    clear - B3 B2 N1 N3. destruct b; cbn [sg] in *; split; apply Qnot_le_lt; intros X; [apply N3|apply N1|apply N3|apply N1]; lra.
Qed.

(** Two triangles with the same ray are the same. *)
Lemma germ_once s t c c' b : In s out -> In t out -> germ s c b -> germ t c' b -> same_place (at_ c) (at_ c') -> s = t.
Proof.
  intros S T Gs Gt P.
  destruct (In_nth_error _ _ S) as (i & Hi). destruct (In_nth_error _ _ T) as (j & Hj).
  destruct (PeanoNat.Nat.eq_dec i j) as [->|N]; [congruence|exfalso].
  destruct (germ_inside s c b (at_ c') (vm_clockwise _ _ _ VM _ S) Gs P) as (e1 & E1 & H1).
  destruct (germ_inside t c' b (at_ c') (vm_clockwise _ _ _ VM _ T) Gt (place_refl _)) as (e2 & E2 & H2).
  pose proof (Q.min_glb_lt _ _ _ E1 E2) as M.
  assert (H : 0 < Qmin e1 e2 / 2 < Qmin e1 e2) by (split; [apply Qlt_shift_div_l; lra|apply Qlt_shift_div_r; lra]).
  pose proof (Q.le_min_l e1 e2). pose proof (Q.le_min_r e1 e2).
  apply (vm_disjoint _ _ _ VM i j s t (ray (at_ c') b (Qmin e1 e2 / 2)) N Hi Hj); [apply H1|apply H2]; lra.
Qed.

Lemma mesh_nodup : NoDup out.
Proof.
  pose proof (vm_edges _ _ _ VM) as H. clear - H. induction out as [|((x, y), z) l IH]; [constructor|].
  cbn in H. inversion H as [|e1 l1 X1 H1]; subst. inversion H1 as [|e2 l2 X2 H2]; subst. inversion H2 as [|e3 l3 X3 H3]; subst.
  constructor; [|now apply IH]. intros I. apply X1. right. right. apply in_flat_map. exists (x, y, z). cbn. auto.
Qed.
End Mesh.
End Direction.
