(** * Facing: in a valid list of triangles, what lies across an edge is a triangle with this edge. *)

From Coq Require Import ZArith NArith List Bool QArith Lqa Lia.
From Verif Require Import Base Spec Hull Diagonal.
Import ListNotations.
Local Open Scope Q_scope.

Lemma line_orient u v a b c x y : same_place a (along u v x) -> same_place b (along u v y) -> orient a b c == (y - x) * orient u v c.
Proof. intros (A1 & A2) (B1 & B2). unfold orient, along in *. cbn [fst snd] in *. rewrite A1, A2, B1, B2. ring. Qed.

Lemma line_on u v x : orient u v (along u v x) == 0.
Proof. unfold orient, along. cbn [fst snd]. ring. Qed.

Lemma at_place a b p q : same_place p q -> orient a b p == orient a b q.
Proof. intros (A & B). unfold orient. rewrite A, B. reflexivity. Qed.

Lemma orient_cycle a b c : orient a b c == orient b c a.
Proof. unfold orient. ring. Qed.

Lemma orient_second a b c p : same_place b p -> orient a b c == orient a p c.
Proof. intros (A & B). unfold orient. rewrite A, B. reflexivity. Qed.

Lemma place_sym a b : same_place a b -> same_place b a.
Proof. intros (A & B). split; symmetry; assumption. Qed.

Lemma place_trans a b c : same_place a b -> same_place b c -> same_place a c.
Proof. intros (A & B) (C & D). split; [now rewrite A|now rewrite B]. Qed.

(** Points close to the middle of an edge, on its right, are in the triangle. *)
Lemma small_in u v c m y : orient u v m <= 0 -> (orient u v m == 0 -> orient u v y < 0) -> orient v c m < 0 -> orient c u m < 0 ->
  exists e, 0 < e /\ forall s, 0 < s < e -> strictly_inside u v c (along m y s).
Proof.
  intros A B C D.
  destruct (affine_pos (- orient v c m) (- (orient v c y - orient v c m)) ltac:(lra)) as (e1 & E1 & K1).
  destruct (affine_pos (- orient c u m) (- (orient c u y - orient c u m)) ltac:(lra)) as (e2 & E2 & K2).
  assert (X : exists e3, 0 < e3 /\ forall s, 0 < s < e3 -> orient u v m + s * (orient u v y - orient u v m) < 0).
  { destruct (Qeq_dec (orient u v m) 0) as [Z|Z].
    - exists 1. split; [lra|]. intros s S. specialize (B Z). rewrite Z. nra.
    - assert (L : orient u v m < 0) by (apply Qnot_le_lt; intros K; apply Z; lra).
      destruct (affine_pos (- orient u v m) (- (orient u v y - orient u v m)) ltac:(lra)) as (e3 & E3 & K3).
      exists e3. split; [exact E3|]. intros s S. specialize (K3 s S). lra. }
  destruct X as (e3 & E3 & K3). destruct (below e1 e2 E1 E2) as (d & D1 & D2 & D3). destruct (below d e3 D1 E3) as (e & F1 & F2 & F3).
  exists e. split; [exact F1|]. intros s S. unfold strictly_inside. rewrite !orient_along.
  specialize (K1 s ltac:(lra)). specialize (K2 s ltac:(lra)). specialize (K3 s ltac:(lra)). repeat split; lra.
Qed.

Section Mesh.
Variables (at_ : N -> point) (n : N) (out : list (N * N * N)).
Hypothesis V : valid_mesh at_ n out.
Hypothesis ids : forall t v, In t out -> tri_corner t v -> (v < n)%N.

Lemma tri_in x y z : is_tri out x y z -> exists t, In t out /\ (forall w, tri_corner t w <-> w = x \/ w = y \/ w = z) /\
  (forall p, tri_inside at_ t p <-> strictly_inside (at_ x) (at_ y) (at_ z) p) /\
  (forall p, tri_inside_or_on at_ t p <-> inside_or_on (at_ x) (at_ y) (at_ z) p) /\ orient (at_ x) (at_ y) (at_ z) < 0.
Proof.
  intros H. destruct H as [H|[H|H]]; eexists; (split; [exact H|]); pose proof (vm_clockwise _ _ _ V _ H) as Cw; cbn in *; unfold clockwise in Cw.
  - split; [intros w; tauto|]. split; [intros p; tauto|]. split; [intros p; tauto|]. exact Cw.
  - split; [intros w; tauto|]. split; [intros p; unfold strictly_inside; tauto|]. split; [intros p; unfold inside_or_on; tauto|]. rewrite orient_cycle. exact Cw.
  - split; [intros w; tauto|]. split; [intros p; unfold strictly_inside; tauto|]. split; [intros p; unfold inside_or_on; tauto|]. rewrite orient_cycle, orient_cycle. exact Cw.
Qed.

Lemma tri_empty x y z w : is_tri out x y z -> (w < n)%N -> inside_or_on (at_ x) (at_ y) (at_ z) (at_ w) ->
  same_place (at_ x) (at_ w) \/ same_place (at_ y) (at_ w) \/ same_place (at_ z) (at_ w).
Proof.
  intros T W I. destruct (tri_in x y z T) as (t & Ht & Ct & _ & It & _).
  destruct (vm_empty _ _ _ V t w Ht W (proj2 (It _) I)) as (c & Hc & P). apply Ct in Hc. destruct Hc as [-> |[-> | ->]]; auto.
Qed.

Lemma tri_ids x y z : is_tri out x y z -> (x < n)%N /\ (y < n)%N /\ (z < n)%N.
Proof. intros T. destruct (tri_in x y z T) as (t & Ht & Ct & _). repeat split; apply (ids t); auto; apply Ct; auto. Qed.

Lemma tri_merged x y z a b c : is_tri out x y z -> is_tri out a b c -> forall w r, (w = x \/ w = y \/ w = z) -> (r = a \/ r = b \/ r = c) ->
  same_place (at_ w) (at_ r) -> w = r.
Proof.
  intros T T' w r W R P. destruct (tri_in x y z T) as (t & Ht & Ct & _). destruct (tri_in a b c T') as (t' & Ht' & Ct' & _).
  apply (vm_merged _ _ _ V t t' w r Ht Ht'); [now apply Ct|now apply Ct'|exact P].
Qed.

(** Two triangles, one of which reaches across an edge of the other, are apart. *)
Lemma apart u v c a b d q p : is_tri out u v c -> is_tri out a b d -> inside_or_on (at_ a) (at_ b) (at_ d) q -> 0 < orient (at_ u) (at_ v) q ->
  strictly_inside (at_ u) (at_ v) (at_ c) p -> strictly_inside (at_ a) (at_ b) (at_ d) p -> False.
Proof.
  intros T T' Q1 Q2 P1 P2. destruct (tri_in u v c T) as (t & Ht & _ & It & Ot & _). destruct (tri_in a b d T') as (t' & Ht' & _ & It' & Ot' & _).
  apply It in P1. apply It' in P2. apply Ot' in Q1.
  destruct (In_nth_error _ _ Ht) as (i & Hi). destruct (In_nth_error _ _ Ht') as (j & Hj).
  destruct (Nat.eq_dec i j) as [<-|Ne].
  - assert (E : t = t') by congruence. subst t'. apply Ot in Q1. destruct Q1 as (K & _). lra.
  - exact (vm_disjoint _ _ _ V i j t t' p Ne Hi Hj P1 P2).
Qed.

(** A point strictly between the ends of an edge is at no vertex. *)
Lemma edge_point u v c r w : is_tri out u v c -> 0 < r < 1 -> (w < n)%N -> ~ same_place (at_ w) (along (at_ u) (at_ v) r).
Proof.
  intros T R W P. destruct (tri_in u v c T) as (_ & _ & _ & _ & _ & Cw).
  assert (I : inside_or_on (at_ u) (at_ v) (at_ c) (at_ w)).
  { unfold inside_or_on. rewrite !(at_place _ _ _ _ P). unfold orient, along in *. cbn [fst snd] in *. repeat split; nra. }
  assert (Nuv : ~ same_place (at_ u) (at_ v)).
  { intros (A & B). unfold orient in Cw. rewrite A, B in Cw. lra. }
  destruct (tri_empty u v c w T W I) as [K|[K|K]]; pose proof (place_trans _ _ _ K P) as (K1 & K2).
  - apply Nuv. unfold along in *. cbn [fst snd] in *. split; nra.
  - apply Nuv. unfold along in *. cbn [fst snd] in *. split; nra.
  - rewrite (at_place _ _ _ _ (place_trans _ _ _ K P)), line_on in Cw. lra.
Qed.

(** The triangle across has the edge: the edge of the other triangle is known. *)
Lemma facing_edge u v c a b d q r : is_tri out u v c -> is_tri out a b d -> inside_or_on (at_ a) (at_ b) (at_ d) q -> 0 < orient (at_ u) (at_ v) q ->
  0 < r < 1 -> orient (at_ a) (at_ b) (along (at_ u) (at_ v) r) == 0 -> orient (at_ b) (at_ d) (along (at_ u) (at_ v) r) < 0 ->
  orient (at_ d) (at_ a) (along (at_ u) (at_ v) r) < 0 -> a = v /\ b = u.
Proof.
  intros T T' Q1 Q2 R M1 M2 M3. pose proof (tri_in u v c T) as (_ & _ & _ & _ & _ & Cw). pose proof (tri_in a b d T') as (_ & _ & _ & _ & _ & Cw').
  destruct (tri_ids u v c T) as (Lu & Lv & Lc). destruct (tri_ids a b d T') as (La & Lb & Ld).
  set (m := along (at_ u) (at_ v) r) in *.
  assert (U1 : orient (at_ u) (at_ v) m == 0) by apply line_on.
  assert (U2 : orient (at_ v) (at_ c) m < 0) by (unfold m, orient, along in *; cbn [fst snd] in *; nra).
  assert (U3 : orient (at_ c) (at_ u) m < 0) by (unfold m, orient, along in *; cbn [fst snd] in *; nra).
  assert (No : forall y, orient (at_ u) (at_ v) y < 0 -> orient (at_ a) (at_ b) y < 0 -> False).
  { intros y Y1 Y2. destruct (small_in (at_ u) (at_ v) (at_ c) m y ltac:(lra) (fun _ => Y1) U2 U3) as (e1 & E1 & K1).
    destruct (small_in (at_ a) (at_ b) (at_ d) m y ltac:(lra) (fun _ => Y2) M2 M3) as (e2 & E2 & K2).
    destruct (below e1 e2 E1 E2) as (s & S1 & S2 & S3).
    exact (apart u v c a b d q _ T T' Q1 Q2 (K1 s ltac:(lra)) (K2 s ltac:(lra))). }
  assert (Nuv : ~ same_place (at_ u) (at_ v)) by (intros (A & B); unfold orient in Cw; rewrite A, B in Cw; lra).
  set (D := (fst (at_ v) - fst (at_ u)) * (snd (at_ b) - snd (at_ a)) - (snd (at_ v) - snd (at_ u)) * (fst (at_ b) - fst (at_ a))).
  destruct (Qeq_dec D 0) as [Z|NZ].
  2:{ exfalso. set (y := (fst m + D * ((fst (at_ v) - fst (at_ u)) - (fst (at_ b) - fst (at_ a))), snd m + D * ((snd (at_ v) - snd (at_ u)) - (snd (at_ b) - snd (at_ a))))).
    assert (DD : 0 < D * D) by (destruct (Q_dec D 0) as [[X|X]|X]; [nra|nra|contradiction]).
    apply (No y).
    - assert (I : orient (at_ u) (at_ v) y == orient (at_ u) (at_ v) m - D * D) by (unfold y, D, orient; cbn [fst snd]; ring). lra.
    - assert (I : orient (at_ a) (at_ b) y == orient (at_ a) (at_ b) m - D * D) by (unfold y, D, orient; cbn [fst snd]; ring). lra. }
  assert (La0 : orient (at_ u) (at_ v) (at_ a) == 0 /\ orient (at_ u) (at_ v) (at_ b) == 0).
  { (* both lines go through m in the same direction *)
    assert (B0 : orient (at_ u) (at_ v) (at_ b) - orient (at_ u) (at_ v) (at_ a) == D) by (unfold orient, D; ring).
    assert (A0 : orient (at_ u) (at_ v) (at_ a) == 0); [|split; [exact A0|lra]].
    destruct (Qeq_dec (orient (at_ u) (at_ v) (at_ a)) 0) as [K|K]; [exact K|exfalso].
    (* then a b would be at one place *)
    assert (I1 : orient (at_ a) (at_ b) m * (fst (at_ v) - fst (at_ u)) ==
      (fst (at_ b) - fst (at_ a)) * (orient (at_ u) (at_ v) m - orient (at_ u) (at_ v) (at_ a)) - (fst m - fst (at_ a)) * D) by (unfold orient, D; ring).
    assert (I2 : orient (at_ a) (at_ b) m * (snd (at_ v) - snd (at_ u)) ==
      (snd (at_ b) - snd (at_ a)) * (orient (at_ u) (at_ v) m - orient (at_ u) (at_ v) (at_ a)) - (snd m - snd (at_ a)) * D) by (unfold orient, D; ring).
    rewrite M1, U1, Z in I1, I2.
    assert (X : fst (at_ b) - fst (at_ a) == 0).
    { destruct (Qmult_integral (fst (at_ b) - fst (at_ a)) (orient (at_ u) (at_ v) (at_ a)) ltac:(lra)); [assumption|contradiction]. }
    assert (Y : snd (at_ b) - snd (at_ a) == 0).
    { destruct (Qmult_integral (snd (at_ b) - snd (at_ a)) (orient (at_ u) (at_ v) (at_ a)) ltac:(lra)); [assumption|contradiction]. }
    assert (W : orient (at_ a) (at_ b) (at_ d) == 0); [|lra]. unfold orient. rewrite X, Y. ring. }
  destruct La0 as (A0 & B0).
  destruct (on_line_param _ _ _ Nuv A0) as (x & Px). destruct (on_line_param _ _ _ Nuv B0) as (y & Py).
  pose proof (line_orient _ _ _ _ (at_ c) _ _ Px Py) as Oc. pose proof (line_orient _ _ _ _ (at_ d) _ _ Px Py) as Od.
  assert (Lt : y < x).
  { apply Qnot_le_lt. intros K. destruct (Qeq_dec x y) as [Q|Q].
    - rewrite Q in Od. assert (Od' : orient (at_ a) (at_ b) (at_ d) == 0) by (rewrite Od; ring). lra.
    - apply (No (at_ c) Cw). rewrite Oc. nra. }
  assert (Ud : 0 < orient (at_ u) (at_ v) (at_ d)) by (apply Qnot_le_lt; intros K; nra).
  assert (Pm : same_place m (along (at_ u) (at_ v) r)) by (split; reflexivity).
  assert (Ry : y < r).
  { pose proof (line_orient _ _ _ _ (at_ d) _ _ Py Pm) as O. assert (O' : orient (at_ b) m (at_ d) == - orient (at_ b) (at_ d) m) by (unfold orient; ring).
    apply Qnot_le_lt. intros K. nra. }
  assert (Rx : r < x).
  { pose proof (line_orient _ _ _ _ (at_ d) _ _ Px Pm) as O. assert (O' : orient (at_ a) m (at_ d) == orient (at_ d) (at_ a) m) by (unfold orient; ring).
    apply Qnot_le_lt. intros K. nra. }
  (* no end of one edge is inside the other one *)
  assert (Back : forall z, y < z < x -> exists k, 0 < k < 1 /\ same_place (along (at_ u) (at_ v) z) (along (at_ a) (at_ b) k)).
  { intros z Hz. exists ((x - z) / (x - y)). assert (S : 0 < x - y) by lra. split.
    - split; [apply Qlt_shift_div_l; lra|apply Qlt_shift_div_r; lra].
    - destruct Px as (P1 & P2), Py as (P3 & P4). unfold same_place, along in *. cbn [fst snd] in *. rewrite P1, P2, P3, P4. split; field; lra. }
  split.
  - destruct (Q_dec x 1) as [[X|X]|X].
    + exfalso. exact (edge_point u v c x a T ltac:(lra) La Px).
    + exfalso. destruct (Back 1 ltac:(lra)) as (k & K & P). apply (edge_point a b d k v T' K Lv). apply (place_trans _ (along (at_ u) (at_ v) 1)); [|exact P].
      unfold same_place, along. cbn [fst snd]. split; ring.
    + apply (tri_merged a b d u v c T' T); auto. apply (place_trans _ _ _ Px). unfold same_place, along. cbn [fst snd]. rewrite X. split; ring.
  - destruct (Q_dec y 0) as [[X|X]|X].
    + exfalso. destruct (Back 0 ltac:(lra)) as (k & K & P). apply (edge_point a b d k u T' K Lu). apply (place_trans _ (along (at_ u) (at_ v) 0)); [|exact P].
      unfold same_place, along. cbn [fst snd]. split; ring.
    + exfalso. exact (edge_point u v c y b T ltac:(lra) Lb Py).
    + apply (tri_merged a b d u v c T' T); auto. apply (place_trans _ _ _ Py). unfold same_place, along. cbn [fst snd]. rewrite X. split; ring.
Qed.

Lemma corner_meet (a b d m : point) : orient a b d < 0 -> orient a b m == 0 -> orient b d m == 0 -> same_place b m.
Proof.
  intros C A B. 
  assert (I1 : (fst m - fst b) * orient a b d == (fst d - fst b) * orient a b m + (fst a - fst b) * orient b d m) by (unfold orient; ring).
  assert (I2 : (snd m - snd b) * orient a b d == (snd d - snd b) * orient a b m + (snd a - snd b) * orient b d m) by (unfold orient; ring).
  rewrite A, B in I1, I2. split.
  - destruct (Qmult_integral (fst m - fst b) (orient a b d) ltac:(lra)); lra.
  - destruct (Qmult_integral (snd m - snd b) (orient a b d) ltac:(lra)); lra.
Qed.

Lemma facing u v c x y z q r : is_tri out u v c -> is_tri out x y z -> inside_or_on (at_ x) (at_ y) (at_ z) q -> 0 < orient (at_ u) (at_ v) q ->
  0 < r < 1 -> inside_or_on (at_ x) (at_ y) (at_ z) (along (at_ u) (at_ v) r) -> In (v, u) (directed_edges out).
Proof.
  intros T T' Q1 Q2 R I. set (m := along (at_ u) (at_ v) r) in *.
  assert (Side : forall a b d, is_tri out a b d -> inside_or_on (at_ a) (at_ b) (at_ d) q -> inside_or_on (at_ a) (at_ b) (at_ d) m ->
    orient (at_ a) (at_ b) m == 0 -> In (v, u) (directed_edges out)).
  { clear x y z T' Q1 I. intros a b d T' Q1 (I1 & I2 & I3) Z. pose proof (tri_in a b d T') as (_ & _ & _ & _ & _ & Cw'). destruct (tri_ids a b d T') as (La & Lb & Ld).
    assert (M2 : orient (at_ b) (at_ d) m < 0).
    { apply Qnot_le_lt. intros K. apply (edge_point u v c r b T R Lb). apply (corner_meet (at_ a) (at_ b) (at_ d) m Cw' Z). lra. }
    assert (M3 : orient (at_ d) (at_ a) m < 0).
    { apply Qnot_le_lt. intros K. apply (edge_point u v c r a T R La). apply (corner_meet (at_ d) (at_ a) (at_ b) m); [rewrite orient_cycle; exact Cw'|lra|exact Z]. }
    destruct (facing_edge u v c a b d q r T T' Q1 Q2 R Z M2 M3) as (-> & ->). apply (tri_edge out v u d). exact T'. }
  assert (Turn : forall a b d, is_tri out a b d -> is_tri out b d a) by (intros a b d; unfold is_tri; tauto).
  assert (Turn2 : forall a b d p, inside_or_on a b d p -> inside_or_on b d a p) by (intros a b d p; unfold inside_or_on; tauto).
  destruct (Qeq_dec (orient (at_ x) (at_ y) m) 0) as [Z1|Z1]; [exact (Side x y z T' Q1 I Z1)|].
  destruct (Qeq_dec (orient (at_ y) (at_ z) m) 0) as [Z2|Z2]; [exact (Side y z x (Turn _ _ _ T') (Turn2 _ _ _ _ Q1) (Turn2 _ _ _ _ I) Z2)|].
  destruct (Qeq_dec (orient (at_ z) (at_ x) m) 0) as [Z3|Z3]; [exact (Side z x y (Turn _ _ _ (Turn _ _ _ T')) (Turn2 _ _ _ _ (Turn2 _ _ _ _ Q1)) (Turn2 _ _ _ _ (Turn2 _ _ _ _ I)) Z3)|].
  exfalso. destruct I as (I1 & I2 & I3). pose proof (tri_in u v c T) as (_ & _ & _ & _ & _ & Cw).
  assert (S1 : orient (at_ x) (at_ y) m < 0) by (apply Qnot_le_lt; intros K; apply Z1; lra).
  assert (S2 : orient (at_ y) (at_ z) m < 0) by (apply Qnot_le_lt; intros K; apply Z2; lra).
  assert (S3 : orient (at_ z) (at_ x) m < 0) by (apply Qnot_le_lt; intros K; apply Z3; lra).
  assert (U1 : orient (at_ u) (at_ v) m == 0) by apply line_on.
  destruct (small_in (at_ u) (at_ v) (at_ c) m (at_ c)) as (e1 & E1 & K1); [lra|intros _; exact Cw| | |].
  1,2: unfold m, orient, along in *; cbn [fst snd] in *; nra.
  destruct (small_in (at_ x) (at_ y) (at_ z) m (at_ c) I1) as (e2 & E2 & K2); [intros K; lra|exact S2|exact S3|].
  destruct (below e1 e2 E1 E2) as (s & T1 & T2 & T3).
  exact (apart u v c x y z q _ T T' Q1 Q2 (K1 s ltac:(lra)) (K2 s ltac:(lra))).
Qed.
End Mesh.
