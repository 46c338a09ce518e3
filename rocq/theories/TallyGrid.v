(** * TallyGrid: the number of triangles of the results. *)

From Coq Require Import ZArith NArith List Bool QArith Qabs Qminmax Lqa Lia Permutation.
From Verif Require Import Base BaseFacts Arith Types Spec SpecBox SpecDomain SpecUnique SpecTally Infinite Triangulation Constrained
  AnyDT AnyCDT DTOut GridSpec InputSpec GridApi GridCdt DomainGrid UniqueGrid BoxGrid Germ GermCount Tally.
Import ListNotations.
Local Open Scope N_scope.

(** ** One result *)
Lemma returned_valid {E : Env} (vs : list vertex) at_ bound fuel bins out :
  exact_input vs at_ bound -> 2 * lenN vs + 2 <= idmax -> (4 * length vs + 12 <= fuel)%nat -> returned fuel bins vs out ->
  valid_mesh at_ (lenN vs) out /\ forall t c, In t out -> tri_corner t c -> c < lenN vs.
Proof.
  intros G I F [R|(cs & R)].
  - split; [exact (proj1 (grid_valid vs at_ bound G I fuel bins out F R))|].
    intros ((x, y), z) c T K. assert (Li : lenN vs <= idmax + 1) by lia.
    destruct (proj1 (dt_ids fuel bins vs out Li R) x y z T) as (A & B & C). destruct K as [-> | [-> | ->]]; assumption.
  - split; [pair_input G; exact (grid_cdt_valid vs px py bound G I fuel bins F cs out R)|].
    intros ((x, y), z) c T K. assert (Li : lenN vs <= idmax + 1) by lia.
    destruct (proj1 (cdt_ids fuel bins vs cs out Li R) x y z T) as (A & B & C). destruct K as [-> | [-> | ->]]; assumption.
Qed.

Lemma grid_tally {E : Env} (vs : list vertex) at_ bound fuel bins out at1 n1 other inner rim :
  exact_input vs at_ bound -> 2 * lenN vs + 2 <= idmax -> (4 * length vs + 12 <= fuel)%nat -> returned fuel bins vs out ->
  valid_mesh at1 n1 other -> (forall t c, In t other -> tri_corner t c -> c < n1) ->
  (forall p, covered at1 other p <-> covered at_ out p) ->
  (forall v, v < n1 -> covered at1 other (at1 v) -> exists w, w < lenN vs /\ same_place (at1 v) (at_ w)) ->
  (forall w, w < lenN vs -> covered at_ out (at_ w) ->
    old at1 at_ n1 w \/ exists u, In u (inner ++ rim) /\ same_place (at_ u) (at_ w)) ->
  new_places at1 at_ n1 (lenN vs) (inner ++ rim) ->
  (forall u, In u inner -> surrounded at_ out (at_ u)) ->
  (forall u, In u rim -> on_straight_border at_ out (at_ u)) ->
  lenN out = lenN other + 2 * lenN inner + lenN rim.
Proof.
  intros G I F R VM Rg A V12 V21 Nw Inn Rim. destruct (returned_valid vs at_ bound fuel bins out G I F R) as (VM2 & Rg2).
  pose proof (tally at1 at_ n1 (lenN vs) other out VM VM2 Rg Rg2 A V12 inner rim V21 Nw Inn Rim) as K.
  unfold lenN. rewrite K. lia.
Qed.

Lemma grid_tally2 (E1 E2 : Env) (vs1 : list (@vertex E1)) (vs2 : list (@vertex E2)) at1 at2 bound1 bound2 fuel1 fuel2 bins1 bins2
    out1 out2 inner rim :
  exact_input (E := E1) vs1 at1 bound1 -> exact_input (E := E2) vs2 at2 bound2 ->
  2 * lenN vs1 + 2 <= @idmax E1 -> 2 * lenN vs2 + 2 <= @idmax E2 ->
  (4 * length vs1 + 12 <= fuel1)%nat -> (4 * length vs2 + 12 <= fuel2)%nat ->
  returned (E := E1) fuel1 bins1 vs1 out1 -> returned (E := E2) fuel2 bins2 vs2 out2 ->
  (forall p, covered at1 out1 p <-> covered at2 out2 p) ->
  (forall v, v < lenN vs1 -> covered at1 out1 (at1 v) -> exists w, w < lenN vs2 /\ same_place (at1 v) (at2 w)) ->
  (forall w, w < lenN vs2 -> covered at2 out2 (at2 w) ->
    old at1 at2 (lenN vs1) w \/ exists u, In u (inner ++ rim) /\ same_place (at2 u) (at2 w)) ->
  new_places at1 at2 (lenN vs1) (lenN vs2) (inner ++ rim) ->
  (forall u, In u inner -> surrounded at2 out2 (at2 u)) ->
  (forall u, In u rim -> on_straight_border at2 out2 (at2 u)) ->
  lenN out2 = lenN out1 + 2 * lenN inner + lenN rim.
Proof.
  intros G1 G2 I1 I2 F1 F2 R1 R2. destruct (returned_valid (E := E1) vs1 at1 bound1 fuel1 bins1 out1 G1 I1 F1 R1) as (VM1 & Rg1).
  exact (grid_tally (E := E2) vs2 at2 bound2 fuel2 bins2 out2 at1 (lenN vs1) out1 inner rim G2 I2 F2 R2 VM1 Rg1).
Qed.

(** ** Domains are open *)
Section Open.
Local Open Scope Q_scope.

Lemma on_or_away f g p : ~ same_place f g -> (exists s, 0 <= s <= 1 /\ same_place p (along f g s)) \/
  exists al be ga, 0 < al * fst p + be * snd p + ga /\
    forall s, 0 <= s <= 1 -> al * fst (along f g s) + be * snd (along f g s) + ga <= 0.
Proof.
  intros N. set (ux := fst g - fst f). set (uy := snd g - snd f).
  destruct (Q_dec (orient f g p) 0) as [[L|L]|Z].
  - right. exists uy, (- ux), (ux * snd f - uy * fst f). split.
    + assert (X : uy * fst p + - ux * snd p + (ux * snd f - uy * fst f) == - orient f g p) by (unfold orient, ux, uy; ring). rewrite X. lra.
    + intros s _. unfold along. cbn [fst snd]. fold ux uy. apply Qle_lteq. right. ring.
  - right. exists (- uy), ux, (uy * fst f - ux * snd f). split.
    + assert (X : - uy * fst p + ux * snd p + (uy * fst f - ux * snd f) == orient f g p) by (unfold orient, ux, uy; ring). rewrite X. lra.
    + intros s _. unfold along. cbn [fst snd]. fold ux uy. apply Qle_lteq. right. ring.
  - set (D := ux * ux + uy * uy).
    assert (Dp : 0 < D).
    { unfold D. destruct (Qeq_dec ux 0) as [X|X]; [destruct (Qeq_dec uy 0) as [Y|Y]|].
      - exfalso. apply N. unfold ux, uy in X, Y. split; lra.
      - assert (0 < uy * uy) by (destruct (Q_dec uy 0) as [[K|K]|K]; [nra|nra|tauto]). nra.
      - assert (0 < ux * ux) by (destruct (Q_dec ux 0) as [[K|K]|K]; [nra|nra|tauto]). nra. }
    set (w := (fst p - fst f) * ux + (snd p - snd f) * uy).
    assert (P : same_place p (along f g (w / D))).
    { unfold orient in Z. fold ux uy in Z. unfold same_place, along. cbn [fst snd]. fold ux uy.
      assert (X : (fst p - fst f) * D == w * ux).
      { assert (Q : (fst p - fst f) * D - w * ux == - uy * (ux * (snd p - snd f) - uy * (fst p - fst f))) by (unfold D, w; ring).
        rewrite Z in Q. lra. }
      assert (Y : (snd p - snd f) * D == w * uy).
      { assert (Q : (snd p - snd f) * D - w * uy == ux * (ux * (snd p - snd f) - uy * (fst p - fst f))) by (unfold D, w; ring).
        rewrite Z in Q. lra. }
      split.
      - assert (Q : w / D * ux == fst p - fst f); [|lra]. setoid_replace (w / D * ux) with ((w * ux) / D) by (field; lra).
        rewrite <- X. field. lra.
      - assert (Q : w / D * uy == snd p - snd f); [|lra]. setoid_replace (w / D * uy) with ((w * uy) / D) by (field; lra).
        rewrite <- Y. field. lra. }
    destruct (Qlt_le_dec w 0) as [L|L]; [|destruct (Qlt_le_dec D w) as [L'|L']].
    + right. exists (- ux), (- uy), (ux * fst f + uy * snd f). split.
      * assert (X : - ux * fst p + - uy * snd p + (ux * fst f + uy * snd f) == - w) by (unfold w; ring). rewrite X. lra.
      * intros s (S1 & S2). unfold along. cbn [fst snd]. fold ux uy.
        assert (X : - ux * (fst f + s * ux) + - uy * (snd f + s * uy) + (ux * fst f + uy * snd f) == - (s * D)) by (unfold D; ring).
        rewrite X. nra.
    + right. exists ux, uy, (- (ux * fst g + uy * snd g)). split.
      * assert (X : ux * fst p + uy * snd p + - (ux * fst g + uy * snd g) == w - D) by (unfold w, D, ux, uy; ring). rewrite X. lra.
      * intros s (S1 & S2). unfold along. cbn [fst snd]. fold ux uy.
        assert (X : ux * (fst f + s * ux) + uy * (snd f + s * uy) + - (ux * fst g + uy * snd g) == - ((1 - s) * D)) by (unfold D, ux, uy; ring).
        rewrite X. nra.
    + left. exists (w / D). split; [|exact P]. split.
      * apply Qle_shift_div_l; lra.
      * apply Qle_shift_div_r; lra.
Qed.

Lemma away f g p : ~ same_place f g -> (forall s, 0 <= s <= 1 -> ~ same_place p (along f g s)) ->
  exists al be ga, 0 < al * fst p + be * snd p + ga /\
    forall s, 0 <= s <= 1 -> al * fst (along f g s) + be * snd (along f g s) + ga <= 0.
Proof. intros N H. destruct (on_or_away f g p N) as [(s & S & P)|K]; [destruct (H s S P)|exact K]. Qed.

Lemma same_place_dec p q : same_place p q \/ ~ same_place p q.
Proof. unfold same_place. destruct (Qeq_dec (fst p) (fst q)); [|right; tauto]. destruct (Qeq_dec (snd p) (snd q)); [left|right]; tauto. Qed.

Lemma on_constraint_dec at_ cs p : on_constraint at_ cs p \/ ~ on_constraint at_ cs p.
Proof.
  induction cs as [|e cs IH]; [right; intros (e & s & [] & _)|].
  destruct IH as [(f & s & I & K)|IH]; [left; exists f, s; split; [now right|exact K]|].
  destruct (same_place_dec (at_ (efrom e)) (at_ (eto e))) as [Z|Z].
  { right. intros (f & s & [<-|I] & P & K); [exact (P Z)|]. apply IH. exists f, s. auto. }
  destruct (on_or_away (at_ (efrom e)) (at_ (eto e)) p Z) as [(s & S & P)|(al & be & ga & L & H)].
  { left. exists e, s. split; [now left|]. split; [exact Z|]. split; [exact S|exact P]. }
  right. intros (f & s & [<-|I] & P & S & Q1 & Q2); [|apply IH; exists f, s; repeat split; auto; apply S].
  specialize (H s S). rewrite <- Q1, <- Q2 in H. lra.
Qed.

Definition square (p : point) (r : Q) (q : point) : Prop := - r <= fst q - fst p <= r /\ - r <= snd q - snd p <= r.

Lemma square_less p r r' q : r <= r' -> square p r q -> square p r' q.
Proof. unfold square. intros L ((A & B) & C & D). repeat split; lra. Qed.
Lemma square_along p r q s : 0 <= s <= 1 -> square p r q -> square p r (along p q s).
Proof. unfold square, along. cbn [fst snd]. intros (S1 & S2) ((A & B) & C & D). repeat split; nra. Qed.

Lemma linear_near al be ga p : 0 < al * fst p + be * snd p + ga -> exists r, 0 < r /\ forall q, square p r q -> 0 < al * fst q + be * snd q + ga.
Proof.
  intros H. pose proof (Qle_Qabs al) as A1. pose proof (Qle_Qabs (- al)) as A2. rewrite Qabs_opp in A2. pose proof (Qabs_nonneg al) as A0.
  pose proof (Qle_Qabs be) as B1. pose proof (Qle_Qabs (- be)) as B2. rewrite Qabs_opp in B2. pose proof (Qabs_nonneg be) as B0.
  set (a := Qabs al) in *. set (b := Qabs be) in *. set (v := al * fst p + be * snd p + ga) in *.
  exists (v / (1 + a + b)). assert (D : (v / (1 + a + b)) * (1 + a + b) == v) by (field; lra).
  assert (P : 0 < v / (1 + a + b)) by (apply Qlt_shift_div_l; lra). split; [exact P|].
  set (r := v / (1 + a + b)) in *. intros q ((X1 & X2) & Y1 & Y2). clearbody r a b.
  assert (E : al * fst q + be * snd q + ga == v + al * (fst q - fst p) + be * (snd q - snd p)) by (unfold v; ring).
  rewrite E. clearbody v. remember (fst q - fst p) as x. remember (snd q - snd p) as y.
  clear - A1 A2 A0 B1 B2 B0 D P X1 X2 Y1 Y2 H.
  assert (- (r * a) <= al * x) by nra. assert (- (r * b) <= be * y) by nra. nra.
Qed.

Lemma clear_around at_ cs p : ~ on_constraint at_ cs p -> exists r, 0 < r /\ forall q, square p r q -> ~ on_constraint at_ cs q.
Proof.
  induction cs as [|e cs IH]; intros H.
  - exists 1. split; [lra|]. intros q _ (e & s & [] & _).
  - destruct IH as (r & R & K).
    { intros (e' & s & I & Q). apply H. exists e', s. split; [now right|exact Q]. }
    assert (Dec : same_place (at_ (efrom e)) (at_ (eto e)) \/ proper at_ e).
    { unfold proper, same_place. destruct (Qeq_dec (fst (at_ (efrom e))) (fst (at_ (eto e)))); [|right; tauto].
      destruct (Qeq_dec (snd (at_ (efrom e))) (snd (at_ (eto e)))); [left; tauto|right; tauto]. }
    destruct Dec as [P|P].
    + exists r. split; [exact R|]. intros q Sq (e' & s & [<-|I] & Pr & Q); [exact (Pr P)|].
      apply (K q Sq). exists e', s. auto.
    + destruct (away (at_ (efrom e)) (at_ (eto e)) p P) as (al & be & ga & L & S).
      { intros s Hs Q. apply H. exists e, s. split; [now left|]. auto. }
      destruct (linear_near al be ga p L) as (r' & R' & N).
      exists (Qmin r r'). split; [now apply Q.min_glb_lt|]. intros q Sq (e' & s & [<-|I] & Pr & Hs & Q).
      * pose proof (N q (square_less _ _ _ _ (Q.le_min_r r r') Sq)) as X. specialize (S s Hs). destruct Q as (Q1 & Q2).
        rewrite Q1, Q2 in X. lra.
      * apply (K q (square_less _ _ _ _ (Q.le_min_l r r') Sq)). exists e', s. auto.
Qed.

Lemma linked_after at_ cs p q r : linked at_ cs p q -> linked at_ cs q r -> linked at_ cs p r.
Proof. intros A B. induction B as [|x y B IH K]; [exact A|]. exact (linked_next _ _ _ _ _ IH K). Qed.

Lemma apart_sym at_ cs p q : apart at_ cs p q -> apart at_ cs q p.
Proof.
  intros H s Hs (e & t & I & P & T & Q). apply (H (1 - s)); [lra|]. exists e, t. repeat split; auto; try apply T;
  destruct Q as (Q1 & Q2); rewrite <- ?Q1, <- ?Q2; unfold along; cbn [fst snd]; ring.
Qed.

Lemma domain_around at_ cs p : ~ on_constraint at_ cs p -> in_domain at_ cs p ->
  exists r, 0 < r /\ forall q, square p r q -> ~ on_constraint at_ cs q /\ in_domain at_ cs q.
Proof.
  intros H (q0 & L & S). destruct (clear_around at_ cs p H) as (r & R & K). exists r. split; [exact R|].
  intros q Sq. split; [now apply K|]. exists q0. split; [|exact S]. apply (linked_after at_ cs q p q0); [|exact L].
  apply (linked_next _ _ q q p); [constructor|]. apply apart_sym. intros s Hs. apply K. now apply square_along.
Qed.
End Open.

(** ** The same constraints *)
Section Same.
Variables at1 at2 : N -> point.
Variables cs1 cs2 : list edge.
Hypothesis SC : forall e, In e cs1 -> exists f, In f cs2 /\ same_place (at1 (efrom e)) (at2 (efrom f)) /\ same_place (at1 (eto e)) (at2 (eto f)).

Lemma along_same (a b a' b' : point) s : same_place a a' -> same_place b b' -> same_place (along a b s) (along a' b' s).
Proof. intros (A & B) (C & F). unfold same_place, along. cbn [fst snd]. now rewrite A, B, C, F. Qed.

Lemma on_constraint_same p : on_constraint at1 cs1 p -> on_constraint at2 cs2 p.
Proof.
  intros (e & s & I & P & S & Q). destruct (SC e I) as (f & J & X & Y). exists f, s. split; [exact J|]. split.
  { intros K. apply P. apply (place_trans _ _ _ X). apply (place_trans _ _ _ K). now apply place_sym. }
  split; [exact S|]. apply (place_trans _ _ _ Q). now apply along_same.
Qed.
End Same.

Section Same2.
Variables at1 at2 : N -> point.
Variables cs1 cs2 : list edge.
Hypothesis SC : same_constraints at1 at2 cs1 cs2.

Lemma sc_sym : same_constraints at2 at1 cs2 cs1.
Proof.
  destruct SC as (A & B). split.
  - intros f J. destruct (B f J) as (e & I & X & Y). exists e. split; [exact I|]. split; now apply place_sym.
  - intros e I. destruct (A e I) as (f & J & X & Y). exists f. split; [exact J|]. split; now apply place_sym.
Qed.
Lemma on_constraint_back p : on_constraint at2 cs2 p -> on_constraint at1 cs1 p.
Proof. apply on_constraint_same. exact (proj1 sc_sym). Qed.

Lemma not_on_same p : on_constraint at1 cs1 p -> on_constraint at2 cs2 p.
Proof. apply on_constraint_same. exact (proj1 SC). Qed.

Lemma linked_same p q : linked at1 cs1 p q -> linked at2 cs2 p q.
Proof.
  induction 1 as [|x y L IH A]; [constructor|]. apply (linked_next _ _ _ _ _ IH). intros s S K. apply (A s S). now apply on_constraint_back.
Qed.

Lemma in_domain_same p : in_domain at1 cs1 p -> in_domain at2 cs2 p.
Proof.
  intros (q & L & e & s & I & S & O & T). exists q. split; [now apply linked_same|].
  destruct (proj1 SC e I) as (f & J & X & Y). exists f, s. split; [exact J|]. split; [exact S|]. split.
  - destruct X as (X1 & X2), Y as (Y1 & Y2). unfold orient in *. now rewrite <- X1, <- X2, <- Y1, <- Y2.
  - intros t Ht K. apply (T t Ht). apply on_constraint_back. destruct K as (g & u & G & P & U & Q). exists g, u.
    split; [exact G|]. split; [exact P|]. split; [exact U|]. refine (place_trans _ _ _ _ Q).
    apply along_same; [now apply along_same|apply place_refl].
Qed.
End Same2.

(** ** In a box *)
Lemma tri_inside_place at_ t p q : same_place p q -> tri_inside at_ t p -> tri_inside at_ t q.
Proof.
  intros (X & Y). destruct t as ((a, b), c). cbn. unfold strictly_inside, orient. now rewrite X, Y.
Qed.
Lemma inside_on at_ t p : tri_inside at_ t p -> tri_inside_or_on at_ t p.
Proof. destruct t as ((a, b), c). intros (X & Y & Z). cbn. unfold inside_or_on. repeat split; now apply Qlt_le_weak. Qed.

Lemma inside_no_corner at_ t p c : tri_clockwise at_ t -> tri_inside at_ t p -> tri_corner t c -> ~ same_place (at_ c) p.
Proof.
  destruct t as ((x, y), z). intros C I K (P1 & P2). destruct I as (I1 & I2 & I3). cbn in C, K. unfold clockwise in C.
  unfold orient in *. rewrite <- P1, <- P2 in I1, I2, I3. destruct K as [-> | [-> | ->]]; lra.
Qed.

Lemma inside_no_edge at_ t p u v s : tri_inside at_ t p -> tri_corner t u -> tri_corner t v -> u <> v ->
  ~ same_place p (along (at_ u) (at_ v) s).
Proof.
  destruct t as ((x, y), z). intros (I1 & I2 & I3) U V N (P1 & P2). cbn in U, V.
  assert (K : orient (at_ u) (at_ v) p == 0) by (unfold orient; rewrite P1, P2; unfold along; cbn [fst snd]; ring).
  assert (K' : orient (at_ v) (at_ u) p == 0) by (unfold orient; rewrite P1, P2; unfold along; cbn [fst snd]; ring).
  destruct U as [-> | [-> | ->]]; destruct V as [-> | [-> | ->]]; try congruence; lra.
Qed.

Lemma box_call {E : Env} (vs : list vertex) at_ bound fuel n a b c d cs :
  exact_input vs at_ bound -> 2 * lenN vs + 2 <= idmax ->
  ((2 * length vs + 4) * (2 * length vs + 4) <= fuel)%nat -> (1 <= bound)%Z ->
  lenN vs = n + 4 -> Permutation [a; b; c; d] [n; n + 1; n + 2; n + 3] ->
  box_corners (at_ a) (at_ b) (at_ c) (at_ d) ->
  (forall v, v < n -> in_box (at_ a) (at_ c) (at_ v)) ->
  (forall e, In e cs -> efrom e < lenN vs /\ eto e < lenN vs /\
     (proper at_ e -> clear_between at_ (lenN vs) (efrom e) (eto e))) ->
  noncrossing at_ cs ->
  exists out, constrained_triangulation_from_2d_vertices fuel 1 vs cs = Ret out /\ valid_mesh at_ (lenN vs) out /\
    (forall t c, In t out -> tri_corner t c -> c < lenN vs) /\
    (forall t p, In t out -> tri_inside at_ t p -> ~ on_constraint at_ cs p) /\
    forall p, ~ on_constraint at_ cs p -> (covered at_ out p <-> in_box (at_ a) (at_ c) p /\ in_domain at_ cs p).
Proof.
  intros G Hid Hf Hb Hn Pm Bx Hin Hcs Hx.
  assert (Hf' : (4 * length vs + 12 <= fuel)%nat) by nia.
  assert (X : exists out, constrained_triangulation_from_2d_vertices fuel 1 vs cs = Ret out /\
    (forall e, In e cs -> proper at_ e -> respects at_ (lenN vs) out (efrom e) (eto e)) /\
    forall p, ~ on_constraint at_ cs p -> (covered at_ out p <-> in_box (at_ a) (at_ c) p /\ in_domain at_ cs p)).
  { clear Hf'. assert (Hf' : (4 * length vs + 12 <= fuel)%nat) by nia.
    pair_input G. destruct (grid_box_domain vs px py bound G Hid fuel Hf n a b c d cs Hb Hn Pm Bx Hin Hcs Hx) as (out & R & C).
    exists out. split; [exact R|]. split; [|exact C]. intros e I P.
    exact (proj1 (grid_cdt_edges vs px py bound G Hid fuel 1 Hf' cs e out ltac:(lia) Hx I P R)). }
  destruct X as (out & R & Rs & C). exists out. split; [exact R|].
  destruct (returned_valid vs at_ bound fuel 1 out G Hid Hf' (or_intror (ex_intro _ cs R))) as (VM & Rg).
  split; [exact VM|]. split; [exact Rg|]. split; [|exact C].
  intros t p T I (e & s & Ie & P & (S1 & S2) & Q).
  assert (Ends : forall v, v < lenN vs -> ~ same_place p (at_ v)).
  { intros v V K. destruct (vm_empty _ _ _ VM t v T V (inside_on _ _ _ (tri_inside_place _ _ _ _ K I))) as (k & Kc & Kp).
    apply (inside_no_corner at_ t p k (vm_clockwise _ _ _ VM t T) I Kc). apply (place_trans _ _ _ Kp). now apply place_sym. }
  destruct (Hcs e Ie) as (L1 & L2 & _).
  destruct (Qeq_dec s 0) as [Z|NZ].
  { apply (Ends _ L1). apply (place_trans _ _ _ Q). unfold same_place, along. cbn [fst snd]. rewrite Z. split; ring. }
  destruct (Qeq_dec s 1) as [O|NO].
  { apply (Ends _ L2). apply (place_trans _ _ _ Q). unfold same_place, along. cbn [fst snd]. rewrite O. split; ring. }
  assert (S : (0 < s < 1)%Q).
  { split; apply Qnot_le_lt; intros K; [apply NZ|apply NO]; lra. }
  destruct (rs_edge _ _ _ _ _ (Rs e Ie P) t s T S (inside_on _ _ _ (tri_inside_place _ _ _ _ Q I))) as (u & v & U & V & N & PU & PV).
  apply (inside_no_edge at_ t p u v s I U V N). apply (place_trans _ _ _ Q). apply along_same; now apply place_sym.
Qed.

Lemma in_domain_off at_ cs p : in_domain at_ cs p -> ~ on_constraint at_ cs p.
Proof.
  intros (q & L & e & s & _ & _ & _ & T).
  assert (Q : ~ on_constraint at_ cs q).
  { intros K. apply (T 1%Q); [lra|]. destruct K as (f & u & J & P & U & Q). exists f, u. split; [exact J|]. split; [exact P|]. split; [exact U|].
    refine (place_trans _ _ _ _ Q). unfold same_place, along. cbn [fst snd]. split; ring. }
  clear T. induction L as [|x y L IH A]; [exact Q|]. apply IH. intros K. apply (A 0%Q); [lra|].
  destruct K as (f & u & J & P & U & Q'). exists f, u. split; [exact J|]. split; [exact P|]. split; [exact U|].
  refine (place_trans _ _ _ _ Q'). unfold same_place, along. cbn [fst snd]. split; ring.
Qed.

Lemma domain_place at_ cs p q : same_place p q -> ~ on_constraint at_ cs p -> in_domain at_ cs p -> in_domain at_ cs q.
Proof.
  intros P N D. destruct (domain_around at_ cs p N D) as (r & R & K). apply K. destruct P as (P1 & P2).
  unfold square. rewrite P1, P2. repeat split; lra.
Qed.

(** A covered vertex is in a domain or the end of a constraint. *)
Lemma covered_vertex at_ n cs out a c w : (forall e, In e cs -> efrom e < n /\ eto e < n /\ (proper at_ e -> clear_between at_ n (efrom e) (eto e))) ->
  (forall p, ~ on_constraint at_ cs p -> (covered at_ out p <-> in_box a c p /\ in_domain at_ cs p)) ->
  w < n -> covered at_ out (at_ w) -> in_domain at_ cs (at_ w) \/
    exists e, In e cs /\ (same_place (at_ w) (at_ (efrom e)) \/ same_place (at_ w) (at_ (eto e))).
Proof.
  intros Hcs C W Cw. destruct (on_constraint_dec at_ cs (at_ w)) as [(e & s & I & P & (S1 & S2) & Q)|K]; [right|left; now apply (C (at_ w) K)].
  exists e. split; [exact I|].
  destruct (Hcs e I) as (_ & _ & Cl). destruct (Qeq_dec s 0) as [Z|NZ].
  { left. apply (place_trans _ _ _ Q). unfold same_place, along. cbn [fst snd]. rewrite Z. split; ring. }
  destruct (Qeq_dec s 1) as [O|NO].
  { right. apply (place_trans _ _ _ Q). unfold same_place, along. cbn [fst snd]. rewrite O. split; ring. }
  exfalso. apply (Cl P w s W); [|exact Q]. split; apply Qnot_le_lt; intros X; [apply NZ|apply NO]; lra.
Qed.

Lemma within_near a c p : within_box a c p -> exists r, (0 < r)%Q /\ forall q, square p r q -> in_box a c q.
Proof.
  intros ((X1 & X2) & Y1 & Y2).
  exists (Qmin (Qmin (fst p - fst a) (fst c - fst p)) (Qmin (snd p - snd a) (snd c - snd p))).
  pose proof (Q.le_min_l (Qmin (fst p - fst a) (fst c - fst p)) (Qmin (snd p - snd a) (snd c - snd p))) as M1.
  pose proof (Q.le_min_r (Qmin (fst p - fst a) (fst c - fst p)) (Qmin (snd p - snd a) (snd c - snd p))) as M2.
  pose proof (Q.le_min_l (fst p - fst a) (fst c - fst p)). pose proof (Q.le_min_r (fst p - fst a) (fst c - fst p)).
  pose proof (Q.le_min_l (snd p - snd a) (snd c - snd p)). pose proof (Q.le_min_r (snd p - snd a) (snd c - snd p)).
  split; [repeat apply Q.min_glb_lt; lra|]. intros q ((A1 & A2) & B1 & B2). unfold in_box. repeat split; lra.
Qed.

Lemma grid_box_tally (E1 E2 : Env) (vs1 : list (@vertex E1)) (vs2 : list (@vertex E2)) at1 at2 bound1 bound2 fuel1 fuel2
    n1 n2 a b c d a' b' c' d' cs1 cs2 extra :
  exact_input (E := E1) vs1 at1 bound1 -> exact_input (E := E2) vs2 at2 bound2 ->
  2 * lenN vs1 + 2 <= @idmax E1 -> 2 * lenN vs2 + 2 <= @idmax E2 ->
  ((2 * length vs1 + 4) * (2 * length vs1 + 4) <= fuel1)%nat -> ((2 * length vs2 + 4) * (2 * length vs2 + 4) <= fuel2)%nat ->
  (1 <= bound1)%Z -> (1 <= bound2)%Z ->
  lenN vs1 = n1 + 4 -> Permutation [a; b; c; d] [n1; n1 + 1; n1 + 2; n1 + 3] ->
  box_corners (at1 a) (at1 b) (at1 c) (at1 d) -> (forall v, v < n1 -> in_box (at1 a) (at1 c) (at1 v)) ->
  lenN vs2 = n2 + 4 -> Permutation [a'; b'; c'; d'] [n2; n2 + 1; n2 + 2; n2 + 3] ->
  box_corners (at2 a') (at2 b') (at2 c') (at2 d') -> (forall v, v < n2 -> in_box (at2 a') (at2 c') (at2 v)) ->
  same_place (at1 a) (at2 a') -> same_place (at1 c) (at2 c') ->
  (forall e, In e cs1 -> efrom e < lenN vs1 /\ eto e < lenN vs1 /\
     (proper at1 e -> clear_between at1 (lenN vs1) (efrom e) (eto e))) -> noncrossing at1 cs1 ->
  (forall e, In e cs2 -> efrom e < lenN vs2 /\ eto e < lenN vs2 /\
     (proper at2 e -> clear_between at2 (lenN vs2) (efrom e) (eto e))) -> noncrossing at2 cs2 ->
  same_constraints at1 at2 cs1 cs2 ->
  (forall v, v < lenN vs1 -> in_domain at1 cs1 (at1 v) -> exists w, w < lenN vs2 /\ same_place (at1 v) (at2 w)) ->
  (forall w, w < lenN vs2 -> in_domain at2 cs2 (at2 w) ->
    old at1 at2 (lenN vs1) w \/ exists u, In u extra /\ same_place (at2 u) (at2 w)) ->
  new_places at1 at2 (lenN vs1) (lenN vs2) extra ->
  (forall u, In u extra -> in_domain at2 cs2 (at2 u) /\ within_box (at2 a') (at2 c') (at2 u)) ->
  exists out1 out2, constrained_triangulation_from_2d_vertices (E := E1) fuel1 1 vs1 cs1 = Ret out1 /\
    constrained_triangulation_from_2d_vertices (E := E2) fuel2 1 vs2 cs2 = Ret out2 /\
    lenN out2 = lenN out1 + 2 * lenN extra.
Proof.
  intros G1 G2 I1 I2 F1 F2 Hb1 Hb2 L1 P1 B1 N1 L2 P2 B2 N2 Qa Qc K1 X1 K2 X2 SC V12 V21 Nw Ex.
  destruct (box_call (E := E1) vs1 at1 bound1 fuel1 n1 a b c d cs1 G1 I1 F1 Hb1 L1 P1 B1 N1 K1 X1) as (out1 & R1 & VM1 & Rg1 & O1 & C1).
  destruct (box_call (E := E2) vs2 at2 bound2 fuel2 n2 a' b' c' d' cs2 G2 I2 F2 Hb2 L2 P2 B2 N2 K2 X2) as (out2 & R2 & VM2 & Rg2 & O2 & C2).
  exists out1, out2. split; [exact R1|]. split; [exact R2|].
  pose proof (sc_sym _ _ _ _ SC) as SC'.
  assert (A : forall p, covered at1 out1 p <-> covered at2 out2 p).
  { intros p. split.
    - apply covered_closure; [exact (vm_clockwise _ _ _ VM1)|]. intros t q T I.
      pose proof (O1 t q T I) as No. apply C2; [intros K; apply No; now apply (on_constraint_back at1 at2 cs1 cs2 SC)|].
      destruct (proj1 (C1 q No) (inside_covered at1 out1 t q T I)) as (Bq & Dq).
      split; [now apply (in_box_same _ _ _ _ q Qa Qc)|now apply (in_domain_same at1 at2 cs1 cs2 SC)].
    - apply covered_closure; [exact (vm_clockwise _ _ _ VM2)|]. intros t q T I.
      pose proof (O2 t q T I) as No. apply C1; [intros K; apply No; now apply (on_constraint_back at2 at1 cs2 cs1 SC')|].
      destruct (proj1 (C2 q No) (inside_covered at2 out2 t q T I)) as (Bq & Dq).
      split; [now apply (in_box_same _ _ _ _ q Qa Qc)|now apply (in_domain_same at2 at1 cs2 cs1 SC')]. }
  assert (T : length out2 = (length out1 + 2 * length extra + length (@nil N))%nat); [|unfold lenN; cbn [length] in T; lia].
  apply (tally at1 at2 (lenN vs1) (lenN vs2) out1 out2 VM1 VM2 Rg1 Rg2 A).
  - intros v V Cv. destruct (covered_vertex at1 (lenN vs1) cs1 out1 _ _ v K1 C1 V Cv) as [D|(e & I & Pe)]; [now apply V12|].
    destruct (proj1 SC e I) as (f & J & X & Y). destruct (K2 f J) as (Lf & Lt & _).
    destruct Pe as [Pe|Pe]; [exists (efrom f)|exists (eto f)]; (split; [assumption|]); eapply place_trans; eauto.
  - intros w W Cw. rewrite app_nil_r.
    destruct (covered_vertex at2 (lenN vs2) cs2 out2 _ _ w K2 C2 W Cw) as [D|(f & J & Pf)]; [now apply V21|].
    left. destruct (proj2 SC f J) as (e & I & X & Y). destruct (K1 e I) as (Lf & Lt & _).
    destruct Pf as [Pf|Pf]; [exists (efrom e)|exists (eto e)]; (split; [assumption|]);
      [apply (place_trans _ _ _ X)|apply (place_trans _ _ _ Y)]; now apply place_sym.
  - now rewrite app_nil_r.
  - intros u U. destruct (Ex u U) as (D & Wb).
    destruct (domain_around at2 cs2 (at2 u) (in_domain_off _ _ _ D) D) as (r & Hr & Kr).
    destruct (within_near _ _ _ Wb) as (r' & Hr' & Kr').
    exists (Qmin r r'). split; [now apply Q.min_glb_lt|]. intros q Q1 Q2.
    assert (S1 : square (at2 u) r q) by (apply (square_less _ (Qmin r r')); [apply Q.le_min_l|split; assumption]).
    assert (S2 : square (at2 u) r' q) by (apply (square_less _ (Qmin r r')); [apply Q.le_min_r|split; assumption]).
    destruct (Kr q S1) as (No & Dq). apply (C2 q No). split; [now apply Kr'|exact Dq].
  - intros u [].
Qed.
