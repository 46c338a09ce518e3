(** * Winding: the winding number is constant along paths that meet no constraint. *)

From Coq Require Import ZArith NArith List Bool QArith Qminmax Lqa Lia.
From Verif Require Import Types Spec SpecDomain SpecWinding.
Import ListNotations.
Local Open Scope Q_scope.

Lemma Qle_boolP x y : reflect (x <= y) (Qle_bool x y).
Proof.
  destruct (Qle_bool x y) eqn:E; constructor.
  - now apply Qle_bool_iff.
  - intros H. apply Qle_bool_iff in H. congruence.
Qed.

(** ** Two segments that change sides meet *)
Lemma orient_along f g p q s : orient f g (along p q s) == (1 - s) * orient f g p + s * orient f g q.
Proof. unfold orient, along. cbn [fst snd]. ring. Qed.

Lemma on_line f g p : fst f < fst g -> fst f <= fst p <= fst g -> orient f g p == 0 ->
  exists r, 0 <= r <= 1 /\ same_place p (along f g r).
Proof.
  intros L (A & B) O. set (d := fst g - fst f). assert (D : 0 < d) by (unfold d; lra).
  exists ((fst p - fst f) / d).
  assert (R : (fst p - fst f) / d * d == fst p - fst f) by (field; lra).
  split.
  { split; apply Qnot_lt_le; intros K; [assert ((fst p - fst f) / d * d < 0) by nra|assert (d < (fst p - fst f) / d * d) by nra]; unfold d in *; lra. }
  unfold along, same_place. cbn [fst snd]. fold d. split; [rewrite R; lra|].
  unfold orient in O. fold d in O.
  assert (K : d * (snd f + (fst p - fst f) / d * (snd g - snd f)) == d * snd f + (fst p - fst f) * (snd g - snd f)) by (field; lra).
  assert (K' : d * (snd p - (snd f + (fst p - fst f) / d * (snd g - snd f))) == 0) by lra.
  destruct (Qmult_integral _ _ K'); lra.
Qed.

Lemma zero_between u v : u <= 0 -> 0 <= v -> exists k, 0 <= k <= 1 /\ (1 - k) * u + k * v == 0.
Proof.
  intros U V. destruct (Qeq_dec v u) as [Z|N].
  - exists 0. split; [split; lra|]. lra.
  - assert (D : 0 < v - u). { apply Qnot_le_lt. intros K. apply N. lra. }
    exists (- u / (v - u)). assert (R : - u / (v - u) * (v - u) == - u) by (field; lra). split.
    + split; apply Qnot_lt_le; intros K; [assert (- u / (v - u) * (v - u) < 0) by nra|assert (v - u < - u / (v - u) * (v - u)) by nra]; lra.
    + field. lra.
Qed.

(** The points of the segment p q at parameters s1 and s2 are above or below the segment f g, on
    different sides. *)
Lemma meet f g p q s1 s2 : fst f < fst g -> 0 <= s1 <= 1 -> 0 <= s2 <= 1 ->
  fst f <= fst (along p q s1) <= fst g -> fst f <= fst (along p q s2) <= fst g ->
  orient f g (along p q s1) <= 0 -> 0 <= orient f g (along p q s2) ->
  exists s r, 0 <= s <= 1 /\ 0 <= r <= 1 /\ same_place (along p q s) (along f g r).
Proof.
  intros L S1 S2 X1 X2 O1 O2.
  destruct (zero_between _ _ O1 O2) as (k & K & Z). set (s := (1 - k) * s1 + k * s2).
  assert (S : 0 <= s <= 1) by (unfold s; split; nra).
  assert (Xs : fst (along p q s) == (1 - k) * fst (along p q s1) + k * fst (along p q s2)) by (unfold s, along; cbn [fst]; ring).
  assert (Os : orient f g (along p q s) == 0).
  { rewrite <- Z. rewrite !orient_along. unfold s. ring. }
  assert (Xr : fst f <= fst (along p q s) <= fst g).
  { rewrite Xs. clear - K X1 X2. destruct K, X1, X2. split; nra. }
  destruct (on_line f g _ L Xr Os) as (r & R & P). exists s, r. auto.
Qed.

(** ** One segment and one step *)
Definition over (p q v : point) : Z :=
  if negb (Qle_bool (fst v) (fst p)) && Qle_bool (fst v) (fst q) && negb (Qle_bool (orient p q v) 0) then 1%Z else 0%Z.

Lemma crossing_flip f g p : crossing g f p = (- crossing f g p)%Z.
Proof.
  assert (O : orient g f p == - orient f g p) by (unfold orient; ring).
  unfold crossing. destruct (Qle_boolP (fst f) (fst p)); destruct (Qle_boolP (fst g) (fst p)); cbn [andb negb]; try reflexivity;
    destruct (Qle_boolP 0 (orient g f p)); destruct (Qle_boolP (orient f g p) 0);
    destruct (Qle_boolP (orient g f p) 0); destruct (Qle_boolP 0 (orient f g p)); try reflexivity; exfalso; lra.
Qed.

Lemma step_right f g p q : fst p <= fst q -> fst f <= fst g ->
  (forall s r, 0 <= s <= 1 -> 0 <= r <= 1 -> same_place (along p q s) (along f g r) -> same_place f g) ->
  (crossing f g p - crossing f g q = over p q g - over p q f)%Z.
Proof.
  intros PQ FG H.
  assert (A0 : fst (along p q 0) == fst p /\ snd (along p q 0) == snd p) by (unfold along; cbn [fst snd]; split; ring).
  assert (A1 : fst (along p q 1) == fst q /\ snd (along p q 1) == snd q) by (unfold along; cbn [fst snd]; split; ring).
  assert (O0 : orient f g (along p q 0) == orient f g p) by (rewrite orient_along; ring).
  assert (O1 : orient f g (along p q 1) == orient f g q) by (rewrite orient_along; ring).
  assert (Mt : fst f < fst g -> forall s1 s2, 0 <= s1 <= 1 -> 0 <= s2 <= 1 ->
     fst f <= fst (along p q s1) <= fst g -> fst f <= fst (along p q s2) <= fst g ->
     orient f g (along p q s1) <= 0 -> 0 <= orient f g (along p q s2) -> False).
  { intros L s1 s2 S1 S2 X1 X2 Y1 Y2. destruct (meet f g p q s1 s2 L S1 S2 X1 X2 Y1 Y2) as (s & r & S & R & P).
    destruct (H s r S R P) as (K & _). lra. }
  assert (At : fst p < fst q -> forall x, fst p <= x <= fst q -> exists s, 0 <= s <= 1 /\ fst (along p q s) == x).
  { intros L x X. exists ((x - fst p) / (fst q - fst p)).
    assert (R : (x - fst p) / (fst q - fst p) * (fst q - fst p) == x - fst p) by (field; lra). split.
    - clear - L X R. set (k := (x - fst p) / (fst q - fst p)) in *. split; apply Qnot_lt_le; intros K; nra.
    - unfold along. cbn [fst]. rewrite R. ring. }
  assert (Og : fst f < fst g -> fst p < fst q -> forall s, fst (along p q s) == fst g ->
     orient f g (along p q s) * (fst q - fst p) == - orient p q g * (fst g - fst f)).
  { intros _ _ s S. unfold along in S. cbn [fst] in S.
    assert (K : orient f g (along p q s) * (fst q - fst p) - (- orient p q g * (fst g - fst f)) ==
      (fst p + s * (fst q - fst p) - fst g) * ((fst g - fst f) * (snd q - snd p) - (snd g - snd f) * (fst q - fst p))) by (unfold orient, along; cbn [fst snd]; ring).
    rewrite S in K. lra. }
  assert (Of : fst f < fst g -> fst p < fst q -> forall s, fst (along p q s) == fst f ->
     orient f g (along p q s) * (fst q - fst p) == - orient p q f * (fst g - fst f)).
  { intros _ _ s S. unfold along in S. cbn [fst] in S.
    assert (K : orient f g (along p q s) * (fst q - fst p) - (- orient p q f * (fst g - fst f)) ==
      (fst p + s * (fst q - fst p) - fst f) * ((fst g - fst f) * (snd q - snd p) - (snd g - snd f) * (fst q - fst p))) by (unfold orient, along; cbn [fst snd]; ring).
    rewrite S in K. lra. }
  assert (Sg : forall a b c d, a * c == - b * d -> 0 < c -> 0 < d -> (0 < b -> a < 0) /\ (b <= 0 -> 0 <= a)).
  { clear. intros a b c d Z C D. split; intros B; [apply Qnot_le_lt|apply Qnot_lt_le]; intros K; nra. }
  unfold crossing, over.
  destruct (Qle_boolP (fst f) (fst p)) as [F1|F1]; destruct (Qle_boolP (fst g) (fst p)) as [G1|G1]; cbn [andb negb].
  - destruct (Qle_boolP (fst f) (fst q)); destruct (Qle_boolP (fst g) (fst q)); cbn [andb negb]; try reflexivity; exfalso; lra.
  - destruct (Qle_boolP (fst f) (fst q)) as [F2|F2]; [|exfalso; lra]. destruct (Qle_boolP (fst g) (fst q)) as [G2|G2]; cbn [andb negb].
    + assert (PQ' : fst p < fst q) by lra. assert (FG' : fst f < fst g) by lra.
      destruct (At PQ' (fst g)) as (s & S & Xs); [lra|]. pose proof (Sg _ _ _ _ (Og FG' PQ' s Xs)) as (S1 & S2); [lra|lra|].
      destruct (Qle_boolP 0 (orient f g p)) as [B|B]; destruct (Qle_boolP (orient p q g) 0) as [C|C]; cbn [negb]; try reflexivity; exfalso.
      * assert (orient f g (along p q s) < 0) by (apply S1; lra). apply (Mt FG' s 0); lra.
      * assert (0 <= orient f g (along p q s)) by (apply S2; lra). apply (Mt FG' 0 s); lra.
    + assert (FG' : fst f < fst g) by lra.
      destruct (Qle_boolP 0 (orient f g p)) as [B|B]; destruct (Qle_boolP 0 (orient f g q)) as [C|C]; try reflexivity; exfalso.
      * apply (Mt FG' 1 0); lra.
      * apply (Mt FG' 0 1); lra.
  - exfalso. lra.
  - destruct (Qle_boolP (fst f) (fst q)) as [F2|F2]; destruct (Qle_boolP (fst g) (fst q)) as [G2|G2]; cbn [andb negb].
    + assert (PQ' : fst p < fst q) by lra.
      destruct (Qle_boolP (orient p q g) 0) as [B|B]; destruct (Qle_boolP (orient p q f) 0) as [C|C]; cbn [negb]; try reflexivity; exfalso.
      * assert (N : ~ same_place f g). { intros (K1 & K2). apply C. unfold orient in *. rewrite <- K1, <- K2 in B. exact B. }
        destruct (meet p q f g 1 0 PQ') as (s & r & S & R & P); try (unfold along; cbn [fst snd]; lra).
        { rewrite orient_along. lra. } { rewrite orient_along. lra. }
        apply N. apply (H r s R S). destruct P; split; symmetry; assumption.
      * assert (N : ~ same_place f g). { intros (K1 & K2). apply B. unfold orient in *. rewrite K1, K2 in C. exact C. }
        destruct (meet p q f g 0 1 PQ') as (s & r & S & R & P); try (unfold along; cbn [fst snd]; lra).
        { rewrite orient_along. lra. } { rewrite orient_along. lra. }
        apply N. apply (H r s R S). destruct P; split; symmetry; assumption.
    + assert (PQ' : fst p < fst q) by lra. assert (FG' : fst f < fst g) by lra.
      destruct (At PQ' (fst f)) as (s & S & Xs); [lra|]. pose proof (Sg _ _ _ _ (Of FG' PQ' s Xs)) as (S1 & S2); [lra|lra|].
      destruct (Qle_boolP 0 (orient f g q)) as [B|B]; destruct (Qle_boolP (orient p q f) 0) as [C|C]; cbn [negb]; try reflexivity; exfalso.
      * assert (orient f g (along p q s) < 0) by (apply S1; lra). apply (Mt FG' s 1); lra.
      * assert (0 <= orient f g (along p q s)) by (apply S2; lra). apply (Mt FG' 1 s); lra.
    + exfalso. lra.
    + reflexivity.
Qed.

Lemma step f g p q : fst p <= fst q ->
  (forall s r, 0 <= s <= 1 -> 0 <= r <= 1 -> same_place (along p q s) (along f g r) -> same_place f g) ->
  (crossing f g p - crossing f g q = over p q g - over p q f)%Z.
Proof.
  intros PQ H. destruct (Qlt_le_dec (fst g) (fst f)) as [L|L]; [|now apply step_right].
  rewrite (crossing_flip g f p), (crossing_flip g f q). enough (crossing g f p - crossing g f q = over p q f - over p q g)%Z by lia.
  apply step_right; [exact PQ|lra|]. intros s r S R (P1 & P2).
  destruct (H s (1 - r) S) as (K1 & K2).
  - lra.
  - assert (F : fst (along f g (1 - r)) == fst (along g f r) /\ snd (along f g (1 - r)) == snd (along g f r)) by (unfold along; cbn [fst snd]; split; ring).
    destruct F as (F1 & F2). split; [rewrite F1; exact P1|rewrite F2; exact P2].
  - split; symmetry; assumption.
Qed.

(** ** Closed loops *)
Section Loops.
Variable at_ : N -> point.

Lemma place_eqbP p q : reflect (same_place p q) (place_eqb p q).
Proof.
  unfold place_eqb. destruct (Qeq_bool (fst p) (fst q)) eqn:A; cbn [andb].
  - destruct (Qeq_bool (snd p) (snd q)) eqn:B; constructor.
    + split; now apply Qeq_bool_iff.
    + intros (_ & K). apply Qeq_bool_iff in K. congruence.
  - constructor. intros (K & _). apply Qeq_bool_iff in K. congruence.
Qed.

Definition total (l : list Z) : Z := fold_right Z.add 0%Z l.

Lemma total_cons x l : total (x :: l) = (x + total l)%Z.
Proof. reflexivity. Qed.

Lemma total_app l1 l2 : total (l1 ++ l2) = (total l1 + total l2)%Z.
Proof. induction l1 as [|x l IH]; cbn; [reflexivity|]. unfold total in *. rewrite IH. lia. Qed.

Lemma filter_swap {A} (f : A -> bool) x l1 l2 : length (filter f (l1 ++ x :: l2)) = length (filter f (x :: l1 ++ l2)).
Proof. cbn [filter]. rewrite !filter_app, app_length. cbn [filter]. destruct (f x); cbn [length]; rewrite ?app_length; lia. Qed.

Lemma balance (g : point -> Z) : (forall p q, same_place p q -> g p = g q) -> forall l1 l2 : list point,
  (forall p, length (filter (fun x => place_eqb x p) l1) = length (filter (fun x => place_eqb x p) l2)) ->
  total (map g l1) = total (map g l2).
Proof.
  intros G. induction l1 as [|x l1 IH]; intros l2 H.
  - destruct l2 as [|y l2]; [reflexivity|]. exfalso. specialize (H y). cbn in H. destruct (place_eqbP y y) as [K|K]; [discriminate H|].
    apply K. split; reflexivity.
  - assert (X : exists y, In y l2 /\ same_place y x).
    { specialize (H x). cbn in H. destruct (place_eqbP x x) as [_|K]; [|exfalso; apply K; split; reflexivity].
      destruct (filter (fun y => place_eqb y x) l2) as [|y l] eqn:F; [discriminate H|]. exists y.
      assert (I : In y (filter (fun y => place_eqb y x) l2)) by (rewrite F; now left). apply filter_In in I.
      destruct I as (I & P). split; [exact I|]. now destruct (place_eqbP y x). }
    destruct X as (y & I & P). destruct (in_split _ _ I) as (a & b & ->).
    assert (R : total (map g l1) = total (map g (a ++ b))).
    { apply IH. intros p. specialize (H p). rewrite filter_swap in H. cbn [filter] in H.
      assert (Q : place_eqb x p = place_eqb y p).
      { destruct (place_eqbP x p) as [U|U]; destruct (place_eqbP y p) as [V|V]; try reflexivity; exfalso.
        - apply V. destruct P, U. split; eapply Qeq_trans; eassumption.
        - apply U. destruct P as (P1 & P2), V as (V1 & V2). split; [rewrite <- P1|rewrite <- P2]; assumption. }
      rewrite Q in H. destruct (place_eqb y p); cbn [length] in H; lia. }
    cbn [map]. rewrite !map_app, total_app in *. cbn [map]. cbn [total fold_right]. fold (total (map g l1)). fold (total (map g b)).
    rewrite (G _ _ P). lia.
Qed.

Variable cs : list edge.
Hypothesis CL : closed_loops at_ cs.

Lemma loops_balance (g : point -> Z) : (forall p q, same_place p q -> g p = g q) ->
  total (map (fun e => g (at_ (eto e)) - g (at_ (efrom e)))%Z cs) = 0%Z.
Proof.
  intros G. pose proof (balance g G (map (fun e => at_ (efrom e)) cs) (map (fun e => at_ (eto e)) cs)) as H.
  rewrite !map_map in H.
  assert (D : forall l, total (map (fun e => g (at_ (eto e)) - g (at_ (efrom e)))%Z l) =
    (total (map (fun e => g (at_ (eto e))) l) - total (map (fun e => g (at_ (efrom e))) l))%Z).
  { induction l as [|e l IH]; [reflexivity|]. cbn [map]. rewrite !total_cons, IH. lia. }
  rewrite D, H; [lia|]. intros p. specialize (CL p).
  assert (F : forall (h : edge -> point) l, length (filter (fun x => place_eqb x p) (map h l)) = length (filter (fun e => place_eqb (h e) p) l)).
  { intros h l. induction l as [|e l IH]; [reflexivity|]. cbn. destruct (place_eqb (h e) p); cbn; lia. }
  now rewrite !F.
Qed.

Lemma over_same p q v w : same_place v w -> over p q v = over p q w.
Proof.
  intros (A & B). assert (O : orient p q v == orient p q w) by (unfold orient; rewrite A, B; reflexivity).
  unfold over. rewrite A, O. reflexivity.
Qed.

Lemma winding_step p q : apart at_ cs p q -> winding at_ cs p = winding at_ cs q.
Proof.
  assert (K : forall p q, fst p <= fst q -> apart at_ cs p q -> winding at_ cs p = winding at_ cs q).
  { clear p q. intros p q L A. pose proof (loops_balance (over p q) (over_same p q)) as B.
    assert (S : forall l, incl l cs -> (total (map (fun e => crossing (at_ (efrom e)) (at_ (eto e)) p) l) -
      total (map (fun e => crossing (at_ (efrom e)) (at_ (eto e)) q) l) = total (map (fun e => over p q (at_ (eto e)) - over p q (at_ (efrom e)))%Z l))%Z).
    { induction l as [|e l IH]; intros I; [reflexivity|]. cbn [map total fold_right].
      fold (total (map (fun e => crossing (at_ (efrom e)) (at_ (eto e)) p) l)).
      fold (total (map (fun e => crossing (at_ (efrom e)) (at_ (eto e)) q) l)).
      fold (total (map (fun e => over p q (at_ (eto e)) - over p q (at_ (efrom e)))%Z l)).
      rewrite <- IH by (intros z Z; apply I; now right).
      rewrite <- (step (at_ (efrom e)) (at_ (eto e)) p q L); [lia|].
      intros s r Hs R P. destruct (place_eqbP (at_ (efrom e)) (at_ (eto e))) as [Z|Z]; [exact Z|].
      exfalso. apply (A s Hs). exists e, r. split; [apply I; now left|]. split; [exact Z|]. split; [exact R|exact P]. }
    specialize (S cs (incl_refl _)). unfold winding. fold (total (map (fun e => crossing (at_ (efrom e)) (at_ (eto e)) p) cs)).
    fold (total (map (fun e => crossing (at_ (efrom e)) (at_ (eto e)) q) cs)). lia. }
  intros A. destruct (Qlt_le_dec (fst q) (fst p)) as [L|L]; [|now apply K].
  symmetry. apply K; [lra|]. intros s S (e & r & I & P & R & Q1 & Q2). apply (A (1 - s)); [lra|].
  exists e, r. split; [exact I|]. split; [exact P|]. split; [exact R|].
  split; [rewrite <- Q1|rewrite <- Q2]; unfold along; cbn [fst snd]; ring.
Qed.

Lemma winding_linked p q : linked at_ cs p q -> winding at_ cs p = winding at_ cs q.
Proof. induction 1 as [|q r L IH A]; [reflexivity|]. rewrite IH. now apply winding_step. Qed.
End Loops.
