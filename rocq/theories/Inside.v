(** * Inside: the domains of closed loops are the points they turn around. *)

From Coq Require Import ZArith NArith List Bool QArith Qminmax Lqa Lia.
From Verif Require Import Types Spec SpecDomain SpecWinding Winding TallyGrid.
Import ListNotations.
Local Open Scope Q_scope.

Section Inside.
Variable at_ : N -> point.
Variable cs : list edge.
Hypothesis CL : closed_loops at_ cs.
Hypothesis IR : inside_right at_ cs.

(** The winding number of a point that sees a constraint. *)
Lemma small (r x y : Q) : 0 < r -> exists t, 0 < t <= 1 /\ - r <= t * x <= r /\ - r <= t * y <= r.
Proof.
  intros R. assert (K : exists b, 0 < b /\ - b <= x <= b /\ - b <= y <= b).
  { exists (Qmax 1 (Qmax (Qmax x (- x)) (Qmax y (- y)))).
    pose proof (Q.le_max_l 1 (Qmax (Qmax x (- x)) (Qmax y (- y)))). pose proof (Q.le_max_r 1 (Qmax (Qmax x (- x)) (Qmax y (- y)))).
    pose proof (Q.le_max_l (Qmax x (- x)) (Qmax y (- y))). pose proof (Q.le_max_r (Qmax x (- x)) (Qmax y (- y))).
    pose proof (Q.le_max_l x (- x)). pose proof (Q.le_max_r x (- x)). pose proof (Q.le_max_l y (- y)). pose proof (Q.le_max_r y (- y)).
    repeat split; lra. }
  destruct K as (b & B & (X1 & X2) & (Y1 & Y2)).
  assert (D : 0 < r / b). { apply Qlt_shift_div_l; lra. }
  exists (Qmin 1 (r / b)).
  assert (T : 0 < Qmin 1 (r / b)). { destruct (Q.min_spec 1 (r / b)) as [(_ & ->)|(_ & ->)]; lra. }
  pose proof (Q.le_min_l 1 (r / b)) as T1. pose proof (Q.le_min_r 1 (r / b)) as T2.
  set (t := Qmin 1 (r / b)) in *. assert (E : r / b * b == r) by (field; lra).
  assert (F : t * b <= r). { rewrite <- E. apply Qmult_le_compat_r; lra. }
  assert (M : forall z, - b <= z -> z <= b -> - r <= t * z <= r).
  { intros z Z1 Z2. assert (t * z <= t * b) by (rewrite !(Qmult_comm t); apply Qmult_le_compat_r; lra).
    assert (t * (- z) <= t * b) by (rewrite !(Qmult_comm t); apply Qmult_le_compat_r; lra). split; lra. }
  split; [lra|]. split; apply M; assumption.
Qed.

Lemma seen e s p : In e cs -> proper at_ e -> 0 < s < 1 ->
  (forall t, 0 < t <= 1 -> ~ on_constraint at_ cs (along (along (at_ (efrom e)) (at_ (eto e)) s) p t)) ->
  (orient (at_ (efrom e)) (at_ (eto e)) p < 0 -> (0 < winding at_ cs p)%Z) /\
  (0 < orient (at_ (efrom e)) (at_ (eto e)) p -> (winding at_ cs p <= 0)%Z).
Proof.
  intros I P S F. set (m := along (at_ (efrom e)) (at_ (eto e)) s) in *.
  destruct (IR e s I P S) as (r & R & K). fold m in K.
  destruct (small r (fst p - fst m) (snd p - snd m) R) as (t & T & X & Y).
  set (q := along m p t). assert (Q1 : fst q - fst m == t * (fst p - fst m)) by (unfold q, along; cbn [fst]; ring).
  assert (Q2 : snd q - snd m == t * (snd p - snd m)) by (unfold q, along; cbn [snd]; ring).
  assert (W : winding at_ cs q = winding at_ cs p).
  { apply (winding_step at_ cs CL). intros k Hk (f & u & J & Pf & U & Z1 & Z2).
    apply (F (t + k * (1 - t))); [split; nra|]. exists f, u. split; [exact J|]. split; [exact Pf|]. split; [exact U|].
    split; [rewrite <- Z1|rewrite <- Z2]; unfold q, along; cbn [fst snd]; ring. }
  assert (O : orient (at_ (efrom e)) (at_ (eto e)) q == t * orient (at_ (efrom e)) (at_ (eto e)) p).
  { unfold q. rewrite orient_along. assert (Z : orient (at_ (efrom e)) (at_ (eto e)) m == 0) by (unfold m, orient, along; cbn [fst snd]; ring).
    rewrite Z. ring. }
  destruct (K q) as (K1 & K2); [rewrite Q1; exact X|rewrite Q2; exact Y|].
  rewrite W, O in *. split; intros L; [apply K1|apply K2]; nra.
Qed.

Lemma domain_winding p : in_domain at_ cs p -> (0 < winding at_ cs p)%Z.
Proof.
  intros (q & L & e & s & I & S & O & F). rewrite (winding_linked at_ cs CL p q L).
  assert (P : proper at_ e). { intros (K1 & K2). unfold orient in O. rewrite K1, K2 in O. lra. }
  exact (proj1 (seen e s q I P S F) O).
Qed.

(** ** The first constraint above a point *)
Definition height (f g : point) (x : Q) : Q := snd f + (x - fst f) / (fst g - fst f) * (snd g - snd f).

Lemma height_below f g p : ~ fst f == fst g -> (snd p - height f g (fst p)) * (fst g - fst f) == orient f g p.
Proof. intros N. unfold height, orient. field. lra. Qed.

Lemma crossing_not f g p : crossing f g p <> 0%Z ->
  ((fst f <= fst p < fst g /\ crossing f g p = 1%Z /\ orient f g p < 0) \/
   (fst g <= fst p < fst f /\ crossing f g p = (-1)%Z /\ 0 < orient f g p)).
Proof.
  unfold crossing. destruct (Qle_boolP (fst f) (fst p)); destruct (Qle_boolP (fst g) (fst p)); cbn [andb negb]; try congruence.
  - destruct (Qle_boolP 0 (orient f g p)); try congruence. intros _. left. repeat split; lra.
  - destruct (Qle_boolP (orient f g p) 0); try congruence. intros _. right. repeat split; lra.
Qed.

Lemma lowest p l : (exists e, In e l /\ crossing (at_ (efrom e)) (at_ (eto e)) p <> 0%Z) ->
  exists e, In e l /\ crossing (at_ (efrom e)) (at_ (eto e)) p <> 0%Z /\
    forall f, In f l -> crossing (at_ (efrom f)) (at_ (eto f)) p <> 0%Z ->
      height (at_ (efrom e)) (at_ (eto e)) (fst p) <= height (at_ (efrom f)) (at_ (eto f)) (fst p).
Proof.
  induction l as [|e l IH]; intros (f & I & C); [contradiction|].
  destruct (Z.eq_dec (crossing (at_ (efrom e)) (at_ (eto e)) p) 0) as [Z|Z].
  - destruct IH as (g & J & D & K).
    { destruct I as [<-|I]; [contradiction|]. exists f. auto. }
    exists g. split; [now right|]. split; [exact D|]. intros h [<-|H] Hc; [contradiction|now apply K].
  - assert (Dec : (exists f, In f l /\ crossing (at_ (efrom f)) (at_ (eto f)) p <> 0%Z) \/
       forall f, In f l -> crossing (at_ (efrom f)) (at_ (eto f)) p = 0%Z).
    { clear - l. induction l as [|f l IH]; [right; intros f []|].
      destruct (Z.eq_dec (crossing (at_ (efrom f)) (at_ (eto f)) p) 0) as [A|A]; [|left; exists f; split; [now left|exact A]].
      destruct IH as [(g & I & C)|H]; [left; exists g; split; [now right|exact C]|right]. intros g [<-|I]; auto. }
    destruct Dec as [X|X].
    + destruct (IH X) as (g & J & D & K).
      destruct (Qlt_le_dec (height (at_ (efrom g)) (at_ (eto g)) (fst p)) (height (at_ (efrom e)) (at_ (eto e)) (fst p))) as [L|L].
      * exists g. split; [now right|]. split; [exact D|]. intros h [<-|H] Hc; [lra|now apply K].
      * exists e. split; [now left|]. split; [exact Z|]. intros h [<-|H] Hc; [lra|]. specialize (K h H Hc). lra.
    + exists e. split; [now left|]. split; [exact Z|]. intros h [<-|H] Hc; [lra|]. exfalso. exact (Hc (X h H)).
Qed.

(** No constraint ends straight above or below [p]. *)
Definition generic (p : point) : Prop := forall e, In e cs -> ~ fst (at_ (efrom e)) == fst p /\ ~ fst (at_ (eto e)) == fst p.

Lemma on_crossing e p y s : generic p -> In e cs -> 0 <= s <= 1 -> same_place (fst p, y) (along (at_ (efrom e)) (at_ (eto e)) s) ->
  height (at_ (efrom e)) (at_ (eto e)) (fst p) == y /\
  (snd p < y -> crossing (at_ (efrom e)) (at_ (eto e)) p <> 0%Z).
Proof.
  intros Ge I S (P1 & P2). destruct (Ge e I) as (N1 & N2). set (f := at_ (efrom e)) in *. set (g := at_ (eto e)) in *.
  unfold along in P1, P2. cbn [fst snd] in P1, P2.
  assert (N : ~ fst f == fst g). { intros K. apply N1. rewrite P1, K. ring. }
  assert (Hh : height f g (fst p) == y). { unfold height. rewrite P2, P1. field. lra. }
  split; [exact Hh|]. intros L. pose proof (height_below f g p N) as B. rewrite Hh in B.
  unfold crossing. destruct (Qlt_le_dec (fst f) (fst g)) as [O|O].
  - assert (fst f <= fst p) by nra. assert (~ fst g <= fst p). { intros K. apply N2. nra. }
    destruct (Qle_boolP (fst f) (fst p)); [|contradiction]. destruct (Qle_boolP (fst g) (fst p)); [contradiction|]. cbn [andb negb].
    destruct (Qle_boolP 0 (orient f g p)); [|congruence]. exfalso. nra.
  - assert (O' : fst g < fst f). { apply Qnot_le_lt. intros K. apply N. lra. }
    assert (fst g <= fst p) by nra. assert (~ fst f <= fst p). { intros K. apply N1. nra. }
    destruct (Qle_boolP (fst f) (fst p)); [contradiction|]. destruct (Qle_boolP (fst g) (fst p)); [|contradiction]. cbn [andb negb].
    destruct (Qle_boolP (orient f g p) 0); [|congruence]. exfalso. nra.
Qed.

Lemma some_crossing p : winding at_ cs p <> 0%Z -> exists e, In e cs /\ crossing (at_ (efrom e)) (at_ (eto e)) p <> 0%Z.
Proof.
  clear. intros W. unfold winding in W. induction cs as [|e l IH]; [cbn in W; lia|]. cbn [map fold_right] in W.
  destruct (Z.eq_dec (crossing (at_ (efrom e)) (at_ (eto e)) p) 0) as [Z|Z]; [|exists e; split; [now left|exact Z]].
  rewrite Z in W. destruct IH as (f & I & C); [lia|]. exists f. split; [now right|exact C].
Qed.

Lemma generic_seen p : generic p -> ~ on_constraint at_ cs p ->
  (exists e, In e cs /\ crossing (at_ (efrom e)) (at_ (eto e)) p <> 0%Z) ->
  exists e s, In e cs /\ proper at_ e /\ 0 < s < 1 /\
    (forall t, 0 < t <= 1 -> ~ on_constraint at_ cs (along (along (at_ (efrom e)) (at_ (eto e)) s) p t)) /\
    (orient (at_ (efrom e)) (at_ (eto e)) p < 0 \/ 0 < orient (at_ (efrom e)) (at_ (eto e)) p).
Proof.
  clear CL IR. intros Ge Nc Ex.
  destruct (lowest p cs Ex) as (e & I & C & Lo). destruct (Ge e I) as (N1 & N2).
  set (f := at_ (efrom e)) in *. set (g := at_ (eto e)) in *.
  assert (N : ~ fst f == fst g). { destruct (crossing_not _ _ _ C) as [(? & _)|(? & _)]; lra. }
  assert (P : proper at_ e). { intros (K & _). exact (N K). }
  pose proof (height_below f g p N) as B. set (y := height f g (fst p)) in *.
  assert (Y : snd p < y).
  { destruct (crossing_not _ _ _ C) as [((X1 & X2) & _ & O)|((X1 & X2) & _ & O)]; nra. }
  set (s := (fst p - fst f) / (fst g - fst f)).
  assert (Sd : s * (fst g - fst f) == fst p - fst f) by (unfold s; field; lra).
  assert (S : 0 < s < 1).
  { destruct (crossing_not _ _ _ C) as [((X1 & X2) & _ & O)|((X1 & X2) & _ & O)].
    - assert (fst f < fst p). { apply Qnot_le_lt. intros K. apply N1. lra. } split; nra.
    - assert (fst g < fst p). { apply Qnot_le_lt. intros K. apply N2. lra. } split; nra. }
  assert (M : same_place (along f g s) (fst p, y)).
  { unfold same_place, along. cbn [fst snd]. rewrite Sd. split; [ring|]. unfold y, height, s. reflexivity. }
  destruct M as (M1 & M2).
  assert (F : forall t, 0 < t <= 1 -> ~ on_constraint at_ cs (along (along f g s) p t)).
  { intros t T (e' & u & J & Pf & U & Z).
    assert (Z' : same_place (fst p, y + t * (snd p - y)) (along (at_ (efrom e')) (at_ (eto e')) u)).
    { destruct Z as (Z1 & Z2). cbn [fst snd] in M1, M2. split; cbn [fst snd]; [rewrite <- Z1|rewrite <- Z2]; unfold along at 1; cbn [fst snd]; rewrite ?M1, ?M2; ring. }
    destruct (on_crossing e' p _ u Ge J U Z') as (H1 & H2).
    destruct (Qlt_le_dec (snd p) (y + t * (snd p - y))) as [L|L].
    - specialize (Lo e' J (H2 L)). rewrite H1 in Lo. unfold y in *. nra.
    - apply Nc. exists e', u. split; [exact J|]. split; [exact Pf|]. split; [exact U|]. destruct Z' as (Z1 & Z2). cbn [fst snd] in Z1, Z2.
      split; [exact Z1|]. rewrite <- Z2. nra. }
  exists e, s. split; [exact I|]. split; [exact P|]. split; [exact S|]. split; [exact F|]. fold f g.
  destruct (crossing_not _ _ _ C) as [(X & _ & O)|(X & _ & O)]; [now left|now right].
Qed.

Lemma generic_domain p : generic p -> ~ on_constraint at_ cs p -> (0 < winding at_ cs p)%Z -> in_domain at_ cs p.
Proof.
  intros Ge Nc W. destruct (generic_seen p Ge Nc (some_crossing p ltac:(lia))) as (e & s & I & P & S & F & O).
  destruct (seen e s p I P S F) as (Sr & Sl). destruct O as [O|O].
  - exists p. split; [constructor|]. exists e, s. split; [exact I|]. split; [exact S|]. split; [exact O|exact F].
  - exfalso. specialize (Sl O). lia.
Qed.

Lemma gap x l : exists r, 0 < r /\ forall y, In y l -> y <= x \/ x + r < y.
Proof.
  induction l as [|z l (r & R & H)]; [exists 1; split; [lra|intros y []]|].
  destruct (Qlt_le_dec x z) as [L|L].
  - exists (Qmin r ((z - x) * (1#2))). assert (D : 0 < (z - x) * (1#2)) by lra.
    pose proof (Q.le_min_l r ((z - x) * (1#2))). pose proof (Q.le_min_r r ((z - x) * (1#2))).
    split; [destruct (Q.min_spec r ((z - x) * (1#2))) as [(_ & ->)|(_ & ->)]; lra|].
    intros y [<-|I]; [right; lra|]. destruct (H y I); [now left|right; lra].
  - exists r. split; [exact R|]. intros y [<-|I]; [now left|auto].
Qed.

Lemma to_generic p : ~ on_constraint at_ cs p -> exists q, apart at_ cs p q /\ generic q /\ ~ on_constraint at_ cs q.
Proof.
  clear CL IR. intros Nc. destruct (clear_around at_ cs p Nc) as (r & R & K).
  destruct (gap (fst p) (map (fun e => fst (at_ (efrom e))) cs ++ map (fun e => fst (at_ (eto e))) cs)) as (r' & R' & H).
  set (d := Qmin r r'). assert (D : 0 < d) by (unfold d; destruct (Q.min_spec r r') as [(_ & ->)|(_ & ->)]; lra).
  assert (D1 : d <= r) by apply Q.le_min_l. assert (D2 : d <= r') by apply Q.le_min_r.
  set (q := (fst p + d, snd p)). assert (Sq : square p r q) by (unfold square, q; cbn [fst snd]; repeat split; lra).
  exists q. split; [intros s S; apply K; now apply square_along|]. split; [|exact (K q Sq)].
  intros e I. split; unfold q; cbn [fst]; intros Z.
  - destruct (H (fst (at_ (efrom e)))); [apply in_or_app; left; now apply (in_map (fun e => fst (at_ (efrom e))))|lra|lra].
  - destruct (H (fst (at_ (eto e)))); [apply in_or_app; right; now apply (in_map (fun e => fst (at_ (eto e))))|lra|lra].
Qed.

Theorem winding_domain p : ~ on_constraint at_ cs p -> (in_domain at_ cs p <-> (0 < winding at_ cs p)%Z).
Proof.
  intros Nc. split; [apply domain_winding|]. intros W. destruct (to_generic p Nc) as (q & A & Ge & Nq).
  destruct (generic_domain q Ge Nq) as (u & L & V).
  { rewrite <- (winding_step at_ cs CL p q A). exact W. }
  exists u. split; [|exact V]. apply (linked_after _ _ p q u); [|exact L]. apply (linked_next _ _ p p q); [constructor|exact A].
Qed.
End Inside.
