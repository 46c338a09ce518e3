(** * Tiles: polygons side by side are all filled. *)

From Coq Require Import ZArith NArith List Bool QArith Qminmax Lqa Lia Permutation.
From Verif Require Import Base Arith Types Spec SpecBox SpecDomain Triangulation Constrained InputSpec GridApi GridCdt LawsonGrid DomainGrid
  SpecWinding Winding Inside InsideGrid TallyGrid Tube Polygon Jordan Outside Anywhere SpecTiles.
Import ListNotations.
Local Open Scope Q_scope.

(** Segments that cross have a point in common, which is not an end. *)
Lemma cross_point a b c d : segments_cross a b c d -> exists s r, 0 < s < 1 /\ 0 < r < 1 /\ same_place (along a b s) (along c d r).
Proof.
  intros (X1 & X2).
  assert (Sg : forall x y, x * y < 0 -> (x < 0 /\ 0 < y) \/ (0 < x /\ y < 0)).
  { clear. intros x y H. destruct (Q_dec x 0) as [[L|L]|L]; [left; split; [exact L|nra]|right; split; [exact L|nra]|exfalso; rewrite L in H; lra]. }
  set (s := orient c d a / (orient c d a - orient c d b)).
  set (r := orient a b c / (orient a b c - orient a b d)).
  assert (Fr : forall x y, x * y < 0 -> ~ x - y == 0 /\ 0 < x / (x - y) < 1).
  { clear - Sg. intros x y H. destruct (Sg x y H) as [(A & B)|(A & B)].
    - split; [lra|]. assert (E : x / (x - y) * (x - y) == x) by (field; lra). set (k := x / (x - y)) in *. clearbody k. split; nra.
    - split; [lra|]. assert (E : x / (x - y) * (x - y) == x) by (field; lra). set (k := x / (x - y)) in *. clearbody k. split; nra. }
  destruct (Fr _ _ X1) as (N1 & R1). destruct (Fr _ _ X2) as (N2 & R2). fold r in R1. fold s in R2.
  exists s, r. split; [exact R2|]. split; [exact R1|].
  set (X := (fst b - fst a) * (snd d - snd c) - (snd b - snd a) * (fst d - fst c)).
  assert (D1 : orient a b c - orient a b d == - X) by (unfold orient, X; ring). assert (D2 : orient c d a - orient c d b == X) by (unfold orient, X; ring).
  assert (NX : ~ X == 0) by lra.
  assert (S1 : s * X == orient c d a) by (unfold s; rewrite D2; field; exact NX).
  assert (R3 : r * X == - orient a b c) by (unfold r; rewrite D1; field; lra).
  unfold same_place, along. cbn [fst snd]. split.
  - assert (Z : X * (fst a + s * (fst b - fst a) - (fst c + r * (fst d - fst c))) == 0).
    { transitivity (X * (fst a - fst c) + (s * X) * (fst b - fst a) - (r * X) * (fst d - fst c)); [ring|]. rewrite S1, R3. unfold X, orient. ring. }
    destruct (Qmult_integral _ _ Z); [contradiction|lra].
  - assert (Z : X * (snd a + s * (snd b - snd a) - (snd c + r * (snd d - snd c))) == 0).
    { transitivity (X * (snd a - snd c) + (s * X) * (snd b - snd a) - (r * X) * (snd d - snd c)); [ring|]. rewrite S1, R3. unfold X, orient. ring. }
    destruct (Qmult_integral _ _ Z); [contradiction|lra].
Qed.

Section Tiles.
Variable at_ : N -> point.
Variable polys : list (list edge).
Hypothesis TI : tiles at_ polys.
Local Notation cs := (concat polys).

Lemma in_tiles e : In e cs -> exists i P, nth_error polys i = Some P /\ In P polys /\ In e P.
Proof.
  intros I. apply in_concat in I. destruct I as (P & IP & I). destruct (In_nth_error _ _ IP) as (i & H). exists i, P. auto.
Qed.

Lemma tile_on P p : In P polys -> on_constraint at_ P p -> on_constraint at_ cs p.
Proof. intros IP (e & s & I & R). exists e, s. split; [apply in_concat; exists P; auto|exact R]. Qed.

Lemma tile_linked P p q : In P polys -> linked at_ cs p q -> linked at_ P p q.
Proof.
  intros IP L. induction L as [|q r L IH A]; [constructor|]. apply (linked_next _ _ _ q); [exact IH|].
  intros s S K. exact (A s S (tile_on P _ IP K)).
Qed.

Lemma tile_near P e s : In P polys -> In e P -> 0 < s < 1 -> near at_ P e s 1%Z.
Proof.
  intros IP I S. destruct (ti_polygon _ _ TI P IP) as (SL & One).
  apply (near_along at_ P SL e (1#2) s 1 I); [lra|exact S|].
  exact (Jordan.polygon_inside at_ P SL One (ti_clockwise _ _ TI P IP) e I).
Qed.

Lemma tile_value P p : In P polys -> ~ on_constraint at_ P p -> winding at_ P p = 0%Z \/ winding at_ P p = 1%Z.
Proof.
  intros IP Nc. destruct (ti_polygon _ _ TI P IP) as (SL & One). apply (near_values at_ P SL p); [|exact Nc].
  intros e I. apply (tile_near P e (1#2) IP I). lra.
Qed.

Lemma tile_closed P : In P polys -> closed_loops at_ P.
Proof. intros IP. exact (simple_closed at_ P (proj1 (ti_polygon _ _ TI P IP))). Qed.

Lemma tiles_noncrossing : noncrossing at_ cs.
Proof.
  intros e f I J X. destruct (in_tiles e I) as (i & P & Hi & IP & Ie). destruct (in_tiles f J) as (j & Q & Hj & IQ & If).
  destruct (Nat.eq_dec i j) as [<- | N].
  - assert (Q = P) by congruence. subst Q. exact (meet_noncrossing at_ P (proj1 (ti_polygon _ _ TI P IP)) e f Ie If X).
  - destruct (cross_point _ _ _ _ X) as (s & r & S & R & K).
    destruct (ti_sides _ _ TI i j P Q e f s r Hi Hj N Ie If S ltac:(lra) K) as ((A1 & A2) & B1 & B2).
    destruct X as (X1 & _). unfold orient in X1. rewrite A1, A2, B1, B2 in X1. nra.
Qed.

(** Points of the domains are in a polygon. *)
Lemma tiles_domain p : in_domain at_ cs p -> exists P, In P polys /\ winding at_ P p = 1%Z.
Proof.
  intros (q & L & e & s & I & S & O & F). destruct (in_tiles e I) as (i & P & Hi & IP & Ie). exists P. split; [exact IP|].
  rewrite (winding_linked at_ P (tile_closed P IP) p q (tile_linked P p q IP L)).
  apply (proj1 (near_seen at_ P (proj1 (ti_polygon _ _ TI P IP)) e s 1%Z q (tile_near P e s IP Ie S)
    (fun t T K => F t T (tile_on P _ IP K))) O).
Qed.

Lemma reversed_dec e (l : list edge) :
  (exists f, In f l /\ same_place (at_ (efrom f)) (at_ (eto e)) /\ same_place (at_ (eto f)) (at_ (efrom e))) \/
  forall f, In f l -> ~ (same_place (at_ (efrom f)) (at_ (eto e)) /\ same_place (at_ (eto f)) (at_ (efrom e))).
Proof.
  induction l as [|g l [(f & I & K)|IH]]; [right; intros f []|left; exists f; split; [now right|exact K]|].
  destruct (same_place_dec' (at_ (efrom g)) (at_ (eto e))) as [A|A]; [destruct (same_place_dec' (at_ (eto g)) (at_ (efrom e))) as [B|B]|].
  - left. exists g. split; [now left|split; assumption].
  - right. intros f [<- | I]; [tauto|exact (IH f I)].
  - right. intros f [<- | I]; [tauto|exact (IH f I)].
Qed.

(** A point right of [e], as close to the middle point as one wants. *)
Lemma right_point a b s r : ~ same_place a b -> 0 < r -> exists q, square (along a b s) r q /\ orient a b q < 0.
Proof.
  intros N R. set (m := along a b s). set (x := snd b - snd a). set (y := - (fst b - fst a)).
  destruct (small r x y R) as (t & (T1 & T2) & (X1 & X2) & Y1 & Y2). exists (fst m + t * x, snd m + t * y). split.
  - unfold square. cbn [fst snd]. split; split; lra.
  - assert (E : orient a b (fst m + t * x, snd m + t * y) == - (t * (x * x + y * y))).
    { unfold orient, m, along, x, y. cbn [fst snd]. ring. }
    rewrite E. assert (P : 0 < x * x + y * y).
    { pose proof (square_pos a b N) as D. unfold dot in D. unfold x, y. lra. }
    nra.
Qed.

Lemma generic_tile p P : generic at_ cs p -> ~ on_constraint at_ cs p -> In P polys -> winding at_ P p = 1%Z -> in_domain at_ cs p.
Proof.
  intros Ge Nc IP W. destruct (In_nth_error _ _ IP) as (j & Hj).
  destruct (some_crossing at_ P p ltac:(lia)) as (g & Ig & Cg).
  destruct (generic_seen at_ cs p Ge Nc) as (e & s & I & Pe & S & F & O).
  { exists g. split; [apply in_concat; exists P; auto|exact Cg]. }
  destruct O as [O|O].
  { exists p. split; [constructor|]. exists e, s. auto. }
  destruct (in_tiles e I) as (i & Q & Hi & IQ & Ie). pose proof (ti_polygon _ _ TI Q IQ) as (SL & _).
  pose proof (tile_near Q e s IQ Ie S) as Ne.
  assert (W0 : winding at_ Q p = 0%Z).
  { apply (proj2 (near_seen at_ Q SL e s 1%Z p Ne (fun t T K => F t T (tile_on Q _ IQ K))) O). }
  assert (N : i <> j). { intros ->. assert (P = Q) by congruence. subst Q. lia. }
  destruct (reversed_dec e cs) as [(f & J & (A1 & A2) & B1 & B2)|Rv].
  - exists p. split; [constructor|]. exists f, (1 - s). split; [exact J|]. split; [lra|]. split.
    + unfold orient in *. rewrite A1, A2, B1, B2. nra.
    + intros t T K. apply (F t T). destruct K as (h & u & Ih & Ph & U & K1 & K2). exists h, u. split; [exact Ih|]. split; [exact Ph|]. split; [exact U|].
      unfold same_place, along in *. cbn [fst snd] in *. rewrite <- K1, <- K2, A1, A2, B1, B2. split; ring.
  - exfalso. set (m := along (at_ (efrom e)) (at_ (eto e)) s) in *.
    assert (Nm : ~ on_constraint at_ P m).
    { intros (f & r & J & Pf & R & K). apply (Rv f); [apply in_concat; exists P; auto|].
      exact (ti_sides _ _ TI i j Q P e f s r Hi Hj N Ie J S R K). }
    assert (Wm : winding at_ P m = 1%Z).
    { rewrite <- W. apply (winding_step at_ P (tile_closed P IP)). intros t (T1 & T2) K. destruct (Qlt_le_dec 0 t) as [T|T].
      - apply (F t ltac:(lra)). exact (tile_on P _ IP K).
      - apply Nm. destruct K as (f & r & J & Pf & R & K1 & K2). exists f, r. split; [exact J|]. split; [exact Pf|]. split; [exact R|].
        assert (Z : t == 0) by lra. unfold same_place. rewrite <- K1, <- K2. unfold along. cbn [fst snd]. rewrite Z. split; ring. }
    destruct (clear_around at_ P m Nm) as (r1 & R1 & K1). destruct (clear_but at_ Q SL e s Ie S) as (r2 & R2 & K2).
    destruct Ne as (r3 & R3 & K3). fold m in K2, K3.
    set (r := Qmin r1 (Qmin r2 r3)). assert (L1 : r <= r1) by apply Q.le_min_l.
    assert (L23 : r <= Qmin r2 r3) by apply Q.le_min_r. pose proof (Q.le_min_l r2 r3). pose proof (Q.le_min_r r2 r3).
    assert (R : 0 < r). { unfold r. destruct (Q.min_spec r1 (Qmin r2 r3)) as [(_ & ->)|(_ & ->)]; [exact R1|]. destruct (Q.min_spec r2 r3) as [(_ & ->)|(_ & ->)]; assumption. }
    destruct (right_point _ _ s r Pe R) as (q & Sq & Oq). fold m in Sq.
    assert (Sq' : forall r', r <= r' -> square m r' q) by (intros r' L; destruct Sq as ((? & ?) & ? & ?); split; split; lra).
    assert (Wq : winding at_ P q = 1%Z).
    { rewrite <- Wm. symmetry. apply (winding_step at_ P (tile_closed P IP)). intros t T. apply K1. apply square_along; [exact T|exact (Sq' r1 L1)]. }
    assert (Vq : winding at_ Q q = 1%Z) by (apply (proj1 (K3 q (Sq' r3 ltac:(lra)))); exact Oq).
    apply (ti_apart _ _ TI i j Q P q Hi Hj N); [|exact (K1 q (Sq' r1 L1))|split; assumption].
    intros (f & u & J & Pf & U & K). destruct (edge_dec f e) as [-> | D].
    + apply (orient_place (at_ (efrom e)) (at_ (eto e))) in K. rewrite orient_on in K. lra.
    + exact (K2 q (Sq' r2 ltac:(lra)) f u J D U K).
Qed.

Theorem tiles_inside p : ~ on_constraint at_ cs p -> (in_domain at_ cs p <-> exists P, In P polys /\ winding at_ P p = 1%Z).
Proof.
  intros Nc. split; [apply tiles_domain|]. intros (P & IP & W). destruct (to_generic at_ cs p Nc) as (q & A & Ge & Nq).
  destruct (generic_tile q P Ge Nq IP) as (u & L & V).
  { rewrite <- W. symmetry. apply (winding_step at_ P (tile_closed P IP)). intros s S K. exact (A s S (tile_on P _ IP K)). }
  exists u. split; [|exact V]. apply (linked_after _ _ p q u); [|exact L]. apply (linked_next _ _ p p q); [constructor|exact A].
Qed.
End Tiles.

(** ** Results for exact inputs *)
Local Open Scope N_scope.

Section Grid.
Context {E : Env}.
Variables (vs : list vertex) (at_ : N -> point) (bound : Z).
Hypothesis G : exact_input vs at_ bound.
Hypothesis Hid : 2 * lenN vs + 2 <= idmax.
Variables (fuel : nat) (polys : list (list edge)).
Hypothesis Hf : ((2 * length vs + 4) * (2 * length vs + 4) <= fuel)%nat.
Hypothesis TI : tiles at_ polys.
Local Notation cs := (concat polys).

Lemma tiles_anywhere bins dt : 1 <= bins -> (Z.of_N bins <= bound)%Z -> triangulation_from_2d_vertices fuel bins vs = Ret dt ->
  (forall e, In e cs -> efrom e < lenN vs /\ eto e < lenN vs /\
     clear_between at_ (lenN vs) (efrom e) (eto e) /\ covers_between at_ dt (efrom e) (eto e)) ->
  exists out, constrained_triangulation_from_2d_vertices fuel bins vs cs = Ret out /\
    forall p, ~ on_constraint at_ cs p -> (covered at_ out p <-> exists P, In P polys /\ winding at_ P p = 1%Z).
Proof.
  intros B1 B2 Hd Hcs.
  destruct (call_returns vs at_ bound G Hid fuel bins dt cs Hf B1 B2 Hd Hcs) as (out & R). exists out. split; [exact R|]. intros p Nc.
  rewrite <- (tiles_inside at_ polys TI p Nc).
  assert (Hs : (4 * length vs + 12 <= fuel)%nat) by nia.
  destruct (input_pair _ _ _ G) as (px & py & Q). pose proof (tiles_noncrossing at_ polys TI) as X. split.
  - intros C. subst at_. exact (grid_inside vs px py bound G Hid fuel bins cs out p Hs R X Nc C).
  - intros D. assert (Cv : forall e, In e cs -> proper at_ e -> covers_between at_ dt (efrom e) (eto e)) by (intros e I _; apply (Hcs e I)).
    assert (NH : no_holes at_ dt) by (subst at_; exact (grid_no_holes vs px py bound G Hid fuel bins dt Hs Hd)).
    destruct (tiles_domain at_ polys TI p D) as (P & IP & W).
    assert (Cd : covered at_ dt p).
    { apply (turned_covered at_ P dt (tile_closed at_ polys TI P IP) NH); [|lia].
      intros e I. apply Cv. apply in_concat. exists P. auto. }
    subst at_. exact (proj2 (grid_domain vs px py bound G Hid fuel Hf bins cs out dt p R Hd X Cv Cd Nc) D).
Qed.

Lemma tiles_boxed n a b c d : (1 <= bound)%Z ->
  lenN vs = n + 4 -> Permutation [a; b; c; d] [n; n + 1; n + 2; n + 3] ->
  box_corners (at_ a) (at_ b) (at_ c) (at_ d) ->
  (forall v, v < n -> in_box (at_ a) (at_ c) (at_ v)) ->
  (forall e, In e cs -> efrom e < lenN vs /\ eto e < lenN vs /\ clear_between at_ (lenN vs) (efrom e) (eto e)) ->
  exists out, constrained_triangulation_from_2d_vertices fuel 1 vs cs = Ret out /\
    forall p, ~ on_constraint at_ cs p -> (covered at_ out p <-> exists P, In P polys /\ winding at_ P p = 1%Z).
Proof.
  intros Hb L P B N1 K. pose proof (tiles_noncrossing at_ polys TI) as X.
  destruct (input_pair _ _ _ G) as (px & py & Q).
  assert (Bv : forall v, v < lenN vs -> in_box (at_ a) (at_ c) (at_ v)).
  { intros v V. destruct (N.lt_ge_cases v n) as [Y|Y]; [now apply N1|].
    assert (I : In v [a; b; c; d]).
    { apply (Permutation_in v (Permutation_sym P)). assert (Z : v = n \/ v = n + 1 \/ v = n + 2 \/ v = n + 3) by lia. cbn. intuition. }
    destruct B as (B1 & B2 & B3 & B4 & B5 & B6). cbn [fst snd] in *. cbn [In] in I.
    destruct I as [<-|[<-|[<-|[<-|[]]]]]; unfold in_box; cbn [fst snd]; repeat split; lra. }
  assert (Box : exists out, constrained_triangulation_from_2d_vertices fuel 1 vs cs = Ret out /\
    forall p, ~ on_constraint at_ cs p -> (covered at_ out p <-> (in_box (at_ a) (at_ c) p /\ in_domain at_ cs p))).
  { assert (K' : forall e, In e cs -> efrom e < lenN vs /\ eto e < lenN vs /\ (proper at_ e -> clear_between at_ (lenN vs) (efrom e) (eto e)))
      by (intros e I; destruct (K e I) as (? & ? & ?); auto).
    subst at_. exact (grid_box_domain vs px py bound G Hid fuel Hf n a b c d cs Hb L P B N1 K' X). }
  destruct Box as (out & R & C). exists out. split; [exact R|]. intros p Nc. rewrite (C p Nc), (tiles_inside at_ polys TI p Nc).
  split; [tauto|]. intros (T & IT & W). split; [|exists T; auto].
  assert (Dec : in_box (at_ a) (at_ c) p \/ ~ in_box (at_ a) (at_ c) p).
  { unfold in_box. destruct (Qlt_le_dec (fst p) (fst (at_ a))); [right; lra|]. destruct (Qlt_le_dec (fst (at_ c)) (fst p)); [right; lra|].
    destruct (Qlt_le_dec (snd p) (snd (at_ a))); [right; lra|]. destruct (Qlt_le_dec (snd (at_ c)) (snd p)); [right; lra|]. left. repeat split; assumption. }
  destruct Dec as [D|D]; [exact D|]. rewrite (winding_outside at_ T (tile_closed at_ polys TI T IT) (at_ a) (at_ c)) in W; [lia| |exact D].
  intros e I. destruct (K e) as (K1 & K2 & _); [apply in_concat; exists T; auto|]. split; apply Bv; assumption.
Qed.
End Grid.
