(** * Jordan: the inside of simple loops, and results for simple polygons on exact inputs. *)

From Coq Require Import ZArith NArith List Bool QArith Qminmax Lqa Lia Permutation.
From Verif Require Import Base Arith Types Spec SpecBox SpecDomain Triangulation Constrained InputSpec GridCdt
  SpecWinding Winding Inside InsideGrid TallyGrid Tube Polygon.
Import ListNotations.

Section Values.
Local Open Scope Q_scope.
Variable at_ : N -> point.
Variable cs : list edge.
Hypothesis SL : simple_loops at_ cs.

Local Notation "'src' e" := (at_ (efrom e)) (at level 5, e at level 4).
Local Notation "'dst' e" := (at_ (eto e)) (at level 5, e at level 4).
Local Notation w := (winding at_ cs).

Lemma half : 0 < (1#2) < 1.
Proof. split; reflexivity. Qed.

Lemma near_loop e f z : In e cs -> same_loop at_ cs e f -> near at_ cs e (1#2) z -> In f cs /\ near at_ cs f (1#2) z.
Proof.
  intros I L K. induction L as [|f g L IH J V]; [auto|]. destruct IH as (If & IH). split; [exact J|]. exact (near_next at_ cs SL f g z If J V IH).
Qed.

Lemma near_seen e s z p : near at_ cs e s z ->
  (forall t, 0 < t <= 1 -> ~ on_constraint at_ cs (along (along (src e) (dst e) s) p t)) ->
  (orient (src e) (dst e) p < 0 -> w p = z) /\ (0 < orient (src e) (dst e) p -> w p = (z - 1)%Z).
Proof.
  intros (r & R & K) F. set (m := along (src e) (dst e) s) in *.
  destruct (small r (fst p - fst m) (snd p - snd m) R) as (t & T & X & Y).
  set (q := along m p t). assert (Q1 : fst q - fst m == t * (fst p - fst m)) by (unfold q, along; cbn [fst]; ring).
  assert (Q2 : snd q - snd m == t * (snd p - snd m)) by (unfold q, along; cbn [snd]; ring).
  assert (W : w q = w p).
  { apply (winding_step at_ cs (simple_closed at_ cs SL)). intros k Hk (f & u & J & Pf & U & Z1 & Z2).
    apply (F (t + k * (1 - t))); [split; nra|]. exists f, u. split; [exact J|]. split; [exact Pf|]. split; [exact U|].
    split; [rewrite <- Z1|rewrite <- Z2]; unfold q, along; cbn [fst snd]; ring. }
  assert (O : orient (src e) (dst e) q == t * orient (src e) (dst e) p).
  { unfold q. rewrite orient_along. unfold m. rewrite orient_on. ring. }
  destruct (K q) as (K1 & K2); [unfold square; rewrite Q1, Q2; split; assumption|].
  rewrite W, O in *. split; intros L; [apply K1|apply K2]; nra.
Qed.

Lemma near_inside : (forall e, In e cs -> near at_ cs e (1#2) 1%Z) -> inside_right at_ cs.
Proof.
  intros H e s I _ S m. destruct (near_along at_ cs SL e (1#2) s 1 I half S (H e I)) as (r & R & K). exists r. split; [exact R|].
  intros q Q1 Q2. destruct (K q (conj Q1 Q2)) as (A & B). split; intros O; [rewrite (A O); lia|rewrite (B O); lia].
Qed.

Lemma near_values p : (forall e, In e cs -> near at_ cs e (1#2) 1%Z) -> ~ on_constraint at_ cs p -> w p = 0%Z \/ w p = 1%Z.
Proof.
  intros H Nc. destruct (to_generic at_ cs p Nc) as (q & A & Ge & Nq).
  rewrite (winding_step at_ cs (simple_closed at_ cs SL) p q A).
  destruct (Z.eq_dec (w q) 0) as [Z|Z]; [now left|]. right.
  destruct (generic_seen at_ cs q Ge Nq (some_crossing at_ cs q Z)) as (e & s & I & P & S & F & O).
  destruct (near_seen e s 1 q (near_along at_ cs SL e (1#2) s 1 I half S (H e I)) F) as (K1 & K2).
  destruct O as [O|O]; [exact (K1 O)|]. specialize (K2 O). lia.
Qed.

(** One test point for each loop. *)
Lemma loops_inside : (forall e, In e cs -> exists f q, same_loop at_ cs e f /\ sees_side at_ cs q f /\ orient (src f) (dst f) q < 0 /\ w q = 1%Z) ->
  forall e, In e cs -> near at_ cs e (1#2) 1%Z.
Proof.
  intros H e I. destruct (H e I) as (f & q & L & (s & S & F) & O & W). destruct (near_exists at_ cs SL e (1#2) I half) as (z & K).
  destruct (near_loop e f z I L K) as (J & Kf).
  destruct (near_seen f s z q (near_along at_ cs SL f (1#2) s z J half S Kf) F) as (A & _). rewrite (A O) in W. now subst z.
Qed.

(** ** One polygon *)
Lemma bounding : exists a c, forall e, In e cs -> in_box a c (src e) /\ in_box a c (dst e).
Proof.
  clear SL. induction cs as [|e l (a & c & H)]; [exists (0, 0), (0, 0); intros e []|].
  exists (Qmin (fst a) (Qmin (fst (src e)) (fst (dst e))), Qmin (snd a) (Qmin (snd (src e)) (snd (dst e)))),
         (Qmax (fst c) (Qmax (fst (src e)) (fst (dst e))), Qmax (snd c) (Qmax (snd (src e)) (snd (dst e)))).
  assert (Mi : forall x y z, Qmin x (Qmin y z) <= x /\ Qmin x (Qmin y z) <= y /\ Qmin x (Qmin y z) <= z).
  { intros x y z. pose proof (Q.le_min_l x (Qmin y z)). pose proof (Q.le_min_r x (Qmin y z)). pose proof (Q.le_min_l y z). pose proof (Q.le_min_r y z). lra. }
  assert (Ma : forall x y z, x <= Qmax x (Qmax y z) /\ y <= Qmax x (Qmax y z) /\ z <= Qmax x (Qmax y z)).
  { intros x y z. pose proof (Q.le_max_l x (Qmax y z)). pose proof (Q.le_max_r x (Qmax y z)). pose proof (Q.le_max_l y z). pose proof (Q.le_max_r y z). lra. }
  destruct (Mi (fst a) (fst (src e)) (fst (dst e))) as (? & ? & ?). destruct (Mi (snd a) (snd (src e)) (snd (dst e))) as (? & ? & ?).
  destruct (Ma (fst c) (fst (src e)) (fst (dst e))) as (? & ? & ?). destruct (Ma (snd c) (snd (src e)) (snd (dst e))) as (? & ? & ?).
  intros f [<-|I].
  - unfold in_box. cbn [fst snd]. repeat split; assumption.
  - destruct (H f I) as (((A1 & A2) & A3 & A4) & (B1 & B2) & B3 & B4). unfold in_box. cbn [fst snd]. repeat split; lra.
Qed.

Lemma polygon_inside : (forall e f, In e cs -> In f cs -> same_loop at_ cs e f) ->
  (exists p, ~ on_constraint at_ cs p /\ (0 < w p)%Z) -> forall e, In e cs -> near at_ cs e (1#2) 1%Z.
Proof.
  intros One (p0 & N0 & W0) e0 I0. pose proof (simple_closed at_ cs SL) as CL.
  destruct (near_exists at_ cs SL e0 (1#2) I0 half) as (z & K0).
  assert (K : forall e s, In e cs -> 0 < s < 1 -> near at_ cs e s z).
  { intros e s I S. apply (near_along at_ cs SL e (1#2) s z I half S). exact (proj2 (near_loop e0 e z I0 (One e0 e I0 I) K0)). }
  destruct (to_generic at_ cs p0 N0) as (p & A & Ge & Np). rewrite (winding_step at_ cs CL p0 p A) in W0.
  destruct (some_crossing at_ cs p ltac:(lia)) as (e1 & I1 & C1).
  assert (Z1 : (0 < z)%Z).
  { destruct (generic_seen at_ cs p Ge Np (ex_intro _ e1 (conj I1 C1))) as (e & s & I & P & S & F & O).
    destruct (near_seen e s z p (K e s I S) F) as (A1 & A2). destruct O as [O|O]; [rewrite (A1 O) in W0; lia|rewrite (A2 O) in W0; lia]. }
  destruct bounding as (a & c & Bx).
  set (q := (fst p, Qmin (snd p) (snd a) - 1)). pose proof (Q.le_min_l (snd p) (snd a)) as M1. pose proof (Q.le_min_r (snd p) (snd a)) as M2.
  assert (Out : ~ in_box a c q) by (unfold in_box, q; cbn [fst snd]; lra).
  assert (Nq : ~ on_constraint at_ cs q). { intros X. apply Out. exact (on_in_box at_ cs a c Bx q X). }
  assert (Gq : generic at_ cs q). { intros e I. exact (Ge e I). }
  assert (C2 : crossing (src e1) (dst e1) q <> 0%Z).
  { assert (Oq : orient (src e1) (dst e1) q == orient (src e1) (dst e1) p - (snd p - snd q) * (fst (dst e1) - fst (src e1))) by (unfold orient, q; cbn [fst snd]; ring).
    assert (D : 0 < snd p - snd q) by (unfold q; cbn [snd]; lra).
    unfold crossing. destruct (crossing_not _ _ _ C1) as [((X1 & X2) & _ & O)|((X1 & X2) & _ & O)].
    - assert (Y : 0 < (snd p - snd q) * (fst (dst e1) - fst (src e1))) by (apply Qmult_lt_0_compat; lra).
      change (fst q) with (fst p). destruct (Qle_boolP (fst (src e1)) (fst p)); [|contradiction]. destruct (Qle_boolP (fst (dst e1)) (fst p)); [exfalso; lra|]. cbn [andb negb].
      destruct (Qle_boolP 0 (orient (src e1) (dst e1) q)); [exfalso; lra|discriminate].
    - assert (Y : 0 < (snd p - snd q) * (fst (src e1) - fst (dst e1))) by (apply Qmult_lt_0_compat; lra).
      change (fst q) with (fst p). destruct (Qle_boolP (fst (src e1)) (fst p)); [exfalso; lra|]. destruct (Qle_boolP (fst (dst e1)) (fst p)); [|contradiction]. cbn [andb negb].
      destruct (Qle_boolP (orient (src e1) (dst e1) q) 0); [exfalso; lra|discriminate]. }
  destruct (generic_seen at_ cs q Gq Nq (ex_intro _ e1 (conj I1 C2))) as (e & s & I & P & S & F & O).
  pose proof (winding_outside at_ cs CL a c Bx q Out) as W.
  destruct (near_seen e s z q (K e s I S) F) as (A1 & A2).
  assert (Z : z = 1%Z). { destruct O as [O|O]; [specialize (A1 O); lia|specialize (A2 O); lia]. }
  subst z. exact K0.
Qed.

Lemma meet_noncrossing : noncrossing at_ cs.
Proof.
  intros e f I J (X1 & X2).
  assert (Ne : e <> f). { intros ->. unfold orient in X1. nra. }
  set (a := src e) in *. set (b := dst e) in *. set (c := src f) in *. set (d := dst f) in *.
  assert (Sg : forall x y, x * y < 0 -> (x < 0 /\ 0 < y) \/ (0 < x /\ y < 0)).
  { clear. intros x y H. destruct (Q_dec x 0) as [[L|L]|L]; [left; split; [exact L|nra]|right; split; [exact L|nra]|exfalso; rewrite L in H; lra]. }
  set (s := orient c d a / (orient c d a - orient c d b)).
  set (r := orient a b c / (orient a b c - orient a b d)).
  assert (Fr : forall x y, x * y < 0 -> ~ x - y == 0 /\ 0 < x / (x - y) < 1).
  { clear - Sg. intros x y H. destruct (Sg x y H) as [(A & B)|(A & B)].
    - split; [lra|]. assert (E : x / (x - y) * (x - y) == x) by (field; lra). set (k := x / (x - y)) in *. clearbody k. split; nra.
    - split; [lra|]. assert (E : x / (x - y) * (x - y) == x) by (field; lra). set (k := x / (x - y)) in *. clearbody k. split; nra. }
  destruct (Fr _ _ X1) as (N1 & R1). destruct (Fr _ _ X2) as (N2 & R2). fold r in R1. fold s in R2.
  destruct (sl_meet _ _ SL e f s r I J) as [Q|(Q & _)]; [lra|lra| |contradiction|destruct Q; lra].
  fold a b c d. set (X := (fst b - fst a) * (snd d - snd c) - (snd b - snd a) * (fst d - fst c)).
  assert (D1 : orient a b c - orient a b d == - X) by (unfold orient, X; ring). assert (D2 : orient c d a - orient c d b == X) by (unfold orient, X; ring).
  assert (NX : ~ X == 0) by lra.
  assert (S1 : s * X == orient c d a) by (unfold s; rewrite D2; field; exact NX).
  assert (R3 : r * X == - orient a b c) by (unfold r; rewrite D1; field; lra).
  unfold same_place, along. cbn [fst snd]. split.
  - assert (Z : X * (fst a + s * (fst b - fst a) - (fst c + r * (fst d - fst c))) == 0).
    { transitivity (X * (fst a - fst c) + (s * X) * (fst b - fst a) - (r * X) * (fst d - fst c)); [ring|]. rewrite S1, R3. unfold X, orient. ring. }
    destruct (Qmult_integral _ _ Z); [contradiction|lra].
  - assert (Z : X * (snd a + s * (snd b - snd a) - (snd c + r * (snd d - snd c))) == 0).
    { transitivity (X * (snd a - snd c) + (s * X) * (snd b - snd a) - (r * X) * (snd d - snd c)); [ring|]. rewrite S1, R3. unfold X, orient. ring. }
    destruct (Qmult_integral _ _ Z); [contradiction|lra].
Qed.
End Values.

Local Open Scope N_scope.

Section Grid.
Context {E : Env}.
Variables (vs : list vertex) (px py : N -> Q) (bound : Z).
Local Notation pos := (fun v => (px v, py v)).
Hypothesis G : exact_input vs pos bound.
Hypothesis Hid : 2 * lenN vs + 2 <= idmax.

Lemma near_box fuel n a b c d cs : ((2 * length vs + 4) * (2 * length vs + 4) <= fuel)%nat -> (1 <= bound)%Z ->
  lenN vs = n + 4 -> Permutation [a; b; c; d] [n; n + 1; n + 2; n + 3] ->
  box_corners (pos a) (pos b) (pos c) (pos d) ->
  (forall v, v < n -> in_box (pos a) (pos c) (pos v)) ->
  (forall e, In e cs -> efrom e < lenN vs /\ eto e < lenN vs /\ clear_between pos (lenN vs) (efrom e) (eto e)) ->
  simple_loops pos cs -> (forall e, In e cs -> near pos cs e (1#2) 1%Z) ->
  exists out, constrained_triangulation_from_2d_vertices fuel 1 vs cs = Ret out /\
    forall p, ~ on_constraint pos cs p -> (winding pos cs p = 0%Z \/ winding pos cs p = 1%Z) /\ (covered pos out p <-> winding pos cs p = 1%Z).
Proof.
  intros F Hb L P B N1 K SL Ne.
  destruct (grid_loops_box vs px py bound G Hid fuel n a b c d cs F Hb L P B N1) as (out & R & C).
  - intros e I. destruct (K e I) as (K1 & K2 & K3). auto.
  - exact (meet_noncrossing pos cs SL).
  - exact (simple_closed pos cs SL).
  - exact (near_inside pos cs SL Ne).
  - exists out. split; [exact R|]. intros p Nc. pose proof (near_values pos cs SL p Ne Nc) as V. split; [exact V|]. rewrite (C p Nc). lia.
Qed.

Lemma grid_polygon fuel n a b c d cs : ((2 * length vs + 4) * (2 * length vs + 4) <= fuel)%nat -> (1 <= bound)%Z ->
  lenN vs = n + 4 -> Permutation [a; b; c; d] [n; n + 1; n + 2; n + 3] ->
  box_corners (pos a) (pos b) (pos c) (pos d) ->
  (forall v, v < n -> in_box (pos a) (pos c) (pos v)) ->
  (forall e, In e cs -> efrom e < lenN vs /\ eto e < lenN vs /\ clear_between pos (lenN vs) (efrom e) (eto e)) ->
  simple_polygon pos cs -> (exists p, ~ on_constraint pos cs p /\ (0 < winding pos cs p)%Z) ->
  exists out, constrained_triangulation_from_2d_vertices fuel 1 vs cs = Ret out /\
    forall p, ~ on_constraint pos cs p -> (winding pos cs p = 0%Z \/ winding pos cs p = 1%Z) /\ (covered pos out p <-> winding pos cs p = 1%Z).
Proof.
  intros F Hb L P B N1 K (SL & One) W. exact (near_box fuel n a b c d cs F Hb L P B N1 K SL (polygon_inside pos cs SL One W)).
Qed.

Lemma grid_polygons fuel n a b c d cs : ((2 * length vs + 4) * (2 * length vs + 4) <= fuel)%nat -> (1 <= bound)%Z ->
  lenN vs = n + 4 -> Permutation [a; b; c; d] [n; n + 1; n + 2; n + 3] ->
  box_corners (pos a) (pos b) (pos c) (pos d) ->
  (forall v, v < n -> in_box (pos a) (pos c) (pos v)) ->
  (forall e, In e cs -> efrom e < lenN vs /\ eto e < lenN vs /\ clear_between pos (lenN vs) (efrom e) (eto e)) ->
  simple_loops pos cs ->
  (forall e, In e cs -> exists f q, same_loop pos cs e f /\ sees_side pos cs q f /\
     (orient (pos (efrom f)) (pos (eto f)) q < 0)%Q /\ winding pos cs q = 1%Z) ->
  exists out, constrained_triangulation_from_2d_vertices fuel 1 vs cs = Ret out /\
    forall p, ~ on_constraint pos cs p -> (winding pos cs p = 0%Z \/ winding pos cs p = 1%Z) /\ (covered pos out p <-> winding pos cs p = 1%Z).
Proof.
  intros F Hb L P B N1 K SL W. exact (near_box fuel n a b c d cs F Hb L P B N1 K SL (loops_inside pos cs SL W)).
Qed.
End Grid.
