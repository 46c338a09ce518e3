(** * BoxArea: the areas of the triangles of a box, or of the part of a box outside of loops, add up to its area. *)

From Coq Require Import ZArith NArith List Bool QArith Lqa Lia Permutation.
From Verif Require Import Base Types Spec SpecBox SpecDomain SpecCount SpecWinding SpecArea Winding TallyGrid Tally Hull Count SelectGrid Polygon Facing Area.
Import ListNotations.
Local Open Scope Q_scope.

Lemma sum_one {X} (h : X -> Q) (k : Q) x l : NoDup l -> In x l -> h x == k -> (forall y, In y l -> y <> x -> h y == 0) -> sumq h l == k.
Proof.
  intros Nd I Hx H0. destruct (in_split _ _ I) as (l1 & l2 & ->). rewrite sum_split, Hx. pose proof (NoDup_remove_2 _ _ _ Nd) as Nx.
  assert (Z : forall l, (forall y, In y l -> h y == 0) -> sumq h l == 0).
  { clear. induction l as [|y l IH]; intros H; [reflexivity|]. cbn. fold (sumq h l). rewrite (H y (or_introl eq_refl)), IH; [ring|]. intros z J. apply H. now right. }
  rewrite Z; [ring|]. intros y J. apply H0; [apply in_app_or in J; apply in_or_app; cbn; tauto|]. intros ->. exact (Nx J).
Qed.

Lemma sum_parts {X} (h : X -> Q) (f : X -> bool) l : sumq h l == sumq h (filter f l) + sumq h (filter (fun x => negb (f x)) l).
Proof.
  induction l as [|x l IH]; cbn; [ring|]. fold (sumq h l). rewrite IH. destruct (f x); cbn [negb sumq fold_right]; unfold sumq; ring.
Qed.

Section Turn.
Variables (x0 y0 x1 y1 : Q).
Hypothesis X : x0 < x1.
Hypothesis Y : y0 < y1.

(** Twice the area swept, seen from the lower left corner, on the way along the left, upper and right side. *)
Definition swept (p : point) : Q :=
  if Qeq_dec (snd p) y0 then x0 * snd p - y0 * fst p - 2 * ((x1 - x0) * (y1 - y0))
  else if Qeq_dec (fst p) x0 then x0 * snd p - y0 * fst p
  else if Qeq_dec (snd p) y1 then x0 * snd p - y0 * fst p - (y1 - y0) * (fst p - x0)
  else if Qeq_dec (fst p) x1 then x0 * snd p - y0 * fst p - ((x1 - x0) * (y1 - y0) + (x1 - x0) * (y1 - snd p))
  else 0.

Definition on_side (p q : point) : Prop :=
  (fst p == x0 /\ fst q == x0 /\ snd p < snd q) \/ (snd p == y1 /\ snd q == y1 /\ fst p < fst q) \/
  (fst p == x1 /\ fst q == x1 /\ snd q < snd p) \/ (snd p == y0 /\ snd q == y0 /\ fst q < fst p).

Definition same_side (p q : point) : bool :=
  (Qeq_bool (fst p) x0 && Qeq_bool (fst q) x0) || (Qeq_bool (snd p) y1 && Qeq_bool (snd q) y1) ||
  (Qeq_bool (fst p) x1 && Qeq_bool (fst q) x1) || (Qeq_bool (snd p) y0 && Qeq_bool (snd q) y0).

Definition gap (p q : point) : Q := fst p * snd q - snd p * fst q - (swept q - swept p).

Lemma on_same p q : on_side p q -> same_side p q = true.
Proof.
  unfold on_side, same_side. intros [(A & B & _)|[(A & B & _)|[(A & B & _)|(A & B & _)]]]; apply Qeq_bool_iff in A, B; rewrite A, B; cbn;
    rewrite ?orb_true_r; reflexivity.
Qed.

Definition inb (p : point) : Prop := x0 <= fst p <= x1 /\ y0 <= snd p <= y1.
Definition strict (p : point) : Prop := x0 < fst p < x1 /\ y0 < snd p < y1.

Lemma strict_side p q : strict p -> same_side p q = false.
Proof.
  intros ((A1 & A2) & A3 & A4). unfold same_side.
  assert (K : forall u v, ~ u == v -> Qeq_bool u v = false) by (intros u v H; destruct (Qeq_bool u v) eqn:Z; [apply Qeq_bool_iff in Z; destruct (H Z)|reflexivity]).
  rewrite (K (fst p) x0), (K (fst p) x1), (K (snd p) y0), (K (snd p) y1) by lra. reflexivity.
Qed.

Lemma strict_swept p : strict p -> swept p == 0.
Proof.
  intros ((A1 & A2) & A3 & A4). unfold swept. repeat (destruct (Qeq_dec _ _); [exfalso; lra|]). reflexivity.
Qed.

Ltac rw := repeat match goal with E : ?u == ?v |- _ => rewrite E; clear E end.

(** Along the sides the area is the one swept, except where the turn starts. *)
Lemma gap_side p q : inb p -> inb q -> on_side p q ->
  gap p q == if Qeq_dec (fst p) x0 then if Qeq_dec (snd p) y0 then if Qeq_dec (fst q) x0 then - (2 * ((x1 - x0) * (y1 - y0))) else 0 else 0 else 0.
Proof.
  destruct p as (px, py), q as (qx, qy). unfold inb, on_side, gap, swept. cbn [fst snd]. intros ((A1 & A2) & A3 & A4) ((B1 & B2) & B3 & B4) S.
  destruct S as [(C & D & L)|[(C & D & L)|[(C & D & L)|(C & D & L)]]];
    repeat match goal with |- context [Qeq_dec ?u ?v] => destruct (Qeq_dec u v); try (exfalso; lra) end;
    repeat match goal with E : ?u == ?v |- _ => rewrite E in *; clear E end; try (exfalso; lra); try ring.
Qed.
End Turn.

Section Border.
Variables (at_ : N -> point) (n : N) (out : list (N * N * N)) (cs : list edge) (a0 c0 : point) (ca : N).
Hypothesis V : valid_mesh at_ n out.
Hypothesis ids : forall t v, In t out -> tri_corner t v -> (v < n)%N.
Hypothesis SL : simple_loops at_ cs.
Hypothesis Ne : forall e, In e cs -> near at_ cs e (1#2) 0.
Hypothesis Ends : forall e, In e cs -> (efrom e < n)%N /\ (eto e < n)%N.
Hypothesis Off : forall t p, In t out -> tri_inside at_ t p -> ~ on_constraint at_ cs p.
Hypothesis Bx : fst a0 < fst c0 /\ snd a0 < snd c0.
Hypothesis Cov : forall p, ~ on_constraint at_ cs p -> (covered at_ out p <-> in_box a0 c0 p /\ winding at_ cs p = 0%Z).
Hypothesis Rs : forall t e, In t out -> In e cs -> respects at_ n out (efrom e) (eto e).
Hypothesis Boxed : forall v, (v < n)%N -> in_box a0 c0 (at_ v).
Hypothesis Corner : (ca < n)%N /\ same_place (at_ ca) a0.
Notation inner := (strict (fst a0) (snd a0) (fst c0) (snd c0)).
Notation sided := (on_side (fst a0) (snd a0) (fst c0) (snd c0)).
Hypothesis In_ : forall e, In e cs -> inner (at_ (efrom e)) /\ inner (at_ (eto e)).

Lemma inner_zero u v c p : is_tri out u v c -> strictly_inside (at_ u) (at_ v) (at_ c) p -> winding at_ cs p = 0%Z.
Proof.
  intros T I. destruct (tri_in at_ n out V u v c T) as (t & Ht & _ & It & Ot & _). apply It in I. apply (Cov p (Off t p Ht I)).
  exact (inside_covered at_ out t p Ht I).
Qed.

Lemma inner_square m : inner m -> exists r, 0 < r /\ forall q, square m r q -> in_box a0 c0 q.
Proof.
  intros ((A1 & A2) & A3 & A4). destruct (below (fst m - fst a0) (fst c0 - fst m) ltac:(lra) ltac:(lra)) as (r1 & R1 & R2 & R3).
  destruct (below (snd m - snd a0) (snd c0 - snd m) ltac:(lra) ltac:(lra)) as (r2 & R4 & R5 & R6).
  destruct (below r1 r2 R1 R4) as (r & R & R7 & R8). exists r. split; [exact R|]. intros q ((Q1 & Q2) & Q3 & Q4). unfold in_box. repeat split; lra.
Qed.

Lemma edge_sided u v c : is_tri out u v c -> ~ inner (along (at_ u) (at_ v) (1#2)) -> sided (at_ u) (at_ v).
Proof.
  intros T N0. destruct (tri_ids at_ n out V ids u v c T) as (Lu & Lv & Lc). pose proof (tri_in at_ n out V u v c T) as (_ & _ & _ & _ & _ & Cw).
  destruct (Boxed u Lu) as ((A1 & A2) & A3 & A4), (Boxed v Lv) as ((B1 & B2) & B3 & B4), (Boxed c Lc) as ((C1 & C2) & C3 & C4).
  unfold on_side. unfold strict, along in N0. unfold orient in Cw. cbn [fst snd] in *.
  destruct (at_ u) as (ux, uy), (at_ v) as (vx, vy), (at_ c) as (cx, cy), a0 as (x0, y0), c0 as (x1, y1). cbn [fst snd] in *.
  destruct (Qlt_le_dec x0 (ux + (1#2) * (vx - ux))) as [D1|D1]; [|left].
  - destruct (Qlt_le_dec (ux + (1#2) * (vx - ux)) x1) as [D2|D2]; [|right; right; left].
    + destruct (Qlt_le_dec y0 (uy + (1#2) * (vy - uy))) as [D3|D3]; [|right; right; right].
      * destruct (Qlt_le_dec (uy + (1#2) * (vy - uy)) y1) as [D4|D4]; [exfalso; apply N0; auto|right; left].
        assert (Hu : uy == y1) by lra. assert (Hv : vy == y1) by lra. split; [exact Hu|]. split; [exact Hv|]. rewrite Hu, Hv in Cw. nra.
      * assert (Hu : uy == y0) by lra. assert (Hv : vy == y0) by lra. split; [exact Hu|]. split; [exact Hv|]. rewrite Hu, Hv in Cw. nra.
    + assert (Hu : ux == x1) by lra. assert (Hv : vx == x1) by lra. split; [exact Hu|]. split; [exact Hv|]. rewrite Hu, Hv in Cw. nra.
  - assert (Hu : ux == x0) by lra. assert (Hv : vx == x0) by lra. split; [exact Hu|]. split; [exact Hv|]. rewrite Hu, Hv in Cw. nra.
Qed.

Lemma inner_dec m : inner m \/ ~ inner m.
Proof.
  unfold strict. destruct (Qlt_le_dec (fst a0) (fst m)), (Qlt_le_dec (fst m) (fst c0)), (Qlt_le_dec (snd a0) (snd m)), (Qlt_le_dec (snd m) (snd c0));
    first [left; now auto|right; intros ((K1 & K2) & K3 & K4); lra].
Qed.

Lemma edge_kind u v : In (u, v) (border_edges out) -> (exists e, In e cs /\ along_constraint at_ u v e) \/ sided (at_ u) (at_ v).
Proof.
  intros B. apply border_iff in B. destruct B as (B & NB). destruct (edge_tri out u v B) as (c & T).
  pose proof (tri_in at_ n out V u v c T) as (t & Ht & Ct & It & Ot & Cw). destruct (tri_ids at_ n out V ids u v c T) as (Lu & Lv & Lc).
  destruct (inner_dec (along (at_ u) (at_ v) (1#2))) as [Inn|Inn]; [left|right; exact (edge_sided u v c T Inn)].
  set (m := along (at_ u) (at_ v) (1#2)) in *.
  assert (U1 : orient (at_ u) (at_ v) m == 0) by apply line_on.
  assert (U2 : orient (at_ v) (at_ c) m < 0) by (unfold m, orient, along in *; cbn [fst snd] in *; lra).
  assert (U3 : orient (at_ c) (at_ u) m < 0) by (unfold m, orient, along in *; cbn [fst snd] in *; lra).
  destruct (small_in (at_ u) (at_ v) (at_ c) m (at_ c) ltac:(lra) (fun _ => Cw) U2 U3) as (e1 & E1 & K1).
  destruct (on_constraint_dec at_ cs m) as [On|Nc].
  - destruct On as (e & s & Ie & Pe & (S1 & S2) & P). exists e. split; [exact Ie|]. destruct (Ends e Ie) as (L1 & L2).
    assert (S0 : ~ s == 0).
    { intros Z. apply (edge_point at_ n out V u v c (1#2) (efrom e) T ltac:(lra) L1). apply Facing.place_sym. apply (Facing.place_trans _ _ _ P).
      unfold same_place, along. cbn [fst snd]. rewrite Z. split; ring. }
    assert (S3 : ~ s == 1).
    { intros Z. apply (edge_point at_ n out V u v c (1#2) (eto e) T ltac:(lra) L2). apply Facing.place_sym. apply (Facing.place_trans _ _ _ P).
      unfold same_place, along. cbn [fst snd]. rewrite Z. split; ring. }
    assert (S : 0 < s < 1) by (split; apply Qnot_le_lt; intros K; [apply S0|apply S3]; lra).
    assert (Im : tri_inside_or_on at_ t (along (at_ (efrom e)) (at_ (eto e)) s)).
    { apply Ot. unfold inside_or_on. rewrite <- !(at_place _ _ _ _ P). repeat split; lra. }
    destruct (rs_edge _ _ _ _ _ (Rs t e Ht Ie) t s Ht S Im) as (x & y & Cx & Cy & Nxy & Px & Py). apply Ct in Cx, Cy.
    assert (Om : orient (at_ x) (at_ y) m == 0).
    { transitivity (orient (at_ (efrom e)) (at_ (eto e)) m); [|rewrite (at_place _ _ _ _ P); apply line_on].
      destruct Px as (X1 & X2), Py as (Y1 & Y2). unfold orient. rewrite X1, X2, Y1, Y2. reflexivity. }
    assert (Sw : forall a b p : point, orient a b p == - orient b a p) by (intros; unfold orient; ring).
    destruct Cx as [-> |[-> | ->]], Cy as [-> |[-> | ->]]; try (destruct (Nxy eq_refl)).
    + split; assumption.
    + exfalso. rewrite Sw in Om. lra.
    + exfalso.
      destruct (near_along at_ cs SL e (1#2) s 0 Ie ltac:(lra) S (Ne e Ie)) as (r & R & K).
      destruct (shrink m (at_ c) r R) as (e2 & E2 & K2). destruct (below e1 e2 E1 E2) as (h & H1 & H2 & H3).
      pose proof (inner_zero u v c _ T (K1 h ltac:(lra))) as W.
      destruct (K (along m (at_ c) h)) as (_ & Kl).
      { specialize (K2 h ltac:(lra)). destruct P as (P1 & P2). destruct K2 as (A & A'). unfold square. rewrite <- P1, <- P2. split; assumption. }
      rewrite Kl in W; [lia|]. destruct (K1 h ltac:(lra)) as (N1 & _).
      assert (Q : orient (at_ (efrom e)) (at_ (eto e)) (along m (at_ c) h) == - orient (at_ u) (at_ v) (along m (at_ c) h)).
      { destruct Px as (X1 & X2), Py as (Y1 & Y2). unfold orient. rewrite <- X1, <- X2, <- Y1, <- Y2. ring. }
      rewrite Q. lra.
    + exfalso. lra.
    + exfalso. lra.
    + exfalso. rewrite Sw in Om. lra.
  - exfalso. apply NB. destruct (clear_around at_ cs m Nc) as (r' & R' & K'). pose proof (simple_closed at_ cs SL) as CL.
    destruct (inner_square m Inn) as (r'' & R'' & Ks). destruct (below r' r'' R' R'') as (r & R & Rl & Rl').
    assert (K : forall q, square m r q -> ~ on_constraint at_ cs q) by (intros q Sq; apply K'; apply (square_less m r r' q ltac:(lra) Sq)).
    assert (Kb : forall q, square m r q -> in_box a0 c0 q) by (intros q Sq; apply Ks; apply (square_less m r r'' q ltac:(lra) Sq)).
    assert (Wm : forall q, square m r q -> winding at_ cs q = winding at_ cs m).
    { intros q Sq. symmetry. apply (winding_step at_ cs CL). intros s S. apply K. now apply square_along. }
    destruct (shrink m (at_ c) r R) as (e2 & E2 & K2). destruct (below e1 e2 E1 E2) as (h & H1 & H2 & H3).
    pose proof (inner_zero u v c _ T (K1 h ltac:(lra))) as W1. rewrite (Wm _ (K2 h ltac:(lra))) in W1.
    set (y0 := along m (at_ c) (-1 # 1)).
    assert (Y0 : 0 < orient (at_ u) (at_ v) y0).
    { unfold y0. rewrite orient_along, U1. lra. }
    destruct (shrink m y0 r R) as (e3 & E3 & K3). destruct (below e3 1 E3 ltac:(lra)) as (h' & G1 & G2 & G3).
    set (y := along m y0 h').
    assert (Sy : square m r y) by (apply K3; lra).
    assert (Oy : 0 < orient (at_ u) (at_ v) y) by (unfold y; rewrite orient_along, U1; nra).
    destruct (start_tri at_ out m y) as (t' & e4 & Ht' & E4 & K4).
    { intros s S. pose proof (square_along m r y s ltac:(lra) Sy) as Sq. apply (Cov _ (K _ Sq)). split; [exact (Kb _ Sq)|]. rewrite (Wm _ Sq). exact W1. }
    destruct t' as ((x', y'), z'). cbn in K4.
    apply (facing at_ n out V ids u v c x' y' z' (along m y (e4 * (1#2))) (1#2) T (or_introl Ht')); [apply K4; lra| |lra|].
    + rewrite orient_along, U1. nra.
    + exact (inside_limit _ _ _ m y e4 E4 K4).
Qed.

Lemma side_kind e : In e cs -> exists u v, In (u, v) (border_edges out) /\ along_constraint at_ u v e.
Proof.
  intros Ie. destruct (Ne e Ie) as (r & R & K). destruct (clear_but at_ cs SL e (1#2) Ie ltac:(lra)) as (r1 & R1 & C).
  destruct (In_ e Ie) as (In1 & In2).
  set (f := at_ (efrom e)) in *. set (g := at_ (eto e)) in *. set (m := along f g (1#2)) in *.
  assert (Om : orient f g m == 0) by apply line_on.
  assert (Inm : inner m) by (unfold strict, m, along in *; cbn [fst snd]; lra).
  destruct (inner_square m Inm) as (r5 & R5 & Ks).
  destruct (below r r1 R R1) as (r6 & R6 & R7 & R8). destruct (below r6 r5 R6 R5) as (r2 & R2 & R9 & R10).
  assert (R3 : r2 < r) by lra. assert (R4 : r2 < r1) by lra. clear r6 R6 R7 R8 R9.
  assert (Clear : forall q, square m r2 q -> ~ orient f g q == 0 -> ~ on_constraint at_ cs q).
  { intros q Sq O (e' & s & J & _ & S & P). destruct (edge_dec e' e) as [-> |D].
    - apply O. rewrite (at_place _ _ _ _ P). apply line_on.
    - exact (C q (square_less m r2 r1 q ltac:(lra) Sq) e' s J D S P). }
  assert (Npr : 0 < (fst g - fst f) * (fst g - fst f) + (snd g - snd f) * (snd g - snd f)).
  { apply square_sum. pose proof (sl_proper _ _ SL e Ie) as Pr. intros (A & B). apply Pr. fold f g. split; lra. }
  (* a point on the right *)
  set (y0 := (fst m + (snd g - snd f), snd m - (fst g - fst f))).
  assert (Y0 : orient f g y0 < 0).
  { assert (I : orient f g y0 == orient f g m - ((fst g - fst f) * (fst g - fst f) + (snd g - snd f) * (snd g - snd f))) by (unfold y0, orient; cbn [fst snd]; ring). lra. }
  clearbody y0. destruct (shrink m y0 r2 R2) as (e3 & E3 & K3). destruct (below e3 1 E3 ltac:(lra)) as (h & G1 & G2 & G3).
  set (y := along m y0 h).
  assert (Sy : square m r2 y) by (apply K3; lra).
  assert (Oy : orient f g y < 0) by (unfold y; rewrite orient_along, Om; nra).
  assert (Oys : forall s, 0 < s -> orient f g (along m y s) < 0) by (intros s S; rewrite orient_along, Om; nra).
  destruct (start_tri at_ out m y) as (t & e4 & Ht & E4 & K4).
  { intros s S. pose proof (square_along m r2 y s ltac:(lra) Sy) as Sq. pose proof (Oys s ltac:(lra)) as Os.
    apply (Cov _ (Clear _ Sq ltac:(lra))). split; [apply Ks; exact (square_less m r2 r5 _ ltac:(lra) Sq)|].
    apply (K _ (square_less m r2 r _ ltac:(lra) Sq)). exact Os. }
  assert (Im : tri_inside_or_on at_ t m).
  { destruct t as ((x, y'), z). cbn in K4 |- *. exact (inside_limit _ _ _ m y e4 E4 K4). }
  destruct (rs_edge _ _ _ _ _ (Rs t e Ht Ie) t (1#2) Ht ltac:(lra) Im) as (u & v & Cu & Cv & Nuv & Pu & Pv).
  assert (Ou : forall q, orient (at_ u) (at_ v) q == orient f g q).
  { intros q. destruct Pu as (X1 & X2), Pv as (Y1 & Y2). unfold orient. fold f g in X1, X2, Y1, Y2. rewrite X1, X2, Y1, Y2. reflexivity. }
  assert (Sw : forall a b p : point, orient a b p == - orient b a p) by (intros; unfold orient; ring).
  assert (Q4 : tri_inside_or_on at_ t (along m y (e4 * (1#2)))) by (apply K4; lra).
  assert (Bad : forall d, is_tri out v u d -> ~ tri_inside_or_on at_ t (along m y (e4 * (1#2))) \/ t <> (v, u, d) /\ t <> (u, d, v) /\ t <> (d, v, u)).
  { intros d _. right. pose proof (Oys (e4 * (1#2)) ltac:(lra)) as O. pose proof (Ou (along m y (e4 * (1#2)))) as O1. pose proof (Sw (at_ v) (at_ u) (along m y (e4 * (1#2)))) as O2.
    repeat split; intros ->; cbn in Q4; destruct Q4 as (W1 & W2 & W3); lra. }
  assert (T : exists c, is_tri out u v c).
  { destruct t as ((a, b), d). cbn in Cu, Cv. 
    destruct Cu as [-> |[-> | ->]], Cv as [-> |[-> | ->]]; try (destruct (Nuv eq_refl)).
    - exists d. now left.
    - exfalso. destruct (Bad b) as [W|(W1 & W2 & W3)]; [unfold is_tri; auto|exact (W Q4)|]. first [apply W1; reflexivity|apply W2; reflexivity|apply W3; reflexivity].
    - exfalso. destruct (Bad d) as [W|(W1 & W2 & W3)]; [unfold is_tri; auto|exact (W Q4)|]. apply W1. reflexivity.
    - exists a. unfold is_tri. auto.
    - exists b. unfold is_tri. auto.
    - exfalso. destruct (Bad a) as [W|(W1 & W2 & W3)]; [unfold is_tri; auto|exact (W Q4)|]. first [apply W1; reflexivity|apply W2; reflexivity|apply W3; reflexivity]. }
  destruct T as (c & T). exists u, v. split; [|split; assumption]. apply border_iff. split; [exact (tri_edge out u v c T)|].
  intros NB. destruct (edge_tri out v u NB) as (d & T'). pose proof (tri_in at_ n out V v u d T') as (t' & Ht' & Ct & It & Ot & Cw).
  set (m' := along (at_ v) (at_ u) (1#2)).
  assert (Pm : same_place m' m).
  { destruct Pu as (X1 & X2), Pv as (Y1 & Y2). fold f g in X1, X2, Y1, Y2. unfold m', m, same_place, along. cbn [fst snd]. rewrite X1, X2, Y1, Y2. split; ring. }
  assert (U1 : orient (at_ v) (at_ u) m' == 0) by apply line_on.
  assert (U2 : orient (at_ u) (at_ d) m' < 0) by (unfold m', orient, along in *; cbn [fst snd] in *; lra).
  assert (U3 : orient (at_ d) (at_ v) m' < 0) by (unfold m', orient, along in *; cbn [fst snd] in *; lra).
  destruct (small_in (at_ v) (at_ u) (at_ d) m' (at_ d) ltac:(lra) (fun _ => Cw) U2 U3) as (e1 & E1 & K1).
  destruct (shrink m' (at_ d) r R) as (e2 & E2 & K2). destruct (below e1 e2 E1 E2) as (h' & H1 & H2 & H3).
  pose proof (inner_zero v u d _ T' (K1 h' ltac:(lra))) as W.
  destruct (K (along m' (at_ d) h')) as (_ & Kl).
  { specialize (K2 h' ltac:(lra)). destruct Pm as (P1 & P2). unfold square in *. rewrite <- P1, <- P2. exact K2. }
  rewrite Kl in W; [lia|]. destruct (K1 h' ltac:(lra)) as (N1 & _). rewrite <- Ou, Sw. lra.
Qed.

(** The edge that leaves the lower left corner along the left side. *)
Lemma first_edge : exists u v, In (u, v) (border_edges out) /\ same_place (at_ u) a0 /\ fst (at_ v) == fst a0.
Proof.
  destruct Corner as (La & Pa). set (y := (fst a0, snd c0)).
  assert (On : forall s, 0 < s <= 1 -> ~ on_constraint at_ cs (along a0 y s)).
  { intros s S (e & r & Ie & _ & (R1 & R2) & (P1 & _)). destruct (In_ e Ie) as (((A1 & _) & _) & (B1 & _) & _).
    assert (Q : fst (along a0 y s) == fst a0) by (unfold along, y; cbn [fst snd]; ring). rewrite Q in P1. unfold along in P1. cbn [fst snd] in P1. clear - P1 A1 B1 R1 R2.
    destruct (Qlt_le_dec r (1#2)); nra. }
  destruct (start_tri at_ out a0 y) as (t & e & Ht & E & K).
  { intros s S. apply (Cov _ (On s S)). split.
    - destruct Bx as (X & Y), S as (S1 & S2). unfold in_box, along, y. cbn [fst snd]. clear On La Pa. clear y. repeat split; nra.
    - unfold winding. clear - In_. induction cs as [|f l IH]; [reflexivity|]. cbn [map fold_right].
      rewrite IH by (intros g Ig; apply In_; now right). destruct (In_ f (or_introl eq_refl)) as (((A1 & _) & _) & (B1 & _) & _).
      assert (Z : crossing (at_ (efrom f)) (at_ (eto f)) (along a0 y s) = 0%Z); [|rewrite Z; reflexivity].
      unfold crossing.
      assert (Q : fst (along a0 y s) == fst a0) by (unfold along, y; cbn [fst snd]; ring).
      assert (F : forall w, fst a0 < w -> Qle_bool w (fst (along a0 y s)) = false).
      { intros w W. destruct (Qle_bool w (fst (along a0 y s))) eqn:L; [|reflexivity]. apply Qle_bool_iff in L. exfalso. lra. }
      rewrite (F _ A1), (F _ B1). reflexivity. }
  assert (Ia : tri_inside_or_on at_ t a0).
  { destruct t as ((x, y'), z). cbn in K |- *. exact (inside_limit _ _ _ a0 y e E K). }
  assert (Ia' : tri_inside_or_on at_ t (at_ ca)).
  { destruct t as ((p, q), r). cbn in Ia |- *. unfold inside_or_on in *. rewrite !(at_place _ _ _ _ Pa). exact Ia. }
  destruct (vm_empty _ _ _ V t ca Ht La Ia') as (u & Cu & Pu).
  assert (T : exists v w, is_tri out u v w /\ (forall p, tri_inside_or_on at_ t p -> inside_or_on (at_ u) (at_ v) (at_ w) p)).
  { destruct t as ((p, q), r). cbn in Cu. destruct Cu as [-> |[-> | ->]].
    - exists q, r. split; [now left|]. intros w W. exact W.
    - exists r, p. split; [right; now (left + right)|]. intros w W. cbn in W. unfold inside_or_on in *. tauto.
    - exists p, q. split; [right; now (left + right)|]. intros w W. cbn in W. unfold inside_or_on in *. tauto. }
  destruct T as (v & w & T & Tin). destruct (tri_ids at_ n out V ids u v w T) as (Lu & Lv & Lw).
  pose proof (Facing.place_trans _ _ _ Pu Pa) as (U1 & U2). pose proof (tri_in at_ n out V u v w T) as (_ & _ & _ & _ & _ & Cw).
  destruct (Boxed v Lv) as ((B1 & B2) & B3 & B4), (Boxed w Lw) as ((C1 & C2) & C3 & C4), Bx as (X & Y).
  assert (Hv : fst (at_ v) == fst a0).
  { destruct (Tin _ (K (e * (1#2)) ltac:(lra))) as (O & _ & _).
    assert (Q : orient (at_ u) (at_ v) (along a0 y (e * (1#2))) == (fst (at_ v) - fst a0) * (e * (1#2) * (snd c0 - snd a0))).
    { unfold orient, along, y. cbn [fst snd]. rewrite U1, U2. ring. }
    rewrite Q in O. assert (0 < e * (1#2) * (snd c0 - snd a0)) by nra. nra. }
  exists u, v. split; [|split; [split; assumption|exact Hv]]. apply border_iff. split; [exact (tri_edge out u v w T)|].
  intros NB. destruct (edge_tri out v u NB) as (d & T'). destruct (tri_ids at_ n out V ids v u d T') as (_ & _ & Ld).
  pose proof (tri_in at_ n out V v u d T') as (_ & _ & _ & _ & _ & Cw'). destruct (Boxed d Ld) as ((D1 & D2) & D3 & D4).
  unfold orient in Cw, Cw'. rewrite Hv, U1, U2 in Cw, Cw'. nra.
Qed.

Lemma first_once u v u' v' : In (u, v) (border_edges out) -> In (u', v') (border_edges out) ->
  same_place (at_ u) a0 -> same_place (at_ u') a0 -> fst (at_ v) == fst a0 -> fst (at_ v') == fst a0 -> (u, v) = (u', v').
Proof.
  intros B B' P P' H H'. apply border_iff in B, B'. destruct B as (B & _), B' as (B' & _).
  destruct (edge_tri out u v B) as (c & T), (edge_tri out u' v' B') as (c' & T').
  destruct (tri_ids at_ n out V ids u v c T) as (_ & Lv & _), (tri_ids at_ n out V ids u' v' c' T') as (_ & Lv' & _).
  assert (Eu : u = u').
  { apply (tri_merged at_ n out V u v c u' v' c' T T'); auto. exact (Facing.place_trans _ _ _ P (Facing.place_sym _ _ P')). }
  subst u'. f_equal. apply (tri_merged at_ n out V u v c u v' c' T T'); auto. split; [now rewrite H, H'|].
  assert (Up : forall v c, is_tri out u v c -> (v < n)%N -> fst (at_ v) == fst a0 -> snd a0 < snd (at_ v)).
  { clear v v' c c' H H' Lv Lv' T T' B B'. intros v c T L H. pose proof (tri_in at_ n out V u v c T) as (_ & _ & _ & _ & _ & Cw).
    destruct (Boxed v L) as (_ & B3 & _). destruct P as (U1 & U2). unfold orient in Cw. rewrite H, U1, U2 in Cw.
    destruct (tri_ids at_ n out V ids u v c T) as (_ & _ & Lc). destruct (Boxed c Lc) as ((C1 & _) & _). nra. }
  pose proof (Up v c T Lv H) as H1. pose proof (Up v' c' T' Lv' H') as H2.
  assert (Bt : forall v v' c, is_tri out u v c -> (v' < n)%N -> fst (at_ v) == fst a0 -> fst (at_ v') == fst a0 -> snd a0 < snd (at_ v') -> snd (at_ v') < snd (at_ v) -> False).
  { clear - V ids P. intros v v' c T L H H' G1 G2. destruct P as (U1 & U2).
    apply (edge_point at_ n out V u v c ((snd (at_ v') - snd a0) / (snd (at_ v) - snd a0)) v' T); [|exact L|].
    - split; [apply Qlt_shift_div_l; lra|apply Qlt_shift_div_r; lra].
    - unfold same_place, along. cbn [fst snd]. rewrite H, H', U1, U2. split; field; lra. }
  destruct (Q_dec (snd (at_ v)) (snd (at_ v'))) as [[L|L]|L]; [| |exact L].
  - exfalso. exact (Bt v' v c' T' Lv H' H H1 L).
  - exfalso. exact (Bt v v' c T Lv' H H' H2 L).
Qed.

Lemma box_match : total_area at_ out == (fst c0 - fst a0) * (snd c0 - snd a0) + enclosed_area at_ cs.
Proof.
  destruct Bx as (X & Y).
  assert (Nd : NoDup (border_edges out)) by (apply NoDup_filter; exact (vm_edges _ _ _ V)).
  set (g := fun e : edge => area2 at_ (efrom e, eto e)).
  set (psi := fun v => swept (fst a0) (snd a0) (fst c0) (snd c0) (at_ v)).
  set (at' := fun v : N => (1, psi v) : point).
  set (D := fun e : N * N => gap (fst a0) (snd a0) (fst c0) (snd c0) (at_ (fst e)) (at_ (snd e))).
  set (B := border_edges out) in *.
  assert (Z : total at' B == 0).
  { unfold B. rewrite <- border_total by exact (vm_edges _ _ _ V). clear. induction out as [|t l IH]; [reflexivity|].
    unfold directed_edges. cbn [flat_map]. fold (directed_edges l). rewrite total_app, IH. pose proof (total_tri at' t) as T. destruct t as ((x, y), z).
    rewrite T. unfold at', orient. cbn [fst snd]. ring. }
  assert (SD : sumq D B == total at_ B).
  { transitivity (total at_ B - total at' B); [|rewrite Z; ring]. clear. induction B as [|e l IH]; [reflexivity|].
    cbn [sumq fold_right total]. fold (sumq D l). rewrite IH. unfold D, gap, area2, at', psi. cbn [fst snd]. ring. }
  set (h := fun e : N * N => same_side (fst a0) (snd a0) (fst c0) (snd c0) (at_ (fst e)) (at_ (snd e))).
  rewrite area_total, border_total by exact (vm_edges _ _ _ V). fold B. rewrite <- SD, (sum_parts D h).
  assert (Place : forall p q, same_place p q -> inner q -> inner p).
  { intros p q (P1 & P2) ((A1 & A2) & A3 & A4). unfold strict. repeat split; lra. }
  assert (Nside : forall u v e, In e cs -> along_constraint at_ u v e -> h (u, v) = false).
  { intros u v e Ie (P1 & P2). apply strict_side. apply (Place _ _ P1). apply (In_ e Ie). }
  assert (Box : sumq D (filter h B) == - (2 * ((fst c0 - fst a0) * (snd c0 - snd a0)))).
  { destruct first_edge as (u & v & Bu & P & Hv).
    assert (Sd : forall x y, In (x, y) (filter h B) -> In (x, y) B /\ sided (at_ x) (at_ y) /\ in_box a0 c0 (at_ x) /\ in_box a0 c0 (at_ y)).
    { intros x y I. apply filter_In in I. destruct I as (I & Hh). split; [exact I|]. split.
      - destruct (edge_kind x y I) as [(e & Ie & Pe)|K]; [|exact K]. rewrite (Nside x y e Ie Pe) in Hh. discriminate.
      - apply border_iff in I. destruct I as (I & _). destruct (edge_tri out x y I) as (c & T). destruct (tri_ids at_ n out V ids x y c T) as (Lx & Ly & _). auto. }
    assert (Hh : h (u, v) = true).
    { unfold h, same_side. cbn [fst snd]. destruct P as (P1 & _). apply Qeq_bool_iff in P1, Hv. rewrite P1, Hv. reflexivity. }
    apply (sum_one D _ (u, v)); [apply NoDup_filter; exact Nd|apply filter_In; split; [exact Bu|exact Hh]| |].
    - destruct (Sd u v) as (_ & S & I1 & I2); [apply filter_In; auto|]. unfold D. cbn [fst snd]. rewrite (gap_side _ _ _ _ X Y _ _ I1 I2 S).
      destruct P as (P1 & P2). destruct (Qeq_dec _ _) as [_|F]; [|destruct (F P1)]. destruct (Qeq_dec _ _) as [_|F]; [|destruct (F P2)].
      destruct (Qeq_dec _ _) as [_|F]; [|destruct (F Hv)]. reflexivity.
    - intros (x, y) I Nxy. destruct (Sd x y I) as (Bxy & S & I1 & I2). unfold D. cbn [fst snd]. rewrite (gap_side _ _ _ _ X Y _ _ I1 I2 S).
      destruct (Qeq_dec (fst (at_ x)) (fst a0)) as [F1|]; [|reflexivity]. destruct (Qeq_dec (snd (at_ x)) (snd a0)) as [F2|]; [|reflexivity].
      destruct (Qeq_dec (fst (at_ y)) (fst a0)) as [F3|]; [|reflexivity]. exfalso. apply Nxy. exact (first_once x y u v Bxy Bu (conj F1 F2) P F3 Hv). }
  assert (Mg : forall u v x y e, In (u, v) (directed_edges out) -> In (x, y) (directed_edges out) -> along_constraint at_ u v e -> along_constraint at_ x y e -> (u, v) = (x, y)).
  { intros u v x y e B1 B2 (P1 & P2) (Q1 & Q2). destruct (edge_tri out u v B1) as (c & T). destruct (edge_tri out x y B2) as (d & T').
    f_equal; apply (tri_merged at_ n out V u v c x y d T T'); auto.
    - exact (Facing.place_trans _ _ _ P1 (Facing.place_sym _ _ Q1)).
    - exact (Facing.place_trans _ _ _ P2 (Facing.place_sym _ _ Q2)). }
  destruct (sum_match (fun (a : N * N) e => In e cs /\ along_constraint at_ (fst a) (snd a) e) D g) with (l1 := filter (fun e => negb (h e)) B) (l2 := cs) as (L & S).
  - intros (u, v) e (Ie & (P1 & P2) & Q1 & Q2). destruct (In_ e Ie) as (I1 & I2). unfold D, gap, g, area2. cbn [fst snd] in *.
    rewrite (strict_swept _ _ _ _ _ (Place _ _ (conj P1 P2) I1)), (strict_swept _ _ _ _ _ (Place _ _ (conj Q1 Q2) I2)). rewrite P1, P2, Q1, Q2. ring.
  - apply NoDup_filter. exact Nd.
  - exact (sl_once _ _ SL).
  - intros (u, v) H. apply filter_In in H. destruct H as (H & Hh). destruct (edge_kind u v H) as [(e & Ie & Pe)|K]; [exists e; auto|].
    unfold h in Hh. cbn [fst snd] in Hh. rewrite (on_same _ _ _ _ _ _ K) in Hh. discriminate.
  - intros e H. destruct (side_kind e H) as (u & v & Bu & P). exists (u, v). split; [|split; assumption]. apply filter_In. split; [exact Bu|]. rewrite (Nside u v e H P). reflexivity.
  - intros (u, v) e e' _ J J' (_ & P1 & _) (_ & Q1 & _). apply (sl_start _ _ SL e e' J J'). exact (Facing.place_trans _ _ _ (Facing.place_sym _ _ P1) Q1).
  - intros (u, v) (x, y) e B1 B2 _ (_ & P) (_ & Q). apply filter_In in B1, B2. destruct B1 as (B1 & _), B2 as (B2 & _). apply border_iff in B1, B2. exact (Mg u v x y e (proj1 B1) (proj1 B2) P Q).
  - rewrite Box, S.
    assert (G : sumq g cs == - 2 * enclosed_area at_ cs).
    { clear. unfold g. induction cs as [|e l IH]; cbn [sumq fold_right enclosed_area]; [reflexivity|]. fold (sumq (fun e : edge => area2 at_ (efrom e, eto e)) l).
      rewrite IH. unfold area2. cbn [fst snd]. ring. }
    rewrite G. ring.
Qed.
End Border.
