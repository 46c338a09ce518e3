(** * InsideGrid: results for closed loops of constraints, on exact inputs. *)

From Coq Require Import ZArith NArith List Bool QArith Lqa Lia Permutation.
From Verif Require Import Base Arith Types Spec SpecBox SpecDomain Triangulation Constrained InputSpec GridCdt DomainGrid SpecWinding Winding Inside TallyGrid.
Import ListNotations.

Section Outside.
Local Open Scope Q_scope.
Variable at_ : N -> point.
Variable cs : list edge.
Hypothesis CL : closed_loops at_ cs.
Variables a c : point.
Hypothesis Bx : forall e, In e cs -> in_box a c (at_ (efrom e)) /\ in_box a c (at_ (eto e)).

Lemma on_in_box p : on_constraint at_ cs p -> in_box a c p.
Proof.
  intros (e & s & I & _ & S & P1 & P2). destruct (Bx e I) as (((A1 & A2) & A3 & A4) & (B1 & B2) & B3 & B4).
  unfold in_box. rewrite P1, P2. unfold along. cbn [fst snd]. destruct S. repeat split; nra.
Qed.

Lemma no_crossing p : (forall e, In e cs -> crossing (at_ (efrom e)) (at_ (eto e)) p = 0%Z) -> winding at_ cs p = 0%Z.
Proof.
  unfold winding. clear. induction cs as [|e l IH]; intros H; [reflexivity|]. cbn [map fold_right]. rewrite (H e) by now left.
  rewrite IH; [reflexivity|]. intros f I. apply H. now right.
Qed.

Lemma side_crossing p : fst p < fst a \/ fst c < fst p -> winding at_ cs p = 0%Z.
Proof.
  intros H. apply no_crossing. intros e I. destruct (Bx e I) as (((A1 & A2) & A3 & A4) & (B1 & B2) & B3 & B4).
  unfold crossing. destruct (Qle_boolP (fst (at_ (efrom e))) (fst p)); destruct (Qle_boolP (fst (at_ (eto e))) (fst p)); cbn [andb negb];
    try reflexivity; exfalso; lra.
Qed.

Lemma winding_outside p : ~ in_box a c p -> winding at_ cs p = 0%Z.
Proof.
  intros N. destruct (Qlt_le_dec (fst p) (fst a)) as [L|L]; [now apply side_crossing; left|].
  destruct (Qlt_le_dec (fst c) (fst p)) as [R|R]; [now apply side_crossing; right|].
  set (q := (fst a - 1, snd p)). rewrite (winding_step at_ cs CL p q).
  - apply side_crossing. left. unfold q. cbn [fst]. lra.
  - intros s S K. apply on_in_box in K. destruct K as (_ & K1 & K2). apply N. unfold q, along in K1, K2. cbn [fst snd] in K1, K2.
    split; [split; lra|]. split; nra.
Qed.
End Outside.

Local Open Scope N_scope.

Section Grid.
Context {E : Env}.
Variables (vs : list vertex) (px py : N -> Q) (bound : Z).
Local Notation pos := (fun v => (px v, py v)).
Hypothesis G : exact_input vs pos bound.
Hypothesis Hid : 2 * lenN vs + 2 <= idmax.

Lemma grid_loops_inside fuel bins cs out p : (4 * length vs + 12 <= fuel)%nat ->
  constrained_triangulation_from_2d_vertices fuel bins vs cs = Ret out -> noncrossing pos cs ->
  closed_loops pos cs -> inside_right pos cs ->
  ~ on_constraint pos cs p -> covered pos out p -> (0 < winding pos cs p)%Z.
Proof.
  intros F R X CL IR Nc C. apply (domain_winding pos cs CL IR).
  exact (grid_inside vs px py bound G Hid fuel bins cs out p F R X Nc C).
Qed.

Lemma grid_loops_domain fuel bins cs out dt p : ((2 * length vs + 4) * (2 * length vs + 4) <= fuel)%nat ->
  constrained_triangulation_from_2d_vertices fuel bins vs cs = Ret out ->
  triangulation_from_2d_vertices fuel bins vs = Ret dt -> noncrossing pos cs ->
  (forall e, In e cs -> proper pos e -> covers_between pos dt (efrom e) (eto e)) ->
  closed_loops pos cs -> inside_right pos cs ->
  covered pos dt p -> ~ on_constraint pos cs p -> (covered pos out p <-> (0 < winding pos cs p)%Z).
Proof.
  intros F R D X C CL IR Cp Nc. rewrite <- (winding_domain pos cs CL IR p Nc).
  exact (grid_domain vs px py bound G Hid fuel F bins cs out dt p R D X C Cp Nc).
Qed.

Lemma grid_loops_box fuel n a b c d cs : ((2 * length vs + 4) * (2 * length vs + 4) <= fuel)%nat -> (1 <= bound)%Z ->
  lenN vs = n + 4 -> Permutation [a; b; c; d] [n; n + 1; n + 2; n + 3] ->
  box_corners (pos a) (pos b) (pos c) (pos d) ->
  (forall v, v < n -> in_box (pos a) (pos c) (pos v)) ->
  (forall e, In e cs -> efrom e < lenN vs /\ eto e < lenN vs /\
     (proper pos e -> clear_between pos (lenN vs) (efrom e) (eto e))) ->
  noncrossing pos cs -> closed_loops pos cs -> inside_right pos cs ->
  exists out, constrained_triangulation_from_2d_vertices fuel 1 vs cs = Ret out /\
    forall p, ~ on_constraint pos cs p -> (covered pos out p <-> (0 < winding pos cs p)%Z).
Proof.
  intros F Hb L P B N1 K X CL IR.
  destruct (grid_box_domain vs px py bound G Hid fuel F n a b c d cs Hb L P B N1 K X) as (out & R & C).
  exists out. split; [exact R|]. intros p Nc. rewrite (C p Nc), (winding_domain pos cs CL IR p Nc).
  split; [tauto|]. intros W. split; [|exact W].
  assert (Bv : forall v, v < lenN vs -> in_box (pos a) (pos c) (pos v)).
  { intros v V. destruct (N.lt_ge_cases v n) as [Y|Y]; [now apply N1|].
    assert (I : In v [a; b; c; d]).
    { apply (Permutation_in v (Permutation_sym P)). assert (Z : v = n \/ v = n + 1 \/ v = n + 2 \/ v = n + 3) by lia. cbn. intuition. }
    destruct B as (B1 & B2 & B3 & B4 & B5 & B6). cbn [fst snd] in *. cbn [In] in I.
    destruct I as [<-|[<-|[<-|[<-|[]]]]]; unfold in_box; cbn [fst snd]; repeat split; lra. }
  assert (Dec : in_box (pos a) (pos c) p \/ ~ in_box (pos a) (pos c) p).
  { unfold in_box. destruct (Qlt_le_dec (fst p) (fst (pos a))); [right; lra|]. destruct (Qlt_le_dec (fst (pos c)) (fst p)); [right; lra|].
    destruct (Qlt_le_dec (snd p) (snd (pos a))); [right; lra|]. destruct (Qlt_le_dec (snd (pos c)) (snd p)); [right; lra|]. left. repeat split; assumption. }
  destruct Dec as [D|D]; [exact D|]. rewrite (winding_outside pos cs CL (pos a) (pos c)) in W; [lia| |exact D].
  intros e I. destruct (K e I) as (K1 & K2 & _). split; apply Bv; assumption.
Qed.
End Grid.
