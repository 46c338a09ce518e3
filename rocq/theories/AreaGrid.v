(** * AreaGrid: border and area of filled polygons, for the inputs of [InputSpec.v]. *)

From Coq Require Import ZArith NArith List Bool QArith Lqa Lia Permutation.
From Verif Require Import Base BaseFacts Arith Types Spec SpecBox SpecDomain SpecCount SpecWinding SpecArea Infinite Triangulation Constrained GridSpec InputSpec GridApi GridCdt
  TallyGrid Polygon Jordan Facing Area Anywhere AnywhereCount.
Import ListNotations.
Local Open Scope N_scope.

Lemma call_border {E : Env} (vs : list vertex) at_ bound fuel bins cs out :
  exact_input vs at_ bound -> 2 * lenN vs + 2 <= idmax -> (4 * length vs + 12 <= fuel)%nat ->
  (forall e, In e cs -> efrom e < lenN vs /\ eto e < lenN vs) ->
  simple_loops at_ cs -> (forall e, In e cs -> near at_ cs e (1#2) 1) ->
  constrained_triangulation_from_2d_vertices fuel bins vs cs = Ret out ->
  (forall p, ~ on_constraint at_ cs p -> (covered at_ out p <-> winding at_ cs p = 1%Z)) ->
  border_is at_ out cs /\ (total_area at_ out == enclosed_area at_ cs)%Q.
Proof.
  intros G Hid Hf Ends SL Ne R C.
  pose proof (meet_noncrossing at_ cs SL) as X.
  destruct (returned_valid vs at_ bound fuel bins out G Hid Hf (or_intror (ex_intro _ cs R))) as (VM & Rg).
  pose proof (off_inside vs at_ bound fuel bins cs out G Hid Hf Ends X R) as Off.
  assert (Rs : forall t e, In t out -> In e cs -> respects at_ (lenN vs) out (efrom e) (eto e)).
  { intros t e T Ie.
    assert (H3 : 3 <= lenN vs).
    { destruct (N.lt_ge_cases (lenN vs) 3) as [H|H]; [exfalso|exact H]. revert R. unfold constrained_triangulation_from_2d_vertices.
      rewrite (proj2 (N.ltb_lt _ _) H). intros K. injection K as <-. destruct T. }
    pose proof (sl_proper _ _ SL e Ie) as P. pair_input G. exact (proj1 (grid_cdt_edges vs px py bound G Hid fuel bins Hf cs e out H3 X Ie P R)). }
  destruct (border_match at_ (lenN vs) out cs VM Rg SL Ne Ends Off C Rs) as (L & A). split; [|exact A]. split; [exact L|]. split.
  - exact (edge_side at_ (lenN vs) out cs VM Rg SL Ne Ends Off C Rs).
  - exact (side_edge at_ (lenN vs) out cs VM SL Ne Off C Rs).
Qed.

Section Anywhere.
Context {E : Env}.
Variables (vs : list vertex) (at_ : N -> point) (bound : Z).
Hypothesis G : exact_input vs at_ bound.
Hypothesis Hid : 2 * lenN vs + 2 <= idmax.
Variables (fuel : nat) (bins : N) (dt : list (N * N * N)) (cs : list edge).
Hypothesis Hf : ((2 * length vs + 4) * (2 * length vs + 4) <= fuel)%nat.
Hypothesis B1 : 1 <= bins.
Hypothesis B2 : (Z.of_N bins <= bound)%Z.
Hypothesis Hd : triangulation_from_2d_vertices fuel bins vs = Ret dt.
Hypothesis Hcs : forall e, In e cs -> efrom e < lenN vs /\ eto e < lenN vs /\
  clear_between at_ (lenN vs) (efrom e) (eto e) /\ covers_between at_ dt (efrom e) (eto e).

Lemma anywhere_border : simple_loops at_ cs -> (forall e, In e cs -> near at_ cs e (1#2) 1) ->
  exists out, constrained_triangulation_from_2d_vertices fuel bins vs cs = Ret out /\
    border_is at_ out cs /\ (total_area at_ out == enclosed_area at_ cs)%Q.
Proof.
  intros SL Ne. destruct (anywhere_inside vs at_ bound G Hid fuel bins dt cs Hf B1 B2 Hd Hcs SL Ne) as (out & R & C).
  exists out. split; [exact R|]. apply (call_border vs at_ bound fuel bins cs out G Hid); [nia| |exact SL|exact Ne|exact R|intros p Nc; exact (proj2 (C p Nc))].
  intros e I. destruct (Hcs e I) as (A & B & _). auto.
Qed.
End Anywhere.

Lemma box_border {E : Env} (vs : list vertex) at_ bound fuel n a b c d cs :
  exact_input vs at_ bound -> 2 * lenN vs + 2 <= idmax ->
  ((2 * length vs + 4) * (2 * length vs + 4) <= fuel)%nat -> (1 <= bound)%Z ->
  lenN vs = n + 4 -> Permutation [a; b; c; d] [n; n + 1; n + 2; n + 3] ->
  box_corners (at_ a) (at_ b) (at_ c) (at_ d) ->
  (forall v, v < n -> in_box (at_ a) (at_ c) (at_ v)) ->
  (forall e, In e cs -> efrom e < lenN vs /\ eto e < lenN vs /\ clear_between at_ (lenN vs) (efrom e) (eto e)) ->
  simple_loops at_ cs -> (forall e, In e cs -> near at_ cs e (1#2) 1) ->
  exists out, constrained_triangulation_from_2d_vertices fuel 1 vs cs = Ret out /\
    border_is at_ out cs /\ (total_area at_ out == enclosed_area at_ cs)%Q.
Proof.
  intros G Hid Hf Hb Hn Pm Bx Hin Hcs SL Ne.
  assert (Y : exists out, constrained_triangulation_from_2d_vertices fuel 1 vs cs = Ret out /\
    forall p, ~ on_constraint at_ cs p -> (winding at_ cs p = 0%Z \/ winding at_ cs p = 1%Z) /\ (covered at_ out p <-> winding at_ cs p = 1%Z)).
  { revert Bx Hin Hcs SL Ne. pair_input G. intros Bx Hin Hcs SL Ne. exact (near_box vs px py bound G Hid fuel n a b c d cs Hf Hb Hn Pm Bx Hin Hcs SL Ne). }
  destruct Y as (out & R & C).
  exists out. split; [exact R|]. apply (call_border vs at_ bound fuel 1 cs out G Hid); [nia| |exact SL|exact Ne|exact R|intros p Nc; exact (proj2 (C p Nc))].
  intros e I. destruct (Hcs e I) as (A & B & _). auto.
Qed.
