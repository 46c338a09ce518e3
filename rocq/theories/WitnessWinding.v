(** * WitnessWinding: the winding number of the square with a hole of [WitnessHole]. *)

From Coq Require Import ZArith NArith List Bool QArith Lia Lqa.
From Verif Require Import Types Spec Exact SpecDomain SpecWinding Winding Witness WitnessHole GridSpec ApiProps.
Import ListNotations.
Local Open Scope Q_scope.

Lemma level f g p : fst f < fst g -> snd f == snd g ->
  crossing f g p = if Qle_bool (fst f) (fst p) then if Qle_bool (fst g) (fst p) then 0%Z else if Qle_bool (snd f) (snd p) then 0%Z else 1%Z else 0%Z.
Proof.
  intros L H. unfold crossing. destruct (Qle_boolP (fst f) (fst p)); destruct (Qle_boolP (fst g) (fst p)); cbn [andb negb]; try reflexivity; [|exfalso; lra].
  assert (O : orient f g p == (fst g - fst f) * (snd p - snd f)) by (unfold orient; rewrite H; ring).
  destruct (Qle_boolP 0 (orient f g p)); destruct (Qle_boolP (snd f) (snd p)); try reflexivity; exfalso; nra.
Qed.

Lemma upright f g p : fst f == fst g -> crossing f g p = 0%Z.
Proof.
  intros H. unfold crossing. destruct (Qle_boolP (fst f) (fst p)); destruct (Qle_boolP (fst g) (fst p)); cbn [andb negb]; try reflexivity; exfalso; lra.
Qed.

Definition below_level (l r h : Q) (p : point) : Z :=
  if Qle_bool l (fst p) then if Qle_bool r (fst p) then 0%Z else if Qle_bool h (snd p) then 0%Z else 1%Z else 0%Z.

Lemma hole_winding p : winding (zpoint lhole) cs_hole p =
  (below_level 0 16 16 p - below_level 0 16 0 p - below_level 4 8 8 p + below_level 4 8 4 p)%Z.
Proof.
  destruct lhole_points as (P0 & P1 & P2 & P3 & P4 & P5 & P6 & P7).
  unfold winding, cs_hole. cbn [map fold_right efrom eto]. rewrite P0, P1, P2, P3, P4, P5, P6, P7.
  rewrite (upright (8, 4) (8, 8)), (upright (4, 8) (4, 4)), (upright (0, 0) (0, 16)), (upright (16, 16) (16, 0)) by reflexivity.
  rewrite (crossing_flip (4, 8) (8, 8)), (crossing_flip (0, 0) (16, 0)), !level by (cbn [fst snd]; lra).
  unfold below_level. cbn [fst snd]. lia.
Qed.

Lemma hole_loops : closed_loops (zpoint lhole) cs_hole.
Proof.
  intros p. unfold cs_hole. cbn [filter efrom eto].
  destruct (place_eqb (zpoint lhole 0) p), (place_eqb (zpoint lhole 1) p), (place_eqb (zpoint lhole 2) p), (place_eqb (zpoint lhole 3) p),
    (place_eqb (zpoint lhole 4) p), (place_eqb (zpoint lhole 5) p), (place_eqb (zpoint lhole 6) p), (place_eqb (zpoint lhole 7) p); reflexivity.
Qed.

Ltac cases_le := repeat match goal with |- context [Qle_bool ?x ?y] => destruct (Qle_boolP x y); try (exfalso; lra) end.

Lemma hole_inside : inside_right (zpoint lhole) cs_hole.
Proof.
  destruct lhole_points as (P0 & P1 & P2 & P3 & P4 & P5 & P6 & P7).
  intros e s I _ S. exists (2 * (s * (1 - s))).
  assert (R : 0 < s * (1 - s)) by nra. assert (R1 : s * (1 - s) < s) by nra. assert (R2 : s * (1 - s) < 1 - s) by nra.
  set (r := s * (1 - s)) in *. clearbody r. split; [lra|]. intros q. rewrite hole_winding.
  cbn [cs_hole In] in I.
  decompose [or] I; try contradiction; subst e; cbn [efrom eto]; rewrite ?P0, ?P1, ?P2, ?P3, ?P4, ?P5, ?P6, ?P7;
    unfold along, orient, below_level; cbn [fst snd]; intros Q1 Q2; split; intros O; cases_le; lia.
Qed.

Lemma hole_values : winding (zpoint lhole) cs_hole (2, 6) = 1%Z /\ winding (zpoint lhole) cs_hole (6, 6) = 0%Z /\
  winding (zpoint lhole) cs_hole (17, 6) = 0%Z.
Proof. repeat split; vm_compute; reflexivity. Qed.
