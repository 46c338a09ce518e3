(** * WitnessOutside: the polygon of [WitnessPolygon] taken backwards, and the loops of the square with a hole taken backwards. *)

From Coq Require Import ZArith NArith List Bool QArith Lqa Lia Permutation.
From Verif Require Import Base Arith Types F64 Spec GridSpec InputSpec SpecDomain SpecWinding Rays Outside Witness WitnessWinding WitnessHole WitnessPolygon.
Import ListNotations.
Local Open Scope N_scope.

Definition cs_back : list edge := [Edge 3 2; Edge 0 4; Edge 1 0; Edge 4 3; Edge 2 1].
Definition cs_hole_back : list edge := [Edge 3 0; Edge 2 3; Edge 1 2; Edge 0 1; Edge 7 4; Edge 6 7; Edge 5 6; Edge 4 5].

Lemma back_clear e : In e cs_back -> efrom e < 10 /\ eto e < 10 /\ clear_between (zpoint lpoly) 10 (efrom e) (eto e).
Proof. exact (turned_clear (zpoint lpoly) 10 cs_poly lpoly_clear e). Qed.

Lemma back_polygon : simple_polygon (zpoint lpoly) cs_back.
Proof. exact (turned_polygon (zpoint lpoly) cs_poly lpoly_polygon). Qed.

Lemma back_values : ~ on_constraint (zpoint lpoly) cs_back (4, 4)%Q /\ winding (zpoint lpoly) cs_back (4, 4)%Q = (-1)%Z /\
  ~ on_constraint (zpoint lpoly) cs_back (6, 12)%Q /\ winding (zpoint lpoly) cs_back (6, 12)%Q = 0%Z.
Proof.
  destruct lpoly_values as (V1 & V2 & V3 & V4). pose proof (turned_on (zpoint lpoly) cs_poly) as T. change (turned_loop cs_poly) with cs_back in T.
  rewrite !T. split; [exact V1|]. split; [reflexivity|]. split; [exact V3|reflexivity].
Qed.

Lemma hole_back_loops : simple_loops (zpoint lhole) cs_hole_back.
Proof. exact (turned_loops (zpoint lhole) cs_hole lhole_loops). Qed.

Lemma hole_back_clear e : In e cs_hole_back -> efrom e < 8 /\ eto e < 8 /\ clear_between (zpoint lhole) 8 (efrom e) (eto e).
Proof.
  apply (turned_clear (zpoint lhole) 8 cs_hole).
  intros f I. destruct (lhole_clear f I) as (x & y & z). exact (conj x (conj y (z (sl_proper _ _ lhole_loops f I)))).
Qed.

(** The small square is seen from its middle, the large one from outside the box. *)
Lemma hole_back_tests e : In e cs_hole_back -> exists f q, same_loop (zpoint lhole) cs_hole_back e f /\ sees_side (zpoint lhole) cs_hole_back q f /\
  (orient (zpoint lhole (efrom f)) (zpoint lhole (eto f)) q < 0)%Q /\ winding (zpoint lhole) cs_hole_back q = 0%Z.
Proof.
  destruct lhole_points as (P0 & P1 & P2 & P3 & P4 & P5 & P6 & P7).
  assert (N : forall f g, In f cs_hole_back -> In g cs_hole_back -> same_place (zpoint lhole (eto f)) (zpoint lhole (efrom g)) ->
    forall e, same_loop (zpoint lhole) cs_hole_back e f -> same_loop (zpoint lhole) cs_hole_back e g).
  { intros f g _ J V e' L. exact (loop_next _ _ _ _ _ L J V). }
  pose proof (N (Edge 1 2) (Edge 2 3) ltac:(cbn; tauto) ltac:(cbn; tauto) ltac:(split; reflexivity)) as N1.
  pose proof (N (Edge 2 3) (Edge 3 0) ltac:(cbn; tauto) ltac:(cbn; tauto) ltac:(split; reflexivity)) as N2.
  pose proof (N (Edge 3 0) (Edge 0 1) ltac:(cbn; tauto) ltac:(cbn; tauto) ltac:(split; reflexivity)) as N3.
  pose proof (N (Edge 4 5) (Edge 5 6) ltac:(cbn; tauto) ltac:(cbn; tauto) ltac:(split; reflexivity)) as N4.
  pose proof (N (Edge 5 6) (Edge 6 7) ltac:(cbn; tauto) ltac:(cbn; tauto) ltac:(split; reflexivity)) as N5.
  pose proof (N (Edge 6 7) (Edge 7 4) ltac:(cbn; tauto) ltac:(cbn; tauto) ltac:(split; reflexivity)) as N6.
  assert (Sh : sees_side (zpoint lhole) cs_hole_back (6, 6)%Q (Edge 0 1) /\ sees_side (zpoint lhole) cs_hole_back (-2, 6)%Q (Edge 7 4)).
  { split; [exists (1#2)%Q|exists (5#8)%Q]; (split; [split; reflexivity|]); intros t T (e' & s & I & _ & S & K1 & K2); cbn [cs_hole_back In] in I;
      decompose [or] I; try contradiction; subst e'; cbn [efrom eto] in K1, K2; rewrite ?P0, ?P1, ?P2, ?P3, ?P4, ?P5, ?P6, ?P7 in K1, K2;
      unfold along in K1, K2; cbn [fst snd] in K1, K2; lra. }
  destruct Sh as (Sh & So). intros I. cbn [cs_hole_back In] in I.
  decompose [or] I; try contradiction; subst e;
    first [exists (Edge 0 1), (6, 6)%Q; split; [solve [auto 8 using loop_here]|]; split; [exact Sh|]; split; [reflexivity|reflexivity]
          |exists (Edge 7 4), (-2, 6)%Q; split; [solve [auto 8 using loop_here]|]; split; [exact So|]; split; [reflexivity|reflexivity]].
Qed.
