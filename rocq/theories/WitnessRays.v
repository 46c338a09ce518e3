(** * WitnessRays: the loops of a square with a hole. *)

From Coq Require Import ZArith NArith List Bool QArith Lqa Lia Permutation.
From Verif Require Import Base Arith Types F64 Spec GridSpec InputSpec SpecDomain SpecWinding SpecFilling Ring Rays Witness WitnessWinding WitnessHole WitnessPolygon.
Import ListNotations.
Local Open Scope N_scope.

Definition hole_outer : list edge := [Edge 4 7; Edge 7 6; Edge 6 5; Edge 5 4].
Definition hole_inner : list edge := [Edge 0 3; Edge 3 2; Edge 2 1; Edge 1 0].

Lemma hole_parts : Permutation cs_hole (concat ([hole_outer] ++ [hole_inner])).
Proof.
  apply NoDup_Permutation; [exact (sl_once _ _ lhole_loops)|unfold hole_outer, hole_inner; cbn; repeat constructor; cbn [In]; intuition discriminate|].
  intros e. unfold cs_hole, hole_outer, hole_inner. cbn [concat app In]. tauto.
Qed.

Lemma four_loop l e1 e2 e3 e4 : l = [e1; e2; e3; e4] -> incl l cs_hole ->
  same_place (zpoint lhole (eto e1)) (zpoint lhole (efrom e2)) -> same_place (zpoint lhole (eto e2)) (zpoint lhole (efrom e3)) ->
  same_place (zpoint lhole (eto e3)) (zpoint lhole (efrom e4)) -> same_place (zpoint lhole (eto e4)) (zpoint lhole (efrom e1)) ->
  NoDup l -> simple_polygon (zpoint lhole) l.
Proof.
  intros Ql H A B C D ND. split.
  - apply (part_loops (zpoint lhole) l cs_hole lhole_loops ND H); subst l; intros e I; cbn [In] in I; decompose [or] I; try contradiction; subst e; cbn [In]; eauto 10.
  - assert (N : forall f g e, In g l -> same_place (zpoint lhole (eto f)) (zpoint lhole (efrom g)) -> same_loop (zpoint lhole) l e f -> same_loop (zpoint lhole) l e g).
    { intros f g e J V L. exact (loop_next _ _ _ _ _ L J V). }
    pose proof (fun e => N e1 e2 e ltac:(subst l; cbn; auto) A) as N1. pose proof (fun e => N e2 e3 e ltac:(subst l; cbn; auto) B) as N2.
    pose proof (fun e => N e3 e4 e ltac:(subst l; cbn; auto 6) C) as N3. pose proof (fun e => N e4 e1 e ltac:(subst l; cbn; auto) D) as N4.
    intros e f I J. assert (I' := I). assert (J' := J). rewrite Ql in I', J'. cbn [In] in I', J'.
    decompose [or] I'; try contradiction; subst e; decompose [or] J'; try contradiction; subst f; auto 6 using loop_here.
Qed.

Lemma hole_polygons L : In L ([hole_outer] ++ [hole_inner]) -> simple_polygon (zpoint lhole) L.
Proof.
  intros [<-|[<-|[]]].
  - apply (four_loop _ (Edge 4 7) (Edge 7 6) (Edge 6 5) (Edge 5 4)); try reflexivity; try (split; reflexivity).
    + intros e I. unfold hole_outer in I. cbn [In] in I. unfold cs_hole. cbn [In]. tauto.
    + unfold hole_outer. repeat constructor; cbn [In]; intuition discriminate.
  - apply (four_loop _ (Edge 0 3) (Edge 3 2) (Edge 2 1) (Edge 1 0)); try reflexivity; try (split; reflexivity).
    + intros e I. unfold hole_inner in I. cbn [In] in I. unfold cs_hole. cbn [In]. tauto.
    + unfold hole_inner. repeat constructor; cbn [In]; intuition discriminate.
Qed.

Lemma hole_off : ~ on_constraint (zpoint lhole) hole_outer (6, 6)%Q /\ ~ on_constraint (zpoint lhole) hole_inner (6, 6)%Q.
Proof.
  destruct lhole_points as (P0 & P1 & P2 & P3 & P4 & P5 & P6 & P7).
  split; intros (e & s & I & _ & (S1 & S2) & (K1 & K2)); cbn [hole_outer hole_inner In] in I; decompose [or] I; try contradiction; subst e; cbn [efrom eto] in K1, K2;
    rewrite ?P0, ?P1, ?P2, ?P3, ?P4, ?P5, ?P6, ?P7 in K1, K2; unfold along in K1, K2; cbn [fst snd] in K1, K2; lra.
Qed.

Lemma hole_turns : (forall L, In L [hole_outer] -> exists p, ~ on_constraint (zpoint lhole) L p /\ (0 < winding (zpoint lhole) L p)%Z) /\
  (forall L, In L [hole_inner] -> exists p, ~ on_constraint (zpoint lhole) L p /\ (winding (zpoint lhole) L p < 0)%Z).
Proof. destruct hole_off as (A & B). split; intros L [<-|[]]; exists (6, 6)%Q; split; [exact A|vm_compute; reflexivity|exact B|vm_compute; reflexivity]. Qed.

(** No vertex is strictly inside. *)
Lemma hole_no_vertex : inside_vertices (zpoint lhole) 8 cs_hole [].
Proof.
  constructor; [intros u []|constructor|]. intros v V Nv _. exfalso. apply Nv.
  assert (K : exists e, In e cs_hole /\ efrom e = v).
  { assert (v = 0 \/ v = 1 \/ v = 2 \/ v = 3 \/ v = 4 \/ v = 5 \/ v = 6 \/ v = 7) as C by lia. unfold cs_hole.
    decompose [or] C; subst v;
      [exists (Edge 0 3)|exists (Edge 1 0)|exists (Edge 2 1)|exists (Edge 3 2)|exists (Edge 4 7)|exists (Edge 5 4)|exists (Edge 6 5)|exists (Edge 7 6)]; (split; [cbn [In]; tauto|reflexivity]). }
  destruct K as (e & I & <-). exists e, 0%Q. split; [exact I|]. split; [exact (sl_proper _ _ lhole_loops e I)|]. split; [split; discriminate|].
  unfold along; split; cbn [fst snd]; ring.
Qed.
