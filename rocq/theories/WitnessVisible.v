(** * WitnessVisible: what a triangle sees of the vertices in its circumcircle. *)

From Coq Require Import ZArith NArith List Bool QArith SpecFloat Lia Lqa Permutation.
From Verif Require Import Base Arith Types Utils Infinite Triangulation Constrained F64 Exact Spec DTOut GridSpec GridNum InputSpec GridApi GridCdt
  ApiProps Refuted Witness SpecBox WitnessBox SpecDomain SpecVisible WitnessLocal WitnessDel.
Import ListNotations.
Local Open Scope N_scope.

(** A constraint that crosses three edges. *)
Lemma lnd_not_visibly : ~ visibly_delaunay (zpoint lnd) cs_nd 7 out_nd.
Proof.
  intros H. destruct lnd_overlap as (T & _ & In1 & _). apply (H 6 1 2 (12, 8)%Q 0 T In1).
  - reflexivity.
  - intros s Hs (e & k & He & _ & Hk & (S1 & S2)).
    assert (P0 : zpoint lnd 0 = (10, 13)%Q) by reflexivity. assert (P3 : zpoint lnd 3 = (0, 0)%Q) by reflexivity.
    assert (P4 : zpoint lnd 4 = (0, 16)%Q) by reflexivity. assert (P5 : zpoint lnd 5 = (16, 16)%Q) by reflexivity.
    assert (P6 : zpoint lnd 6 = (16, 0)%Q) by reflexivity.
    cbn [cs_nd In] in He. decompose [or] He; try contradiction; subst e; cbn [efrom eto] in *;
      rewrite ?P0, ?P3, ?P4, ?P5, ?P6 in *; unfold along in S1, S2; cbn [fst snd] in S1, S2; lra.
  - exists (47 # 22, 35 # 22)%Q. unfold sqdist, zpoint. vm_compute. split; [reflexivity|]. split; reflexivity.
Qed.

(** Two constraints that cross two edges each: the vertex 2 is inside the circumcircle of a
    triangle, behind a constraint. *)
Lemma lfw_hidden : In (7, 0, 4) out_fw /\ in_circumcircle (zpoint lfw 7) (zpoint lfw 0) (zpoint lfw 4) (zpoint lfw 2).
Proof.
  split; [cbn; auto 20|]. exists (1809 # 172, 799 # 86)%Q. unfold sqdist, zpoint. vm_compute.
  split; [reflexivity|]. split; reflexivity.
Qed.

(** The vertex 1, beside the triangle (0, 2, 1), is seen from the triangle (7, 2, 0), across their common edge. *)
Lemma lfw_seen : In (7, 2, 0) out_fw /\ strictly_inside (zpoint lfw 7) (zpoint lfw 2) (zpoint lfw 0) (10, 9 # 2)%Q /\
  sees (zpoint lfw) cs_fw (10, 9 # 2)%Q (zpoint lfw 1).
Proof.
  split; [cbn; auto 20|]. split; [vm_compute; repeat split|].
  intros s Hs (e & k & He & _ & Hk & (S1 & S2)).
  assert (P0 : zpoint lfw 0 = (8, 1)%Q) by reflexivity. assert (P1 : zpoint lfw 1 = (12, 3)%Q) by reflexivity.
  assert (P4 : zpoint lfw 4 = (4, 15)%Q) by reflexivity. assert (P5 : zpoint lfw 5 = (0, 0)%Q) by reflexivity.
  assert (P6 : zpoint lfw 6 = (0, 16)%Q) by reflexivity. assert (P7 : zpoint lfw 7 = (16, 16)%Q) by reflexivity.
  assert (P8 : zpoint lfw 8 = (16, 0)%Q) by reflexivity.
  cbn [cs_fw In] in He. decompose [or] He; try contradiction; subst e; cbn [efrom eto] in *;
    rewrite ?P0, ?P1, ?P4, ?P5, ?P6, ?P7, ?P8 in *; unfold along in S1, S2; cbn [fst snd] in S1, S2; lra.
Qed.
