(** * WitnessPolygon: a clockwise simple polygon that is not convex, with one more vertex inside, in a box; the square with a hole again. *)

From Coq Require Import ZArith NArith List Bool QArith SpecFloat Lia Lqa Permutation.
From Verif Require Import Base Arith Types Utils Infinite Triangulation Constrained F64 Exact Spec DTOut GridSpec GridNum InputSpec GridApi GridCdt
  ApiProps Refuted Witness SpecBox SpecDomain WitnessHole SpecWinding SpecFilling Winding WitnessWinding.
Import ListNotations.
Local Open Scope N_scope.

Definition lpoly : list (Z * Z) := [(2,2); (2,14); (6,8); (14,12); (10,2); (5,4); (0,0); (16,0); (16,16); (0,16)]%Z.
Definition cs_poly : list edge := [Edge 2 3; Edge 4 0; Edge 0 1; Edge 3 4; Edge 1 2].

Lemma lpoly_grid64 : on_grid (E := env64) (pts lpoly) lpoly (2 ^ 40).
Proof.
  exists (sf_is 53 1024), (2 ^ 4)%Z, 0%Z, 0%Z.
  split; [apply (Grid_f64 u32_max 4); lia|]. split; [|split].
  - apply f2_map. intros p Hp. simpl in Hp.
    decompose [or] Hp; try contradiction; subst; vm_compute; repeat split; reflexivity.
  - unfold fits, lpoly. repeat split.
    1-4: simpl in H; intuition (subst; simpl; lia).
    + exists (0, 0)%Z. simpl. auto 14.
    + exists (0, 0)%Z. simpl. auto 14.
    + exists (16, 16)%Z. simpl. auto 14.
  - intros p Hp. simpl in Hp. decompose [or] Hp; try contradiction; subst; vm_compute; split; discriminate.
Qed.

Lemma lpoly_ids : 2 * lenN (pts lpoly) + 2 <= @idmax env64.
Proof. vm_compute. discriminate. Qed.
Lemma lpoly_fuel : (600 >= (2 * length (pts lpoly) + 4) * (2 * length (pts lpoly) + 4))%nat.
Proof. apply Nat.leb_le. reflexivity. Qed.

Lemma lpoly_points :
  zpoint lpoly 0 = (2, 2)%Q /\ zpoint lpoly 1 = (2, 14)%Q /\ zpoint lpoly 2 = (6, 8)%Q /\ zpoint lpoly 3 = (14, 12)%Q /\
  zpoint lpoly 4 = (10, 2)%Q /\ zpoint lpoly 5 = (5, 4)%Q /\ zpoint lpoly 6 = (0, 0)%Q /\ zpoint lpoly 7 = (16, 0)%Q /\
  zpoint lpoly 8 = (16, 16)%Q /\ zpoint lpoly 9 = (0, 16)%Q.
Proof. repeat split. Qed.

Lemma lpoly_corners : Permutation [6; 7; 8; 9] [6; 6 + 1; 6 + 2; 6 + 3] /\
  box_corners (zpoint lpoly 6) (zpoint lpoly 7) (zpoint lpoly 8) (zpoint lpoly 9) /\
  forall v, v < 6 -> in_box (zpoint lpoly 6) (zpoint lpoly 8) (zpoint lpoly v).
Proof.
  split; [apply Permutation_refl|]. split; [vm_compute; repeat split; try reflexivity; discriminate|].
  intros v H. assert (K : v = 0 \/ v = 1 \/ v = 2 \/ v = 3 \/ v = 4 \/ v = 5) by lia.
  destruct lpoly_points as (P0 & P1 & P2 & P3 & P4 & P5 & P6 & P7 & P8 & P9).
  decompose [or] K; subst v; rewrite ?P0, ?P1, ?P2, ?P3, ?P4, ?P5, ?P6, ?P8; unfold in_box; cbn [fst snd]; split; split; lra.
Qed.

Lemma lpoly_clear e : In e cs_poly -> efrom e < 10 /\ eto e < 10 /\ clear_between (zpoint lpoly) 10 (efrom e) (eto e).
Proof.
  destruct lpoly_points as (P0 & P1 & P2 & P3 & P4 & P5 & P6 & P7 & P8 & P9).
  intros He. cbn [cs_poly In] in He.
  decompose [or] He; try contradiction; subst e; cbn [efrom eto]; (split; [lia|]; split; [lia|]).
  all: intros v s Hv Hs;
    assert (Hv' : v = 0 \/ v = 1 \/ v = 2 \/ v = 3 \/ v = 4 \/ v = 5 \/ v = 6 \/ v = 7 \/ v = 8 \/ v = 9) by lia;
    decompose [or] Hv'; subst v; rewrite ?P0, ?P1, ?P2, ?P3, ?P4, ?P5, ?P6, ?P7, ?P8, ?P9;
    intros (Q1 & Q2); unfold along in Q1, Q2; cbn [fst snd] in Q1, Q2; lra.
Qed.

Ltac pick l := match l with ?e :: ?r => first [exists e; split; [cbn; tauto|split; reflexivity] | pick r] end.
Ltac ends_meet := first [left; reflexivity | exfalso; lra
  | right; split; [first [left; lra | right; lra]|first [left; lra | right; lra]]].

Lemma lpoly_loops : simple_loops (zpoint lpoly) cs_poly.
Proof.
  destruct lpoly_points as (P0 & P1 & P2 & P3 & P4 & P5 & P6 & P7 & P8 & P9). constructor.
  - unfold cs_poly. repeat constructor; cbn [In]; intuition discriminate.
  - intros e I (K1 & K2). cbn [cs_poly In] in I. decompose [or] I; try contradiction; subst e; vm_compute in K1, K2; first [discriminate K1|discriminate K2].
  - intros e I. cbn [cs_poly In] in I. decompose [or] I; try contradiction; subst e; let l := eval unfold cs_poly in cs_poly in pick l.
  - intros e I. cbn [cs_poly In] in I. decompose [or] I; try contradiction; subst e; let l := eval unfold cs_poly in cs_poly in pick l.
  - intros e f I J (K1 & K2). cbn [cs_poly In] in I, J. decompose [or] I; try contradiction; subst e; decompose [or] J; try contradiction; subst f;
      first [reflexivity|vm_compute in K1, K2; first [discriminate K1|discriminate K2]].
  - intros e f I J (K1 & K2). cbn [cs_poly In] in I, J. decompose [or] I; try contradiction; subst e; decompose [or] J; try contradiction; subst f;
      first [reflexivity|vm_compute in K1, K2; first [discriminate K1|discriminate K2]].
  - intros e f s r I J S R (K1 & K2). cbn [cs_poly In] in I, J.
    decompose [or] I; try contradiction; subst e; decompose [or] J; try contradiction; subst f; cbn [efrom eto] in K1, K2;
      rewrite ?P0, ?P1, ?P2, ?P3, ?P4 in K1, K2; unfold along in K1, K2; cbn [fst snd] in K1, K2; ends_meet.
Qed.


Lemma lpoly_polygon : simple_polygon (zpoint lpoly) cs_poly.
Proof.
  split; [exact lpoly_loops|].
  assert (N : forall f g, In f cs_poly -> In g cs_poly -> same_place (zpoint lpoly (eto f)) (zpoint lpoly (efrom g)) ->
    forall e, same_loop (zpoint lpoly) cs_poly e f -> same_loop (zpoint lpoly) cs_poly e g).
  { intros f g _ J V e L. exact (loop_next _ _ _ _ _ L J V). }
  pose proof (N (Edge 0 1) (Edge 1 2) ltac:(cbn; tauto) ltac:(cbn; tauto) ltac:(split; reflexivity)) as N1.
  pose proof (N (Edge 1 2) (Edge 2 3) ltac:(cbn; tauto) ltac:(cbn; tauto) ltac:(split; reflexivity)) as N2.
  pose proof (N (Edge 2 3) (Edge 3 4) ltac:(cbn; tauto) ltac:(cbn; tauto) ltac:(split; reflexivity)) as N3.
  pose proof (N (Edge 3 4) (Edge 4 0) ltac:(cbn; tauto) ltac:(cbn; tauto) ltac:(split; reflexivity)) as N4.
  pose proof (N (Edge 4 0) (Edge 0 1) ltac:(cbn; tauto) ltac:(cbn; tauto) ltac:(split; reflexivity)) as N5.
  intros e f I J. cbn [cs_poly In] in I, J.
  decompose [or] I; try contradiction; subst e; decompose [or] J; try contradiction; subst f; auto 8 using loop_here.
Qed.

(** A point of the polygon, and one in its notch. *)
Lemma lpoly_values : ~ on_constraint (zpoint lpoly) cs_poly (4, 4)%Q /\ winding (zpoint lpoly) cs_poly (4, 4)%Q = 1%Z /\
  ~ on_constraint (zpoint lpoly) cs_poly (6, 12)%Q /\ winding (zpoint lpoly) cs_poly (6, 12)%Q = 0%Z.
Proof.
  destruct lpoly_points as (P0 & P1 & P2 & P3 & P4 & _).
  split; [|split; [vm_compute; reflexivity|split; [|vm_compute; reflexivity]]];
    intros (e & s & I & _ & S & K1 & K2); cbn [cs_poly In] in I; decompose [or] I; try contradiction; subst e; cbn [efrom eto] in K1, K2;
    rewrite ?P0, ?P1, ?P2, ?P3, ?P4 in K1, K2; unfold along in K1, K2; cbn [fst snd] in K1, K2; lra.
Qed.

(** ** The square with a hole *)
Lemma lhole_loops : simple_loops (zpoint lhole) cs_hole.
Proof.
  destruct lhole_points as (P0 & P1 & P2 & P3 & P4 & P5 & P6 & P7). constructor.
  - unfold cs_hole. repeat constructor; cbn [In]; intuition discriminate.
  - intros e I (K1 & K2). cbn [cs_hole In] in I. decompose [or] I; try contradiction; subst e; vm_compute in K1, K2; first [discriminate K1|discriminate K2].
  - intros e I. cbn [cs_hole In] in I. decompose [or] I; try contradiction; subst e; let l := eval unfold cs_hole in cs_hole in pick l.
  - intros e I. cbn [cs_hole In] in I. decompose [or] I; try contradiction; subst e; let l := eval unfold cs_hole in cs_hole in pick l.
  - intros e f I J (K1 & K2). cbn [cs_hole In] in I, J. decompose [or] I; try contradiction; subst e; decompose [or] J; try contradiction; subst f;
      first [reflexivity|vm_compute in K1, K2; first [discriminate K1|discriminate K2]].
  - intros e f I J (K1 & K2). cbn [cs_hole In] in I, J. decompose [or] I; try contradiction; subst e; decompose [or] J; try contradiction; subst f;
      first [reflexivity|vm_compute in K1, K2; first [discriminate K1|discriminate K2]].
  - intros e f s r I J S R (K1 & K2). cbn [cs_hole In] in I, J.
    decompose [or] I; try contradiction; subst e; decompose [or] J; try contradiction; subst f; cbn [efrom eto] in K1, K2;
      rewrite ?P0, ?P1, ?P2, ?P3, ?P4, ?P5, ?P6, ?P7 in K1, K2; unfold along in K1, K2; cbn [fst snd] in K1, K2; ends_meet.
Qed.

(** From a point between the square and the hole one sees both loops. *)
Lemma lhole_tests e : In e cs_hole -> exists f q, same_loop (zpoint lhole) cs_hole e f /\ sees_side (zpoint lhole) cs_hole q f /\
  (orient (zpoint lhole (efrom f)) (zpoint lhole (eto f)) q < 0)%Q /\ winding (zpoint lhole) cs_hole q = 1%Z.
Proof.
  destruct lhole_points as (P0 & P1 & P2 & P3 & P4 & P5 & P6 & P7).
  assert (N : forall f g, In f cs_hole -> In g cs_hole -> same_place (zpoint lhole (eto f)) (zpoint lhole (efrom g)) ->
    forall e, same_loop (zpoint lhole) cs_hole e f -> same_loop (zpoint lhole) cs_hole e g).
  { intros f g _ J V e' L. exact (loop_next _ _ _ _ _ L J V). }
  pose proof (N (Edge 0 3) (Edge 3 2) ltac:(cbn; tauto) ltac:(cbn; tauto) ltac:(split; reflexivity)) as N1.
  pose proof (N (Edge 3 2) (Edge 2 1) ltac:(cbn; tauto) ltac:(cbn; tauto) ltac:(split; reflexivity)) as N2.
  pose proof (N (Edge 2 1) (Edge 1 0) ltac:(cbn; tauto) ltac:(cbn; tauto) ltac:(split; reflexivity)) as N3.
  pose proof (N (Edge 4 7) (Edge 7 6) ltac:(cbn; tauto) ltac:(cbn; tauto) ltac:(split; reflexivity)) as N4.
  pose proof (N (Edge 7 6) (Edge 6 5) ltac:(cbn; tauto) ltac:(cbn; tauto) ltac:(split; reflexivity)) as N5.
  pose proof (N (Edge 6 5) (Edge 5 4) ltac:(cbn; tauto) ltac:(cbn; tauto) ltac:(split; reflexivity)) as N6.
  pose proof (N (Edge 5 4) (Edge 4 7) ltac:(cbn; tauto) ltac:(cbn; tauto) ltac:(split; reflexivity)) as N7.
  assert (Sh : sees_side (zpoint lhole) cs_hole (2, 6)%Q (Edge 1 0) /\ sees_side (zpoint lhole) cs_hole (2, 6)%Q (Edge 4 7)).
  { split; [exists (1#2)%Q|exists (3#8)%Q]; (split; [split; reflexivity|]); intros t T (e' & s & I & _ & S & K1 & K2); cbn [cs_hole In] in I;
      decompose [or] I; try contradiction; subst e'; cbn [efrom eto] in K1, K2; rewrite ?P0, ?P1, ?P2, ?P3, ?P4, ?P5, ?P6, ?P7 in K1, K2;
      unfold along in K1, K2; cbn [fst snd] in K1, K2; lra. }
  destruct Sh as (Sh & So). intros I. cbn [cs_hole In] in I.
  decompose [or] I; try contradiction; subst e;
    first [exists (Edge 1 0), (2, 6)%Q; split; [solve [auto 8 using loop_here]|]; split; [exact Sh|]; split; [reflexivity|exact (proj1 hole_values)]
          |exists (Edge 4 7), (2, 6)%Q; split; [solve [auto 8 using loop_here]|]; split; [exact So|]; split; [reflexivity|exact (proj1 hole_values)]].
Qed.

(** The only vertex inside [lpoly]'s polygon is vertex 5. *)
Lemma lpoly_inner : inside_vertices (zpoint lpoly) 10 cs_poly [5].
Proof.
  destruct lpoly_points as (P0 & P1 & P2 & P3 & P4 & P5 & P6 & P7 & P8 & P9). constructor.
  - intros u [<- |[]]. split; [lia|]. split; [|rewrite P5; vm_compute; reflexivity]. rewrite P5. intros (e & s & I & _ & (S1 & S2) & (K1 & K2)).
    cbn [cs_poly In] in I. decompose [or] I; try contradiction; subst e; cbn [efrom eto] in K1, K2; rewrite ?P0, ?P1, ?P2, ?P3, ?P4 in K1, K2; unfold along in K1, K2; cbn [fst snd] in K1, K2; lra.
  - repeat constructor.
  - intros v V Nv W. assert (v = 0 \/ v = 1 \/ v = 2 \/ v = 3 \/ v = 4 \/ v = 5 \/ v = 6 \/ v = 7 \/ v = 8 \/ v = 9) as C by lia.
    decompose [or] C; subst v; try (vm_compute in W; discriminate W); [..|exists 5; split; [now left|split; reflexivity]].
    all: exfalso; apply Nv.
    all: first [exists (Edge 0 1), 0%Q; split; [cbn [cs_poly In]; tauto|]; split; [intros (K1 & K2); vm_compute in K1, K2; discriminate|]; split; [split; discriminate|split; reflexivity]|
      exists (Edge 1 2), 0%Q; split; [cbn [cs_poly In]; tauto|]; split; [intros (K1 & K2); vm_compute in K1, K2; discriminate|]; split; [split; discriminate|split; reflexivity]|
      exists (Edge 2 3), 0%Q; split; [cbn [cs_poly In]; tauto|]; split; [intros (K1 & K2); vm_compute in K1, K2; discriminate|]; split; [split; discriminate|split; reflexivity]|
      exists (Edge 3 4), 0%Q; split; [cbn [cs_poly In]; tauto|]; split; [intros (K1 & K2); vm_compute in K1, K2; discriminate|]; split; [split; discriminate|split; reflexivity]|
      exists (Edge 4 0), 0%Q; split; [cbn [cs_poly In]; tauto|]; split; [intros (K1 & K2); vm_compute in K1, K2; discriminate|]; split; [split; discriminate|split; reflexivity]].
Qed.
