(** * WitnessBox: a binary64 input whose last four vertices are the corners of a box. *)

From Coq Require Import ZArith NArith List Bool QArith SpecFloat Lia Lqa Permutation.
From Verif Require Import Base Arith Types Utils Infinite Triangulation F64 Exact Spec DTOut GridSpec GridNum InputSpec GridApi GridCdt ApiProps
  Refuted Witness SpecBox.
Import ListNotations.
Local Open Scope N_scope.

(** Six vertices, two of them at the same place, one on a side of the box and one at a corner, then
    the corners. *)
Definition lbox : list (Z * Z) := [(3,4); (32,16); (5,12); (3,4); (20,9); (17,0); (32,16); (0,0); (0,16); (32,0)]%Z.
Definition cs_box : list edge := [Edge 2 4; Edge 5 3; Edge 0 3; Edge 7 0; Edge 4 6].

Lemma lbox_grid64 : on_grid (E := env64) (pts lbox) lbox (2 ^ 40).
Proof.
  exists (sf_is 53 1024), (2 ^ 5)%Z, 0%Z, 0%Z.
  split; [apply (Grid_f64 u32_max 5); lia|]. split; [|split].
  - apply f2_map. intros p Hp. simpl in Hp.
    decompose [or] Hp; try contradiction; subst; vm_compute; repeat split; reflexivity.
  - unfold fits, lbox. repeat split.
    1-4: simpl in H; intuition (subst; simpl; lia).
    + exists (0, 0)%Z. simpl. auto 12.
    + exists (0, 0)%Z. simpl. auto 12.
    + exists (32, 16)%Z. simpl. auto 12.
  - intros p Hp. simpl in Hp. decompose [or] Hp; try contradiction; subst; vm_compute; split; discriminate.
Qed.

Lemma lbox_ids : 2 * lenN (pts lbox) + 2 <= @idmax env64.
Proof. vm_compute. discriminate. Qed.

Lemma lbox_corners : Permutation [7; 9; 6; 8] [6; 6 + 1; 6 + 2; 6 + 3] /\
  box_corners (zpoint lbox 7) (zpoint lbox 9) (zpoint lbox 6) (zpoint lbox 8).
Proof.
  split; [|vm_compute; repeat split; try reflexivity; discriminate].
  apply (NoDup_Permutation_bis); [|reflexivity|intros x; cbn [In]; lia].
  repeat constructor; cbn [In]; lia.
Qed.

Lemma lbox_points :
  zpoint lbox 0 = (3, 4)%Q /\ zpoint lbox 1 = (32, 16)%Q /\ zpoint lbox 2 = (5, 12)%Q /\ zpoint lbox 3 = (3, 4)%Q /\
  zpoint lbox 4 = (20, 9)%Q /\ zpoint lbox 5 = (17, 0)%Q /\ zpoint lbox 6 = (32, 16)%Q /\ zpoint lbox 7 = (0, 0)%Q /\
  zpoint lbox 8 = (0, 16)%Q /\ zpoint lbox 9 = (32, 0)%Q.
Proof. repeat split. Qed.

Lemma lbox_inside v : v < 6 -> in_box (zpoint lbox 7) (zpoint lbox 6) (zpoint lbox v).
Proof.
  intros H. assert (K : v = 0 \/ v = 1 \/ v = 2 \/ v = 3 \/ v = 4 \/ v = 5) by lia.
  destruct lbox_points as (P0 & P1 & P2 & P3 & P4 & P5 & P6 & P7 & _).
  decompose [or] K; subst v; rewrite ?P0, ?P1, ?P2, ?P3, ?P4, ?P5, ?P6, ?P7; unfold in_box; cbn [fst snd]; split; split; lra.
Qed.

Lemma lbox_clear e : In e cs_box -> efrom e < 10 /\ eto e < 10 /\
  (~ same_place (zpoint lbox (efrom e)) (zpoint lbox (eto e)) -> clear_between (zpoint lbox) 10 (efrom e) (eto e)).
Proof.
  destruct lbox_points as (P0 & P1 & P2 & P3 & P4 & P5 & P6 & P7 & P8 & P9).
  intros He. cbn [cs_box In] in He. 
  decompose [or] He; try contradiction; subst e; cbn [efrom eto]; (split; [lia|]; split; [lia|]).
  all: rewrite ?P0, ?P1, ?P2, ?P3, ?P4, ?P5, ?P6, ?P7, ?P8, ?P9; intros Hne.
  3: { exfalso. apply Hne. split; reflexivity. }
  all: intros v s Hv Hs;
    assert (Hv' : v = 0 \/ v = 1 \/ v = 2 \/ v = 3 \/ v = 4 \/ v = 5 \/ v = 6 \/ v = 7 \/ v = 8 \/ v = 9) by lia;
    decompose [or] Hv'; subst v; rewrite ?P0, ?P1, ?P2, ?P3, ?P4, ?P5, ?P6, ?P7, ?P8, ?P9;
    intros (Q1 & Q2); unfold along in Q1, Q2; cbn [fst snd] in Q1, Q2; lra.
Qed.

Lemma lbox_noncrossing : noncrossing (zpoint lbox) cs_box.
Proof. apply noncrossing_b; vm_compute; reflexivity. Qed.
