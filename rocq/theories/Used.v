(** * Used: which vertices are corners of the triangles that fill loops. *)

From Coq Require Import ZArith NArith List Bool QArith Lqa Lia Permutation.
From Verif Require Import Base BaseFacts Arith Types Spec SpecBox SpecDomain SpecCount SpecWinding SpecArea Infinite Triangulation Constrained GridSpec InputSpec GridApi GridCdt
  TallyGrid Polygon Jordan Facing SelectGrid Hull Count Area AreaGrid Anywhere AnywhereCount.
Import ListNotations.
Local Open Scope N_scope.

Lemma corner_covered at_ out t c p : In t out -> tri_clockwise at_ t -> tri_corner t c -> same_place (at_ c) p -> covered at_ out p.
Proof.
  intros Ht Cw Cc P. exists t. split; [exact Ht|]. destruct t as ((x, y), z). cbn in Cw, Cc |- *. unfold clockwise in Cw. unfold inside_or_on.
  rewrite <- !(at_place _ _ _ _ P). destruct Cc as [-> |[-> | ->]]; unfold orient in *; repeat split; lra.
Qed.

Section Call.
Context {E : Env}.
Variables (vs : list vertex) (at_ : N -> point) (bound : Z) (fuel : nat) (bins : N) (cs : list edge) (out : list (N * N * N)).
Hypothesis G : exact_input vs at_ bound.
Hypothesis Hid : 2 * lenN vs + 2 <= idmax.
Hypothesis Hf : (4 * length vs + 12 <= fuel)%nat.
Hypothesis Hcs : forall e, In e cs -> efrom e < lenN vs /\ eto e < lenN vs /\ clear_between at_ (lenN vs) (efrom e) (eto e).
Hypothesis SL : simple_loops at_ cs.
Hypothesis Ne : forall e, In e cs -> near at_ cs e (1#2) 1.
Hypothesis R : constrained_triangulation_from_2d_vertices fuel bins vs cs = Ret out.
Hypothesis C : forall p, ~ on_constraint at_ cs p -> (covered at_ out p <-> winding at_ cs p = 1%Z).

Lemma call_used v : v < lenN vs ->
  ((exists t c, In t out /\ tri_corner t c /\ same_place (at_ c) (at_ v)) <->
   ((exists e, In e cs /\ same_place (at_ (efrom e)) (at_ v)) \/ (~ on_constraint at_ cs (at_ v) /\ winding at_ cs (at_ v) = 1%Z))).
Proof.
  intros L. destruct (returned_valid vs at_ bound fuel bins out G Hid Hf (or_intror (ex_intro _ cs R))) as (VM & Rg). split.
  - intros (t & c & Ht & Cc & P). destruct (on_constraint_dec at_ cs (at_ v)) as [On|Nc].
    + left. destruct On as (e & s & Ie & _ & (S1 & S2) & Q). destruct (Hcs e Ie) as (_ & _ & Cl).
      destruct (Qeq_dec s 0) as [Z|Z0]; [exists e; split; [exact Ie|]|].
      { apply place_sym. apply (place_trans _ _ _ Q). unfold same_place, along. cbn [fst snd]. rewrite Z. split; ring. }
      destruct (Qeq_dec s 1) as [Z|Z1]; [|exfalso; apply (Cl v s L); [|exact Q]; split; apply Qnot_le_lt; intros K; [apply Z0|apply Z1]; lra].
      destruct (sl_next _ _ SL e Ie) as (f & If & Pf). exists f. split; [exact If|]. apply place_sym. apply (place_trans _ (at_ (eto e))); [|exact Pf].
      apply (place_trans _ _ _ Q). unfold same_place, along. cbn [fst snd]. rewrite Z. split; ring.
    + right. split; [exact Nc|]. apply (C _ Nc). exact (corner_covered at_ out t c _ Ht (vm_clockwise _ _ _ VM t Ht) Cc P).
  - intros [(e & Ie & P)|(Nc & W)].
    + assert (Ends : forall e, In e cs -> efrom e < lenN vs /\ eto e < lenN vs) by (intros e' I; destruct (Hcs e' I) as (A & B & _); auto).
      destruct (call_border vs at_ bound fuel bins cs out G Hid Hf Ends SL Ne R C) as ((_ & _ & K) & _). destruct (K e Ie) as (u & w & B & (Pu & _)).
      apply border_iff in B. destruct B as (B & _). destruct (edge_tri out u w B) as (d & T). destruct (tri_in at_ (lenN vs) out VM u w d T) as (t & Ht & Ct & _).
      exists t, u. split; [exact Ht|]. split; [apply Ct; auto|]. exact (place_trans _ _ _ Pu P).
    + apply (C _ Nc) in W. destruct W as (t & Ht & It). destruct (vm_empty _ _ _ VM t v Ht L It) as (c & Cc & P). exists t, c. auto.
Qed.
End Call.

Section Anywhere.
Context {E : Env}.
Variables (vs : list vertex) (at_ : N -> point) (bound : Z).
Hypothesis G : exact_input vs at_ bound.
Hypothesis Hid : 2 * lenN vs + 2 <= idmax.
Variables (fuel : nat) (bins : N) (dt : list (N * N * N)) (cs : list edge).
Hypothesis Hf : ((2 * length vs + 4) * (2 * length vs + 4) <= fuel)%nat.
Hypothesis B1 : 1 <= bins.
Hypothesis B2 : (Z.of_N bins <= bound)%Z.
Hypothesis Hd : triangulation_from_2d_vertices fuel bins vs = Ret dt.
Hypothesis Hcs : forall e, In e cs -> efrom e < lenN vs /\ eto e < lenN vs /\
  clear_between at_ (lenN vs) (efrom e) (eto e) /\ covers_between at_ dt (efrom e) (eto e).

Lemma anywhere_used : simple_loops at_ cs -> (forall e, In e cs -> near at_ cs e (1#2) 1) ->
  exists out, constrained_triangulation_from_2d_vertices fuel bins vs cs = Ret out /\
    forall v, v < lenN vs ->
      ((exists t c, In t out /\ tri_corner t c /\ same_place (at_ c) (at_ v)) <->
       ((exists e, In e cs /\ same_place (at_ (efrom e)) (at_ v)) \/ (~ on_constraint at_ cs (at_ v) /\ winding at_ cs (at_ v) = 1%Z))).
Proof.
  intros SL Ne. destruct (anywhere_inside vs at_ bound G Hid fuel bins dt cs Hf B1 B2 Hd Hcs SL Ne) as (out & R & C).
  exists out. split; [exact R|]. intros v. apply (call_used vs at_ bound fuel bins cs out G Hid); [nia| |exact SL|exact Ne|exact R|intros p Nc; exact (proj2 (C p Nc))].
  intros e I. destruct (Hcs e I) as (A & B & K & _). auto.
Qed.
End Anywhere.

Lemma box_used {E : Env} (vs : list vertex) at_ bound fuel n a b c d cs :
  exact_input vs at_ bound -> 2 * lenN vs + 2 <= idmax ->
  ((2 * length vs + 4) * (2 * length vs + 4) <= fuel)%nat -> (1 <= bound)%Z ->
  lenN vs = n + 4 -> Permutation [a; b; c; d] [n; n + 1; n + 2; n + 3] ->
  box_corners (at_ a) (at_ b) (at_ c) (at_ d) ->
  (forall v, v < n -> in_box (at_ a) (at_ c) (at_ v)) ->
  (forall e, In e cs -> efrom e < lenN vs /\ eto e < lenN vs /\ clear_between at_ (lenN vs) (efrom e) (eto e)) ->
  simple_loops at_ cs -> (forall e, In e cs -> near at_ cs e (1#2) 1) ->
  exists out, constrained_triangulation_from_2d_vertices fuel 1 vs cs = Ret out /\
    forall v, v < lenN vs ->
      ((exists t c, In t out /\ tri_corner t c /\ same_place (at_ c) (at_ v)) <->
       ((exists e, In e cs /\ same_place (at_ (efrom e)) (at_ v)) \/ (~ on_constraint at_ cs (at_ v) /\ winding at_ cs (at_ v) = 1%Z))).
Proof.
  intros G Hid Hf Hb Hn Pm Bx Hin Hcs SL Ne.
  assert (Y : exists out, constrained_triangulation_from_2d_vertices fuel 1 vs cs = Ret out /\
    forall p, ~ on_constraint at_ cs p -> (winding at_ cs p = 0%Z \/ winding at_ cs p = 1%Z) /\ (covered at_ out p <-> winding at_ cs p = 1%Z)).
  { revert Bx Hin Hcs SL Ne. pair_input G. intros Bx Hin Hcs SL Ne. exact (near_box vs px py bound G Hid fuel n a b c d cs Hf Hb Hn Pm Bx Hin Hcs SL Ne). }
  destruct Y as (out & R & C).
  exists out. split; [exact R|]. intros v. apply (call_used vs at_ bound fuel 1 cs out G Hid); [nia|exact Hcs|exact SL|exact Ne|exact R|intros p Nc; exact (proj2 (C p Nc))].
Qed.
