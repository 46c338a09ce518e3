(** * Anywhere: simple loops without a box around them, with any number of bins. *)

From Coq Require Import ZArith NArith List Bool QArith Lqa Lia Permutation.
From Verif Require Import Base Arith Types Spec SpecBox SpecDomain Triangulation Constrained InputSpec GridApi GridCdt LawsonGrid DomainGrid
  SpecWinding Winding Inside InsideGrid TallyGrid GermCount Tube Polygon Jordan Outside.
Import ListNotations.
Local Open Scope Q_scope.

(** ** A loop lies around covered points only *)
Lemma covered_dec at_ out p : covered at_ out p \/ ~ covered at_ out p.
Proof.
  induction out as [|t l [(u & I & C)|IH]]; [right; intros (t & [] & _)|left; exists u; split; [now right|exact C]|].
  assert (D : tri_inside_or_on at_ t p \/ ~ tri_inside_or_on at_ t p).
  { destruct t as ((x, y), z). cbn. unfold inside_or_on.
    destruct (Qlt_le_dec 0 (orient (at_ x) (at_ y) p)); [right; lra|]. destruct (Qlt_le_dec 0 (orient (at_ y) (at_ z) p)); [right; lra|].
    destruct (Qlt_le_dec 0 (orient (at_ z) (at_ x) p)); [right; lra|]. left. repeat split; assumption. }
  destruct D as [D|D]; [left; exists t; split; [now left|exact D]|]. right. intros (u & [<- | I] & C); [exact (D C)|apply IH; exists u; auto].
Qed.

Lemma covered_place at_ out p q : same_place p q -> covered at_ out p -> covered at_ out q.
Proof.
  intros (X & Y) (((x, y), z) & I & C). exists (x, y, z). split; [exact I|]. cbn in *. unfold inside_or_on, orient in *. rewrite <- X, <- Y. exact C.
Qed.

Section Around.
Variable at_ : N -> point.
Variable cs : list edge.
Variable dt : list (N * N * N).
Hypothesis CL : closed_loops at_ cs.
Hypothesis NH : no_holes at_ dt.
Hypothesis Cs : forall e, In e cs -> proper at_ e -> covers_between at_ dt (efrom e) (eto e).

Lemma on_covered p : on_constraint at_ cs p -> covered at_ dt p.
Proof.
  intros (e & s & I & P & (S1 & S2) & K). apply (covered_place _ _ _ _ (conj (Qeq_sym _ _ (proj1 K)) (Qeq_sym _ _ (proj2 K)))).
  pose proof (Cs e I P) as C. set (f := at_ (efrom e)) in *. set (g := at_ (eto e)) in *.
  apply (covered_limit at_ dt _ (along f g (1#2))). intros s0 S0.
  assert (M : exists m, 0 < m < s0 /\ m < 1).
  { destruct (Qlt_le_dec s0 1); [exists (s0 * (1#2))|exists (1#2)]; lra. }
  destruct M as (m & M & M1). exists m. split; [exact M|].
  destruct (C ((1 - m) * s + m * (1#2))) as (t & T & In_); [split; nra|]. exists t. split; [exact T|].
  assert (Q : same_place (along f g ((1 - m) * s + m * (1#2))) (along (along f g s) (along f g (1#2)) m)).
  { unfold along. split; cbn [fst snd]; ring. }
  destruct (covered_place at_ [t] _ _ Q (ex_intro _ t (conj (or_introl eq_refl) In_))) as (t' & [<- | []] & R). exact R.
Qed.

Lemma turned_covered p : winding at_ cs p <> 0%Z -> covered at_ dt p.
Proof.
  intros W. destruct (covered_dec at_ dt p) as [C|C]; [exact C|]. exfalso. apply W.
  destruct (NH p C) as (d & D & R). destruct (bounding at_ cs) as (a & c & B).
  assert (Far : exists t, 0 <= t /\ ~ in_box a c (on_ray p d t)).
  { unfold axes in D. cbn [In] in D. unfold in_box, on_ray.
    destruct D as [<- |[<- |[<- |[<- |[]]]]]; cbn [fst snd].
    - destruct (Qlt_le_dec (fst p) (fst a)); [exists 0|exists (fst p - fst a + 1)]; split; try lra; intros ((? & ?) & _); lra.
    - destruct (Qlt_le_dec (snd c) (snd p)); [exists 0|exists (snd c - snd p + 1)]; split; try lra; intros (_ & ? & ?); lra.
    - destruct (Qlt_le_dec (fst c) (fst p)); [exists 0|exists (fst c - fst p + 1)]; split; try lra; intros ((? & ?) & _); lra.
    - destruct (Qlt_le_dec (snd p) (snd a)); [exists 0|exists (snd p - snd a + 1)]; split; try lra; intros (_ & ? & ?); lra. }
  destruct Far as (t & T & Nb). rewrite <- (winding_outside at_ cs CL a c B (on_ray p d t) Nb).
  apply (winding_step at_ cs CL). intros s S O. apply on_covered in O. apply (R (s * t)); [nra|].
  apply (covered_place _ _ (along p (on_ray p d t) s)); [|exact O]. unfold along, on_ray. split; cbn [fst snd]; ring.
Qed.
End Around.

(** ** Results for exact inputs *)
Local Open Scope N_scope.

Section Grid.
Context {E : Env}.
Variables (vs : list vertex) (at_ : N -> point) (bound : Z).
Hypothesis G : exact_input vs at_ bound.
Hypothesis Hid : 2 * lenN vs + 2 <= idmax.
Variables (fuel : nat) (bins : N) (dt : list (N * N * N)) (cs : list edge).
Hypothesis Hf : ((2 * length vs + 4) * (2 * length vs + 4) <= fuel)%nat.
Hypothesis B1 : 1 <= bins.
Hypothesis B2 : (Z.of_N bins <= bound)%Z.
Hypothesis Hd : triangulation_from_2d_vertices fuel bins vs = Ret dt.
Hypothesis Hcs : forall e, In e cs -> efrom e < lenN vs /\ eto e < lenN vs /\
  clear_between at_ (lenN vs) (efrom e) (eto e) /\ covers_between at_ dt (efrom e) (eto e).

Lemma small_fuel : (4 * length vs + 12 <= fuel)%nat.
Proof. nia. Qed.

Lemma call_returns : exists out, constrained_triangulation_from_2d_vertices fuel bins vs cs = Ret out.
Proof.
  destruct (input_pair _ _ _ G) as (px & py & Q).
  apply (grid_cdt_returns vs px py bound) with (out0 := dt); rewrite <- ?Q; auto.
  intros e I. destruct (Hcs e I) as (X & Y & Z). auto.
Qed.

Lemma anywhere_value z e0 : simple_loops at_ cs -> In e0 cs -> (forall e, In e cs -> near at_ cs e (1#2) z) ->
  exists out, constrained_triangulation_from_2d_vertices fuel bins vs cs = Ret out /\
    forall p, ~ on_constraint at_ cs p -> (winding at_ cs p = z \/ winding at_ cs p = (z - 1)%Z) /\
      (covered at_ out p -> winding at_ cs p = z) /\ (covered at_ dt p -> winding at_ cs p = z -> covered at_ out p).
Proof.
  intros SL I0 Ne. destruct call_returns as (out & R). exists out. split; [exact R|]. intros p Nc.
  destruct (right_value at_ cs SL z e0 p I0 Ne Nc) as (V & D). split; [exact V|].
  destruct (input_pair _ _ _ G) as (px & py & Q). pose proof (meet_noncrossing at_ cs SL) as X. split.
  - intros C. apply D. subst at_. exact (grid_inside vs px py bound G Hid fuel bins cs out p small_fuel R X Nc C).
  - intros Cd W. assert (Cv : forall e, In e cs -> proper at_ e -> covers_between at_ dt (efrom e) (eto e)) by (intros e I _; apply (Hcs e I)).
    apply D in W. subst at_. exact (proj2 (grid_domain vs px py bound G Hid fuel Hf bins cs out dt p R Hd X Cv Cd Nc) W).
Qed.

Lemma anywhere_inside : simple_loops at_ cs -> (forall e, In e cs -> near at_ cs e (1#2) 1) ->
  exists out, constrained_triangulation_from_2d_vertices fuel bins vs cs = Ret out /\
    forall p, ~ on_constraint at_ cs p -> (winding at_ cs p = 0%Z \/ winding at_ cs p = 1%Z) /\
      (covered at_ out p <-> winding at_ cs p = 1%Z).
Proof.
  intros SL Ne. destruct (input_pair _ _ _ G) as (px & py & Q). destruct call_returns as (out & R). exists out. split; [exact R|]. intros p Nc.
  pose proof (near_values at_ cs SL p Ne Nc) as V. split; [exact V|].
  pose proof (meet_noncrossing at_ cs SL) as X. pose proof (simple_closed at_ cs SL) as CL. pose proof (near_inside at_ cs SL Ne) as IR.
  assert (Cv : forall e, In e cs -> proper at_ e -> covers_between at_ dt (efrom e) (eto e)) by (intros e I _; apply (Hcs e I)).
  assert (NH : no_holes at_ dt) by (subst at_; exact (grid_no_holes vs px py bound G Hid fuel bins dt small_fuel Hd)).
  split.
  - intros C. assert (K : (0 < winding at_ cs p)%Z); [|lia].
    subst at_. exact (grid_loops_inside vs px py bound G Hid fuel bins cs out p small_fuel R X CL IR Nc C).
  - intros W. assert (Cd : covered at_ dt p) by (apply (turned_covered at_ cs dt CL NH Cv); lia).
    assert (K : (0 < winding at_ cs p)%Z) by lia.
    subst at_. exact (proj2 (grid_loops_domain vs px py bound G Hid fuel bins cs out dt p Hf R Hd X Cv CL IR Cd Nc) K).
Qed.

Lemma anywhere_loops_value z : simple_loops at_ cs -> cs <> [] ->
  (forall e, In e cs -> exists f q, same_loop at_ cs e f /\ sees_side at_ cs q f /\
     (orient (at_ (efrom f)) (at_ (eto f)) q < 0)%Q /\ winding at_ cs q = z) ->
  exists out, constrained_triangulation_from_2d_vertices fuel bins vs cs = Ret out /\
    forall p, ~ on_constraint at_ cs p -> (winding at_ cs p = z \/ winding at_ cs p = (z - 1)%Z) /\
      (covered at_ out p -> winding at_ cs p = z) /\ (covered at_ dt p -> winding at_ cs p = z -> covered at_ out p).
Proof.
  intros SL NE T. assert (I0 : exists e0, In e0 cs) by (destruct cs as [|e0 r]; [destruct (NE eq_refl)|exists e0; now left]).
  destruct I0 as (e0 & I0). exact (anywhere_value z e0 SL I0 (loops_value at_ cs SL z T)).
Qed.
End Grid.
