(** * QualityApi: the returned Delaunay triangulations pass the circumcircle check. *)

From Coq Require Import ZArith NArith List Bool QArith Reals Qreals Lra Lqa Lia.
From Verif Require Import Base BaseFacts Arith Types Utils Triangulation Spec GridSpec InputSpec GridApi ApiProps
  AnyDT LawsonGrid Quality SpecQuality QualityFacts.
Import ListNotations.
Local Open Scope R_scope.

Lemma qr_sqdist a b : Q2R (sqdist a b) = rsqdist (rpt a) (rpt b).
Proof. unfold sqdist, rsqdist, rpt. simpl. rewrite Q2R_plus, !Q2R_mult, !Q2R_minus. reflexivity. Qed.

Lemma qr_orient a b c : Q2R (orient a b c) =
  (Q2R (fst b) - Q2R (fst a)) * (Q2R (snd c) - Q2R (snd a)) - (Q2R (snd b) - Q2R (snd a)) * (Q2R (fst c) - Q2R (fst a)).
Proof. unfold orient. rewrite Q2R_minus, !Q2R_mult, !Q2R_minus. reflexivity. Qed.

Lemma qr_not_flat a b c : ~ (orient a b c == 0)%Q -> not_flat (rpt a) (rpt b) (rpt c).
Proof.
  intros H Q. apply H. apply eqR_Qeq. rewrite qr_orient. unfold rpt in Q. simpl in Q. rewrite Q. symmetry. apply RMicromega.Q2R_0.
Qed.

(** The center of three rational points is rational. *)
Lemma q_center a b c : ~ (orient a b c == 0)%Q ->
  exists o, (sqdist o a == sqdist o b /\ sqdist o b == sqdist o c)%Q.
Proof.
  intros H. destruct a as (ax, ay), b as (bx, by_), c as (cx, cy). unfold orient in H. simpl in H.
  set (d := ((bx - ax) * (cy - ay) - (by_ - ay) * (cx - ax))%Q) in *.
  set (b2 := ((bx - ax) * (bx - ax) + (by_ - ay) * (by_ - ay))%Q).
  set (c2 := ((cx - ax) * (cx - ax) + (cy - ay) * (cy - ay))%Q).
  exists (((cy - ay) * b2 - (by_ - ay) * c2) / (2 * d) + ax, ((bx - ax) * c2 - (cx - ax) * b2) / (2 * d) + ay)%Q.
  unfold sqdist. simpl. unfold b2, c2, d in *. split; field; auto.
Qed.

Lemma qr_circle a b c d : ~ (orient a b c == 0)%Q -> in_rcircle (rpt a) (rpt b) (rpt c) (rpt d) -> in_circumcircle a b c d.
Proof.
  intros H (o & E1 & E2 & L). destruct (q_center a b c H) as (o' & Q1 & Q2). exists o'.
  assert (K : o = rpt o').
  { rewrite <- (center_eq (rpt a) (rpt b) (rpt c) o (qr_not_flat _ _ _ H) E1 E2).
    apply center_eq; [now apply qr_not_flat| |]; rewrite <- !qr_sqdist; apply Qeq_eqR; auto. now rewrite Q1. }
  subst o. split; auto. split; auto. apply Rlt_Qlt. now rewrite !qr_sqdist.
Qed.

Lemma filter_none {A} (f : A -> bool) l : (forall x, In x l -> f x = false) -> filter f l = [].
Proof. induction l as [|x l IH]; intros H; auto. simpl. rewrite H by now left. apply IH. intros y Hy. apply H. now right. Qed.

Lemma corner_on at_ t v : tri_clockwise at_ t -> tri_corner t v -> tri_inside_or_on at_ t (at_ v).
Proof.
  destruct t as ((a, b), c). unfold tri_clockwise, tri_inside_or_on, inside_or_on, clockwise, orient. simpl.
  intros H [->|[->| ->]]; split; try split; Lqa.lra.
Qed.

Section Grid.
Context {E : Env}.
Variables (vs : list vertex) (px py : N -> Q) (bound : Z).
Notation pos := (pair_at px py).
Hypothesis G : exact_input vs pos bound.
Hypothesis Hid : (2 * lenN vs + 2 <= idmax)%N.

Lemma grid_passes fuel bins out rvs : (4 * length vs + 12 <= fuel)%nat ->
  triangulation_from_2d_vertices fuel bins vs = Ret out ->
  locally_delaunay pos out -> convex_area pos out ->
  real_positions pos (lenN vs) rvs -> r_check_circumcircles out rvs = Ret 0%N.
Proof.
  intros Hf Ho LD Cx (Rl & Rp).
  pose proof (grid_valid vs pos bound G Hid fuel bins out Hf Ho) as (VM & _).
  assert (Hr : ids_in_range out rvs).
  { intros ((x, y), z) v Ht Hv. rewrite Rl. destruct (dt_ids fuel bins vs out) as (Ids & _); [lia|auto|].
    destruct (Ids _ _ _ Ht) as (I1 & I2 & I3). simpl in Hv. destruct Hv as [->|[->| ->]]; auto. }
  assert (Nf : forall a b c, In (a, b, c) out -> ~ (orient (pos a) (pos b) (pos c) == 0)%Q).
  { intros a b c Ht Q. pose proof (vm_clockwise _ _ _ VM _ Ht) as K. simpl in K. unfold clockwise in K. rewrite Q in K. now apply Qlt_irrefl in K. }
  assert (In3 : forall a b c v, In (a, b, c) out -> tri_corner (a, b, c) v -> (v < lenN vs)%N).
  { intros a b c v Ht Hv. rewrite <- Rl. apply (Hr (a, b, c)); auto. }
  destruct (r_check out rvs Hr) as (bad & Hb & ->).
  { intros a b c Ht. rewrite !Rp by (apply (In3 a b c); simpl; auto). apply qr_not_flat. auto. }
  rewrite filter_none; [reflexivity|].
  intros ((a, b), c) Ht. apply not_true_is_false. intros K. apply Hb in K; auto.
  destruct K as (t' & v & Ht' & Hv & Nv & Ci).
  assert (Lv : (v < lenN vs)%N) by (rewrite <- Rl; eapply Hr; eauto).
  rewrite !Rp in Ci by (auto || (apply (In3 a b c); simpl; auto)).
  apply (grid_empty_circles vs px py bound G Hid fuel bins out Hf Ho LD Cx a b c v); auto.
  - now left.
  - exists t'. split; auto. apply corner_on; auto. now apply (vm_clockwise _ _ _ VM).
  - now apply qr_circle; auto.
Qed.
End Grid.
