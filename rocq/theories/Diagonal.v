(** * Diagonal: triangles that fill a simple polygon, and the edges they have inside it. *)

From Coq Require Import ZArith NArith List Bool QArith Qminmax Lqa Lia Permutation.
From Verif Require Import Types Spec SpecDomain SpecWinding Winding Inside TallyGrid Tally Tube Polygon Jordan Ring.
Import ListNotations.
Local Open Scope Q_scope.

Section Triangles.
Variable at_ : N -> point.

Definition mid (t : N * N * N) : point :=
  let '(a, b, c) := t in ((fst (at_ a) + fst (at_ b) + fst (at_ c)) * (1#3), (snd (at_ a) + snd (at_ b) + snd (at_ c)) * (1#3)).

Lemma mid_inside t : tri_clockwise at_ t -> tri_inside at_ t (mid t).
Proof.
  destruct t as ((a, b), c). unfold tri_clockwise, tri_inside, clockwise, strictly_inside, mid. intros K.
  set (g := ((fst (at_ a) + fst (at_ b) + fst (at_ c)) * (1#3), (snd (at_ a) + snd (at_ b) + snd (at_ c)) * (1#3))).
  assert (A : orient (at_ a) (at_ b) g == (1#3) * orient (at_ a) (at_ b) (at_ c)) by (unfold g, orient; cbn [fst snd]; ring).
  assert (B : orient (at_ b) (at_ c) g == (1#3) * orient (at_ a) (at_ b) (at_ c)) by (unfold g, orient; cbn [fst snd]; ring).
  assert (C : orient (at_ c) (at_ a) g == (1#3) * orient (at_ a) (at_ b) (at_ c)) by (unfold g, orient; cbn [fst snd]; ring).
  rewrite A, B, C. repeat split; lra.
Qed.

Lemma mix A B s : A <= 0 -> B < 0 -> 0 < s <= 1 -> (1 - s) * A + s * B < 0.
Proof. intros. nra. Qed.

Lemma inward t p q s : tri_inside_or_on at_ t p -> tri_inside at_ t q -> 0 < s <= 1 -> tri_inside at_ t (along p q s).
Proof.
  destruct t as ((a, b), c). unfold tri_inside_or_on, tri_inside, inside_or_on, strictly_inside. intros (A1 & A2 & A3) (B1 & B2 & B3) S.
  rewrite !orient_along. repeat split; apply mix; assumption.
Qed.

Lemma inside_on t p : tri_inside at_ t p -> tri_inside_or_on at_ t p.
Proof. destruct t as ((a, b), c). unfold tri_inside_or_on, tri_inside, inside_or_on, strictly_inside. intros (A & B & C). repeat split; lra. Qed.

Lemma inside_along t p q s : tri_inside at_ t p -> tri_inside at_ t q -> 0 <= s <= 1 -> tri_inside at_ t (along p q s).
Proof.
  intros P K S. destruct (Q_dec s 0) as [[L|L]|L]; [lra|apply inward; [now apply inside_on|exact K|lra]|].
  destruct t as ((a, b), c). unfold tri_inside, strictly_inside in *. rewrite !orient_along, L. repeat split; lra.
Qed.

Lemma toward p k r : 0 < r -> exists s, 0 < s <= 1 /\ square p r (along p k s).
Proof.
  intros R. destruct (small r (fst k - fst p) (snd k - snd p) R) as (s & S & X & Y). exists s. split; [exact S|].
  assert (Q1 : fst (along p k s) - fst p == s * (fst k - fst p)) by (unfold along; cbn [fst]; ring).
  assert (Q2 : snd (along p k s) - snd p == s * (snd k - snd p)) by (unfold along; cbn [snd]; ring).
  unfold square. rewrite Q1, Q2. split; assumption.
Qed.

(** The triangle [t], read from another corner. *)
Definition turned (t : N * N * N) (x y z : N) : Prop := t = (x, y, z) \/ t = (z, x, y) \/ t = (y, z, x).

Lemma turned_inside t x y z p : turned t x y z -> tri_inside at_ t p <-> strictly_inside (at_ x) (at_ y) (at_ z) p.
Proof. intros [->|[->| ->]]; unfold tri_inside, strictly_inside; tauto. Qed.
Lemma turned_on t x y z p : turned t x y z -> tri_inside_or_on at_ t p <-> inside_or_on (at_ x) (at_ y) (at_ z) p.
Proof. intros [->|[->| ->]]; unfold tri_inside_or_on, inside_or_on; tauto. Qed.
Lemma turned_clockwise t x y z : turned t x y z -> tri_clockwise at_ t -> clockwise (at_ x) (at_ y) (at_ z).
Proof. intros [->|[->| ->]]; unfold tri_clockwise, clockwise, orient; lra. Qed.
Lemma turned_corner t x y z c : turned t x y z -> tri_corner t c <-> c = x \/ c = y \/ c = z.
Proof. intros [->|[->| ->]]; unfold tri_corner; tauto. Qed.

Lemma along_between x y z s : clockwise x y z -> 0 <= s <= 1 -> inside_or_on x y z (along x y s).
Proof.
  unfold clockwise, inside_or_on. intros K S. rewrite !orient_along.
  assert (A : orient x y x == 0) by (unfold orient; ring). assert (B : orient x y y == 0) by (unfold orient; ring).
  assert (C : orient y z x == orient x y z) by (unfold orient; ring). assert (D : orient y z y == 0) by (unfold orient; ring).
  assert (E : orient z x x == 0) by (unfold orient; ring). assert (F : orient z x y == orient x y z) by (unfold orient; ring).
  rewrite A, B, C, D, E, F. repeat split; nra.
Qed.

(** A point of the line of two different points. *)
Lemma on_line_param f g p : ~ same_place f g -> orient f g p == 0 -> exists u, same_place p (along f g u).
Proof.
  intros N O. unfold same_place, along. cbn [fst snd]. destruct (Qeq_dec (fst f) (fst g)) as [E|E].
  - destruct (Qeq_dec (snd f) (snd g)) as [E'|E']; [exfalso; apply N; split; assumption|].
    assert (D : ~ snd g - snd f == 0) by lra.
    exists ((snd p - snd f) / (snd g - snd f)). split; [|field; lra]. unfold orient in O. rewrite E in *.
    assert (Z : (snd g - snd f) * (fst p - fst g) == 0) by lra. destruct (Qmult_integral _ _ Z); [contradiction|]. lra.
  - assert (D : ~ fst g - fst f == 0) by lra. exists ((fst p - fst f) / (fst g - fst f)). split; [field; lra|].
    unfold orient in O. assert (Z : (fst g - fst f) * (snd p - snd f) == (snd g - snd f) * (fst p - fst f)) by lra.
    assert (Y : snd p - snd f == (snd g - snd f) * (fst p - fst f) / (fst g - fst f)). { rewrite <- Z. field. lra. }
    rewrite (Qmult_comm _ (snd g - snd f)). unfold Qdiv in *. lra.
Qed.

Section Fills.
Variable cs : list edge.
Local Notation "'src' e" := (at_ (efrom e)) (at level 5, e at level 4).
Local Notation "'dst' e" := (at_ (eto e)) (at level 5, e at level 4).
Local Notation w := (winding at_ cs).

(** The triangles [m], with corners at the corners of the loops, fill the inside. *)
Record fills (m : list (N * N * N)) : Prop := {
  fi_clockwise : forall t, In t m -> tri_clockwise at_ t;
  fi_disjoint : forall s t p, In s m -> In t m -> tri_inside at_ s p -> tri_inside at_ t p -> s = t;
  fi_once : NoDup m;
  fi_corner : forall t c, In t m -> tri_corner t c -> exists e, In e cs /\ same_place (at_ c) (src e);
  fi_inside : forall t p, In t m -> tri_inside at_ t p -> ~ on_constraint at_ cs p /\ w p = 1%Z;
  fi_all : forall p, ~ on_constraint at_ cs p -> w p = 1%Z -> exists t, In t m /\ tri_inside_or_on at_ t p;
  fi_empty : forall t e, In t m -> In e cs -> tri_inside_or_on at_ t (src e) -> exists c, tri_corner t c /\ same_place (at_ c) (src e)
}.

Variable m : list (N * N * N).
Hypothesis SL : simple_loops at_ cs.
Hypothesis FI : fills m.
Hypothesis NR : forall e s, In e cs -> 0 < s < 1 -> near at_ cs e s 1%Z.

(** No triangle that reaches a side has a point on its left. *)
Lemma not_left e u t p k : In e cs -> 0 < u < 1 -> In t m -> same_place p (along (src e) (dst e) u) -> tri_inside_or_on at_ t p ->
  tri_inside at_ t k -> orient (src e) (dst e) k <= 0.
Proof.
  intros I U It P On K. destruct (Qlt_le_dec 0 (orient (src e) (dst e) k)) as [L|L]; [exfalso|exact L].
  destruct (NR e u I U) as (r & R & V). destruct (toward p k r R) as (s & S & Sq).
  pose proof (inward t p k s On K S) as Q1. destruct (fi_inside m FI t _ It Q1) as (_ & W).
  destruct (V (along p k s)) as (_ & V2).
  { destruct P as (X & Y). unfold square in *. rewrite <- X, <- Y. exact Sq. }
  rewrite V2 in W; [discriminate|]. rewrite orient_along, (orient_place _ _ _ _ P), (orient_on at_). destruct S. nra.
Qed.

Lemma no_reverse e t x y z : In e cs -> In t m -> turned t x y z -> same_place (src e) (at_ y) -> ~ same_place (dst e) (at_ x).
Proof.
  intros I It Tu S D. pose proof (fi_clockwise m FI t It) as Cw. pose proof (mid_inside t Cw) as K.
  pose proof (not_left e (1#2) t (along (at_ x) (at_ y) (1#2)) (mid t) I half It) as Nl.
  assert (O : orient (src e) (dst e) (mid t) <= 0).
  { apply Nl; [|apply (turned_on _ _ _ _ _ Tu); apply along_between; [exact (turned_clockwise _ _ _ _ Tu Cw)|lra]|exact K].
    destruct S as (S1 & S2). destruct D as (D1 & D2). unfold same_place, along. cbn [fst snd]. rewrite S1, S2, D1, D2. split; ring. }
  apply (turned_inside _ _ _ _ _ Tu) in K. destruct K as (K & _).
  destruct S as (S1 & S2). destruct D as (D1 & D2).
  assert (Z : orient (src e) (dst e) (mid t) == - orient (at_ x) (at_ y) (mid t)) by (unfold orient; rewrite S1, S2, D1, D2; ring). lra.
Qed.

Lemma corner_not_edge f t x y z k : In f cs -> In t m -> turned t x y z -> 0 < k < 1 -> ~ same_place (src f) (along (at_ x) (at_ y) k).
Proof.
  intros I It Tu K P. pose proof (turned_clockwise _ _ _ _ Tu (fi_clockwise m FI t It)) as Cw.
  assert (Nxy : ~ same_place (at_ x) (at_ y)). { intros (A & B). unfold clockwise, orient in Cw. rewrite A, B in Cw. lra. }
  destruct (fi_empty m FI t f It I) as (c & C & Q).
  { apply (turned_on _ _ _ _ _ Tu). pose proof (along_between _ _ _ k Cw ltac:(lra)) as B. destruct P as (P1 & P2).
    unfold inside_or_on, orient in *. cbn [fst snd] in *. rewrite P1, P2. exact B. }
  pose proof (place_trans _ _ _ Q P) as Z. apply (turned_corner _ _ _ _ _ Tu) in C. destruct C as [->|[->| ->]].
  - pose proof (along_start _ _ _ Z Nxy). lra.
  - assert (Y : 1 - k == 0); [|lra]. apply (along_start (at_ y) (at_ x)); [|intros V; apply Nxy; now apply place_sym].
    exact (place_trans _ _ _ Z (along_back _ _ _)).
  - unfold clockwise in Cw. rewrite (orient_place _ _ _ _ Z), orient_along in Cw.
    assert (A : orient (at_ x) (at_ y) (at_ x) == 0) by (unfold orient; ring). assert (B : orient (at_ x) (at_ y) (at_ y) == 0) by (unfold orient; ring).
    rewrite A, B in Cw. lra.
Qed.

Lemma limit_le X G : G <= 0 -> (forall s, 0 < s <= 1 -> (1 - s) * X + s * G <= 0) -> X <= 0.
Proof.
  intros H K. destruct (Qlt_le_dec 0 X) as [L|L]; [exfalso|exact L].
  assert (D : 0 < 2 * (X - G)) by lra. set (s := X / (2 * (X - G))).
  assert (E : s * (2 * (X - G)) == X) by (unfold s; field; lra).
  assert (S0 : 0 < s) by (unfold s; apply Qlt_shift_div_l; lra). assert (S1 : s <= 1) by (unfold s; apply Qle_shift_div_r; lra).
  specialize (K s (conj S0 S1)). clearbody s. nra.
Qed.

(** An edge that is not a side is inside, but for its ends. *)
Lemma clear_edge t x y z : In t m -> turned t x y z -> (forall e, In e cs -> same_place (src e) (at_ x) -> ~ same_place (dst e) (at_ y)) ->
  forall s, 0 < s < 1 -> ~ on_constraint at_ cs (along (at_ x) (at_ y) s).
Proof.
  intros It Tu Ns s S (e & u & I & Pe & U & K). pose proof (fi_clockwise m FI t It) as Ct. pose proof (turned_clockwise _ _ _ _ Tu Ct) as Cw.
  assert (Co : forall c, c = x \/ c = y \/ c = z -> exists f, In f cs /\ same_place (at_ c) (src f)).
  { intros c C. apply (fi_corner m FI t c It). now apply (turned_corner _ _ _ _ _ Tu). }
  destruct (sl_next _ _ SL e I) as (f & If & Vf).
  assert (U' : 0 < u < 1).
  { destruct (Q_dec u 0) as [[L|L]|L]; [lra| |].
    - destruct (Q_dec u 1) as [[M|M]|M]; [lra|lra|]. exfalso.
      apply (corner_not_edge f t x y z s If It Tu S). apply place_sym. eapply place_trans; [exact K|]. eapply place_trans; [now apply along_one|exact Vf].
    - exfalso. apply (corner_not_edge e t x y z s I It Tu S). apply place_sym. eapply place_trans; [exact K|]. now apply along_zero. }
  assert (On : tri_inside_or_on at_ t (along (at_ x) (at_ y) s)). { apply (turned_on _ _ _ _ _ Tu). apply along_between; [exact Cw|lra]. }
  assert (Side : forall k, tri_inside at_ t k -> orient (src e) (dst e) k <= 0) by (intros k; exact (not_left e u t _ k I U' It K On)).
  assert (Cl : forall c, c = x \/ c = y -> orient (src e) (dst e) (at_ c) <= 0).
  { intros c C. apply (limit_le _ _ (Side _ (mid_inside t Ct))). intros k Hk. rewrite <- orient_along. apply Side. apply inward; [|exact (mid_inside t Ct)|exact Hk].
    apply (turned_on _ _ _ _ _ Tu). unfold clockwise in Cw. unfold inside_or_on. destruct C as [->| ->]; unfold orient in *; repeat split; lra. }
  pose proof (Cl x (or_introl eq_refl)) as Ox. pose proof (Cl y (or_intror eq_refl)) as Oy.
  assert (Om : (1 - s) * orient (src e) (dst e) (at_ x) + s * orient (src e) (dst e) (at_ y) == 0).
  { rewrite <- orient_along, (orient_place _ _ _ _ K). apply orient_on. }
  assert (Zx : orient (src e) (dst e) (at_ x) == 0) by (destruct (Q_dec (orient (src e) (dst e) (at_ x)) 0) as [[L|L]|L]; [nra|lra|exact L]).
  assert (Zy : orient (src e) (dst e) (at_ y) == 0) by (destruct (Q_dec (orient (src e) (dst e) (at_ y)) 0) as [[L|L]|L]; [nra|lra|exact L]).
  destruct (on_line_param _ _ _ Pe Zx) as (p & Hp). destruct (on_line_param _ _ _ Pe Zy) as (q & Hq).
  (* the parameters of x and y on the side *)
  assert (Eu : u == (1 - s) * p + s * q).
  { assert (Z : same_place (along (src e) (dst e) u) (along (src e) (dst e) ((1 - s) * p + s * q))).
    { eapply place_trans; [apply place_sym; exact K|]. destruct Hp as (A1 & A2). destruct Hq as (B1 & B2). unfold same_place, along in *. cbn [fst snd] in *.
      rewrite A1, A2, B1, B2. split; ring. }
    destruct (Qeq_dec u ((1 - s) * p + s * q)) as [Y|Y]; [exact Y|]. exfalso. apply Pe. destruct Z as (Z1 & Z2). unfold along in Z1, Z2. cbn [fst snd] in Z1, Z2.
    set (d := (1 - s) * p + s * q) in *. assert (D : ~ u - d == 0) by lra.
    assert (Y1 : (u - d) * (fst (dst e) - fst (src e)) == 0) by lra. assert (Y2 : (u - d) * (snd (dst e) - snd (src e)) == 0) by lra.
    destruct (Qmult_integral _ _ Y1); [contradiction|]. destruct (Qmult_integral _ _ Y2); [contradiction|]. split; lra. }
  assert (Np : ~ 0 < p < 1).
  { intros L. destruct (Co x (or_introl eq_refl)) as (g & Ig & Vg). exact (corner_not_in at_ cs SL e g p _ I Ig L Vg Hp). }
  assert (Nq : ~ 0 < q < 1).
  { intros L. destruct (Co y (or_intror (or_introl eq_refl))) as (g & Ig & Vg). exact (corner_not_in at_ cs SL e g q _ I Ig L Vg Hq). }
  assert (Btw : forall v g, In g cs -> same_place (src g) (along (src e) (dst e) v) -> ~ (p < v < q) /\ ~ (q < v < p)).
  { intros v g Ig Vg. assert (D : forall c d, (c < v < d) -> exists k, 0 < k < 1 /\ v == c + k * (d - c)).
    { intros c d L. exists ((v - c) / (d - c)). assert (H : (v - c) / (d - c) * (d - c) == v - c) by (field; lra). split; [|lra].
      split; [apply Qlt_shift_div_l; lra|apply Qlt_shift_div_r; lra]. }
    assert (Pt : forall k, v == p + k * (q - p) -> same_place (src g) (along (at_ x) (at_ y) k)).
    { intros k Hk. eapply place_trans; [exact Vg|]. destruct Hp as (A1 & A2). destruct Hq as (B1 & B2). unfold same_place, along in *. cbn [fst snd] in *.
      rewrite A1, A2, B1, B2, Hk. split; ring. }
    split; intros L; destruct (D _ _ L) as (k & Hk & Ek).
    - exact (corner_not_edge g t x y z k Ig It Tu Hk (Pt k Ek)).
    - apply (corner_not_edge g t x y z (1 - k) Ig It Tu ltac:(lra)). apply Pt. rewrite Ek. ring. }
  pose proof (Btw 0 e I (place_sym _ _ (along_zero _ _ _ (Qeq_refl 0)))) as (B1 & B2).
  assert (Vd : same_place (src f) (along (src e) (dst e) 1)). { eapply place_trans; [apply place_sym; exact Vf|]. apply place_sym. now apply along_one. }
  pose proof (Btw 1 f If Vd) as (B3 & B4).
  assert (Cases : (p == 0 /\ q == 1) \/ (p == 1 /\ q == 0)).
  { clear - Eu U' S Np Nq B1 B2 B3 B4.
    destruct (Qlt_le_dec 0 p) as [L|L]; [destruct (Qlt_le_dec p 1) as [M|M]; [exfalso; apply Np; lra|]|].
    - assert (q < u) by nra. assert (Z : q <= 0). { destruct (Qlt_le_dec 0 q); [exfalso; apply Nq; lra|assumption]. }
      right. split; [destruct (Q_dec p 1) as [[X|X]|X]; [lra|exfalso; apply B4; lra|exact X]|].
      destruct (Q_dec q 0) as [[X|X]|X]; [exfalso; apply B2; lra|lra|exact X].
    - assert (u < q) by nra. assert (Z : 1 <= q). { destruct (Qlt_le_dec q 1); [exfalso; apply Nq; lra|assumption]. }
      left. split; [destruct (Q_dec p 0) as [[X|X]|X]; [exfalso; apply B1; lra|lra|exact X]|].
      destruct (Q_dec q 1) as [[X|X]|X]; [lra|exfalso; apply B3; lra|exact X]. }
  destruct Cases as [(X1 & X2)|(X1 & X2)].
  - apply (Ns e I); apply place_sym; [eapply place_trans; [exact Hp|]; now apply along_zero|eapply place_trans; [exact Hq|]; now apply along_one].
  - apply (no_reverse e t x y z I It Tu); apply place_sym; [eapply place_trans; [exact Hq|]; now apply along_zero|eapply place_trans; [exact Hp|]; now apply along_one].
Qed.
End Fills.
End Triangles.
