(** * Tally: the number of triangles depends on the area and on the vertices in it. *)

From Coq Require Import NArith List Bool QArith Qabs Qminmax Lqa Lia.
From Verif Require Import Base BaseFacts Spec SpecTally Germ GermCount.
Import ListNotations.
Local Open Scope Q_scope.

Lemma gather {A B} (P : A -> B -> Prop) (l : list A) : (forall a, In a l -> exists b, P a b) ->
  exists bs, forall a, In a l -> exists b, In b bs /\ P a b.
Proof.
  induction l as [|a l IH]; intros H; [exists []; intros a []|].
  destruct IH as (bs & K); [intros x X; apply H; now right|]. destruct (H a (or_introl eq_refl)) as (b & Pb).
  exists (b :: bs). intros x [<-|X]; [exists b; simpl; auto|]. destruct (K x X) as (y & Y & Py). exists y. simpl; auto.
Qed.

Lemma ordpairs_in {A} (R : A -> A -> Prop) (l : list A) : ForallOrdPairs R l -> forall u v, In u l -> In v l -> u = v \/ R u v \/ R v u.
Proof.
  induction 1 as [|a l F H IH]; intros u v U V; [destruct U|]. rewrite Forall_forall in F.
  destruct U as [<-|U], V as [<-|V]; auto.
Qed.
Lemma ordpairs_nodup {A} (R : A -> A -> Prop) (l : list A) : (forall a, ~ R a a) -> ForallOrdPairs R l -> NoDup l.
Proof.
  intros I. induction 1 as [|a l F H IH]; constructor; [|exact IH]. intros X. rewrite Forall_forall in F. exact (I a (F a X)).
Qed.
Lemma in_rangeN' k v : (v < N.of_nat k)%N -> In v (map N.of_nat (seq 0 k)).
Proof. intros H. apply in_map_iff. exists (N.to_nat v). split; [apply N2Nat.id|]. apply in_seq. lia. Qed.

Section Meshes.
Variables at1 at2 : N -> point.
Variables n1 n2 : N.
Variables out1 out2 : list (N * N * N).
Hypothesis VM1 : valid_mesh at1 n1 out1.
Hypothesis VM2 : valid_mesh at2 n2 out2.
Hypothesis R1 : forall t c, In t out1 -> tri_corner t c -> (c < n1)%N.
Hypothesis R2 : forall t c, In t out2 -> tri_corner t c -> (c < n2)%N.
Hypothesis A : forall p, covered at1 out1 p <-> covered at2 out2 p.
Hypothesis V12 : forall v, (v < n1)%N -> covered at1 out1 (at1 v) -> exists w, (w < n2)%N /\ same_place (at1 v) (at2 w).
Variables inner rim : list N.
Hypothesis V21 : forall w, (w < n2)%N -> covered at2 out2 (at2 w) ->
  old at1 at2 n1 w \/ exists u, In u (inner ++ rim) /\ same_place (at2 u) (at2 w).
Hypothesis New : new_places at1 at2 n1 n2 (inner ++ rim).
Hypothesis Inner : forall u, In u inner -> surrounded at2 out2 (at2 u).
Hypothesis Rim : forall u, In u rim -> on_straight_border at2 out2 (at2 u).

Lemma corner_covered at_ n out t c : valid_mesh at_ n out -> In t out -> tri_corner t c -> covered at_ out (at_ c).
Proof.
  intros VM I C. exists t. split; [exact I|]. pose proof (vm_clockwise _ _ _ VM t I) as K.
  destruct t as ((x, y), z). cbn in K, C |- *. unfold clockwise in K. unfold inside_or_on.
  destruct C as [-> | [-> | ->]]; unfold orient in *; repeat split; lra.
Qed.

Lemma inside_covered at_ out t p : In t out -> tri_inside at_ t p -> covered at_ out p.
Proof.
  intros I H. exists t. split; [exact I|]. destruct t as ((x, y), z). destruct H as (X & Y & Z).
  cbn. unfold inside_or_on. repeat split; lra.
Qed.

(** Near [p], a ray stays in a small square. *)
Lemma ray_near m p b r : 0 < r -> exists e1, 0 < e1 /\ forall e, 0 < e < e1 ->
  - r <= fst (ray m p b e) - fst p <= r /\ - r <= snd (ray m p b e) - snd p <= r.
Proof.
  intros Hr. pose proof (Qle_Qabs m) as M1. pose proof (Qle_Qabs (- m)) as M2. rewrite Qabs_opp in M2.
  pose proof (Qabs_nonneg m) as M0. set (k := Qabs m) in *.
  exists (r / (1 + k)). assert (D : (r / (1 + k)) * (1 + k) == r) by (field; lra).
  assert (0 < r / (1 + k)) by (apply Qlt_shift_div_l; lra). split; [assumption|].
  intros e (E1 & E2). set (x := r / (1 + k)) in *. clearbody x k.
  unfold ray. cbn [fst snd]. assert (e * (1 + k) <= r) by nra.
  assert (X : - (e * k) <= e * m) by nra. assert (Y : e * m <= e * k) by nra.
  assert (e * k <= r) by nra. assert (e <= r) by nra. destruct b; cbn [sg]; repeat split; nra.
Qed.

Theorem tally : length out2 = (length out1 + 2 * length inner + length rim)%nat.
Proof.
  (* a direction, not along any straight piece of border *)
  destruct (gather (fun u x => exists r dx dy, 0 < r /\ ~ (dx == 0 /\ dy == 0) /\ (~ dy == 0 -> x == - dx / dy) /\
    forall q, - r <= fst q - fst (at2 u) <= r -> - r <= snd q - snd (at2 u) <= r ->
      (covered at2 out2 q <-> dx * (fst q - fst (at2 u)) + dy * (snd q - snd (at2 u)) <= 0)) rim) as (avoid & Av).
  { intros u U. destruct (Rim u U) as (r & dx & dy & Hr & D & H). exists (- dx / dy), r, dx, dy.
    split; [exact Hr|]. split; [exact D|]. split; [reflexivity|exact H]. }
  destruct (direction (map at1 (map N.of_nat (seq 0 (N.to_nat n1))) ++ map at2 (map N.of_nat (seq 0 (N.to_nat n2)))) avoid) as (m & Hm & Gen).
  assert (G1 : forall u v, (u < n1)%N -> (v < n1)%N -> ~ same_place (at1 u) (at1 v) -> ~ height m (at1 u) == height m (at1 v)).
  { intros u v U V. apply Gen; apply in_or_app; left; apply in_map; apply in_rangeN'; lia. }
  assert (G2 : forall u v, (u < n2)%N -> (v < n2)%N -> ~ same_place (at2 u) (at2 v) -> ~ height m (at2 u) == height m (at2 v)).
  { intros u v U V. apply Gen; apply in_or_app; right; apply in_map; apply in_rangeN'; lia. }
  clear Gen.
  (* the ray on the covered side of a straight piece of border *)
  assert (Side : forall u, In u rim -> exists b,
    (forall e1, 0 < e1 -> exists e, 0 < e < e1 /\ covered at2 out2 (ray m (at2 u) b e)) /\
    exists e1, 0 < e1 /\ forall e, 0 < e < e1 -> ~ covered at2 out2 (ray m (at2 u) (negb b) e)).
  { intros u U. destruct (Av u U) as (x & X & r & dx & dy & Hr & D & Hx & H).
    assert (K : ~ dx + dy * m == 0).
    { intros Z. destruct (Qeq_dec dy 0) as [Y|Y]; [apply D; split; [rewrite Y in Z; lra|exact Y]|].
      apply (Hm x X). rewrite (Hx Y). assert (Q : dx == - (dy * m)) by lra. rewrite Q. field. exact Y. }
    assert (Eq : forall b e, dx * (fst (ray m (at2 u) b e) - fst (at2 u)) + dy * (snd (ray m (at2 u) b e) - snd (at2 u)) == e * (sg b * (dx + dy * m)))
      by (intros b e; unfold ray; cbn [fst snd]; ring).
    exists (if Qlt_le_dec (dx + dy * m) 0 then true else false).
    set (b := if Qlt_le_dec (dx + dy * m) 0 then true else false).
    assert (Sb : sg b * (dx + dy * m) < 0).
    { unfold b. destruct (Qlt_le_dec (dx + dy * m) 0); cbn [sg]; [lra|]. apply Qnot_le_lt. intros Z. apply K. lra. }
    assert (Sn : 0 < sg (negb b) * (dx + dy * m)) by (destruct b; cbn [sg negb] in *; lra).
    split.
    - intros e1 E1. destruct (ray_near m (at2 u) b r Hr) as (e2 & E2 & Nr).
      pose proof (Q.min_glb_lt _ _ _ E1 E2) as M. pose proof (Q.le_min_l e1 e2). pose proof (Q.le_min_r e1 e2).
      assert (M2 : 0 < Qmin e1 e2 / 2 < Qmin e1 e2) by (split; [apply Qlt_shift_div_l; lra|apply Qlt_shift_div_r; lra]).
      exists (Qmin e1 e2 / 2). split; [lra|]. destruct (Nr (Qmin e1 e2 / 2)) as (N1 & N2); [lra|].
      apply (H _ N1 N2). rewrite Eq. set (e := Qmin e1 e2 / 2) in *. clearbody e. nra.
    - destruct (ray_near m (at2 u) (negb b) r Hr) as (e2 & E2 & Nr). exists e2. split; [exact E2|].
      intros e He C. destruct (Nr e He) as (N1 & N2). apply (H _ N1 N2) in C. rewrite Eq in C. nra. }
  assert (Sides : exists f : list (N * bool), map fst f = rim /\ forall u b, In (u, b) f ->
    (forall e1, 0 < e1 -> exists e, 0 < e < e1 /\ covered at2 out2 (ray m (at2 u) b e)) /\
    exists e1, 0 < e1 /\ forall e, 0 < e < e1 -> ~ covered at2 out2 (ray m (at2 u) (negb b) e)).
  { clear - Side. induction rim as [|u l IH]; [exists []; split; [reflexivity|intros u b []]|].
    destruct IH as (f & F1 & F2); [intros x X; apply Side; now right|]. destruct (Side u (or_introl eq_refl)) as (b & B).
    exists ((u, b) :: f). split; [cbn; congruence|]. intros u' b' [Q|I]; [injection Q as -> ->; exact B|now apply F2]. }
  destruct Sides as (f & F1 & F2).
  destruct New as (N1 & N2).
  assert (ND : NoDup (inner ++ rim)) by (refine (ordpairs_nodup _ _ _ N2); intros a X; exact (X (place_refl _))).
  assert (Dist : forall u v, In u (inner ++ rim) -> In v (inner ++ rim) -> same_place (at2 u) (at2 v) -> u = v).
  { intros u v U V P. destruct (ordpairs_in _ _ N2 u v U V) as [K|[K|K]]; [exact K|destruct (K P)|destruct (K (place_sym _ _ P))]. }
  set (tokens := map (fun u => (u, true)) inner ++ map (fun u => (u, false)) inner ++ f).
  assert (Tin : forall u b, In (u, b) tokens -> In u inner \/ In (u, b) f).
  { intros u b I. unfold tokens in I. rewrite !in_app_iff, !in_map_iff in I.
    destruct I as [(x & Q & I)|[(x & Q & I)|I]]; [injection Q as <- _; auto|injection Q as <- _; auto|auto]. }
  assert (Frim : forall u b, In (u, b) f -> In u rim).
  { intros u b I. rewrite <- F1. apply in_map_iff. exists (u, b). auto. }
  assert (Tnew : forall u b, In (u, b) tokens -> In u (inner ++ rim)).
  { intros u b I. apply in_or_app. destruct (Tin u b I) as [K|K]; [auto|right; eauto]. }
  assert (L : length tokens = (2 * length inner + length rim)%nat).
  { unfold tokens. rewrite !app_length, !map_length, <- F1, map_length. lia. }
  assert (TN : NoDup tokens).
  { unfold tokens. apply nodup_both.
    - apply FinFun.Injective_map_NoDup; [intros x y Q; congruence|]. clear - ND. induction inner as [|a l IH]; [constructor|].
      cbn in ND. inversion ND as [|a0 l0 X Y]; subst. constructor; [intros Z; apply X; apply in_or_app; auto|now apply IH].
    - apply nodup_both.
      + apply FinFun.Injective_map_NoDup; [intros x y Q; congruence|]. clear - ND. induction inner as [|a l IH]; [constructor|].
        cbn in ND. inversion ND as [|a0 l0 X Y]; subst. constructor; [intros Z; apply X; apply in_or_app; auto|now apply IH].
      + apply (NoDup_map_inv fst). rewrite F1. clear - ND. induction inner as [|a l IH]; [exact ND|].
        cbn in ND. inversion ND as [|a0 l0 X Y]; subst. now apply IH.
      + intros (u, b) X Y. apply in_map_iff in X. destruct X as (x & Q & X). injection Q as <- _.
        apply Frim in Y. clear - ND X Y. induction inner as [|a l IH]; [destruct X|].
        cbn in ND. inversion ND as [|a0 l0 Z W]; subst. destruct X as [->|X]; [apply Z; apply in_or_app; auto|exact (IH W X)].
    - intros (u, b) X Y. apply in_map_iff in X. destruct X as (x & Q & X). injection Q as <- <-.
      apply in_app_or in Y. destruct Y as [Y|Y].
      + apply in_map_iff in Y. destruct Y as (y & Q & _). discriminate Q.
      + apply Frim in Y. clear - ND X Y. induction inner as [|a l IH]; [destruct X|].
        cbn in ND. inversion ND as [|a0 l0 Z W]; subst. destruct X as [->|X]; [apply Z; apply in_or_app; auto|exact (IH W X)]. }
  assert (TC : forall u b, In (u, b) tokens -> forall e1, 0 < e1 -> exists e, 0 < e < e1 /\ covered at2 out2 (ray m (at2 u) b e)).
  { intros u b I. destruct (Tin u b I) as [K|K]; [|exact (proj1 (F2 u b K))].
    intros e1 E1. destruct (Inner u K) as (r & Hr & S). destruct (ray_near m (at2 u) b r Hr) as (e2 & E2 & Nr).
    pose proof (Q.min_glb_lt _ _ _ E1 E2) as M. pose proof (Q.le_min_l e1 e2). pose proof (Q.le_min_r e1 e2).
    assert (M2 : 0 < Qmin e1 e2 / 2 < Qmin e1 e2) by (split; [apply Qlt_shift_div_l; lra|apply Qlt_shift_div_r; lra]).
    exists (Qmin e1 e2 / 2). split; [lra|]. destruct (Nr (Qmin e1 e2 / 2)) as (X1 & X2); [lra|]. now apply S. }
  assert (TA : forall t c b, In t out2 -> germ m at2 t c b ->
    (exists v, (v < n1)%N /\ same_place (at2 c) (at1 v)) \/ exists u, In (u, b) tokens /\ same_place (at2 c) (at2 u)).
  { intros t c b T G. pose proof (germ_corner m at2 t c b G) as C.
    destruct (V21 c (R2 t c T C) (corner_covered at2 n2 out2 t c VM2 T C)) as [(v & V & P)|(u & U & P)].
    - left. exists v. split; [exact V|now apply place_sym].
    - right. exists u. split; [|now apply place_sym]. unfold tokens. rewrite !in_app_iff, !in_map_iff.
      apply in_app_or in U. destruct U as [U|U].
      + destruct b; [left|right; left]; exists u; auto.
      + right. right. rewrite <- F1 in U. apply in_map_iff in U. destruct U as ((u', b') & Q & U). cbn in Q. subst u'.
        destruct (Bool.bool_dec b b') as [->|Nb]; [exact U|exfalso].
        assert (Q : b = negb b') by (destruct b, b'; cbn; congruence). subst b.
        destruct (F2 u b' U) as (_ & e1 & E1 & H1).
        destruct (germ_inside m at2 t c (negb b') (at2 u) (vm_clockwise _ _ _ VM2 t T) G (place_sym _ _ P)) as (e2 & E2 & H2).
        pose proof (Q.min_glb_lt _ _ _ E1 E2) as M. pose proof (Q.le_min_l e1 e2). pose proof (Q.le_min_r e1 e2).
        assert (M2 : 0 < Qmin e1 e2 / 2 < Qmin e1 e2) by (split; [apply Qlt_shift_div_l; lra|apply Qlt_shift_div_r; lra]).
        apply (H1 (Qmin e1 e2 / 2)); [lra|]. apply (inside_covered at2 out2 t _ T). apply H2. lra. }
  assert (C12 : forall t p, In t out1 -> tri_inside at1 t p -> covered at2 out2 p).
  { intros t p T I. apply A. exact (inside_covered at1 out1 t p T I). }
  assert (C21 : forall t p, In t out2 -> tri_inside at2 t p -> covered at1 out1 p).
  { intros t p T I. apply A. exact (inside_covered at2 out2 t p T I). }
  assert (W12 : forall t c, In t out1 -> tri_corner t c -> exists w, (w < n2)%N /\ same_place (at1 c) (at2 w)).
  { intros t c T C. apply V12; [exact (R1 t c T C)|exact (corner_covered at1 n1 out1 t c VM1 T C)]. }
  assert (TD : forall u v b, In (u, b) tokens -> In (v, b) tokens -> same_place (at2 u) (at2 v) -> u = v).
  { intros u v b U V. apply Dist; eauto. }
  assert (TR : forall u b, In (u, b) tokens -> (u < n2)%N) by (intros u b U; apply N1; eauto).
  assert (TF : forall u b v, In (u, b) tokens -> (v < n1)%N -> ~ same_place (at2 u) (at1 v)).
  { intros u b v U V P. apply (proj2 (N1 u (Tnew u b U))). exists v. split; [exact V|now apply place_sym]. }
  pose proof (count_ge at1 at2 n1 n2 out1 out2 VM1 VM2 R1 R2 C12 W12 m G1 G2 tokens TN TD TR TF TC) as GE.
  pose proof (count_le at1 at2 n1 n2 out1 out2 VM1 VM2 R1 R2 C21 m G1 G2 tokens TA) as LE.
  lia.
Qed.
End Meshes.
