(** * Area: the border of filled loops consists of their sides, and the areas of the triangles add up to the area
    that the loops enclose. *)

From Coq Require Import ZArith NArith List Bool QArith Lqa Lia Permutation.
From Verif Require Import Base Types Spec SpecDomain SpecCount SpecWinding SpecArea Winding TallyGrid Tally Hull Count SelectGrid Polygon Facing.
Import ListNotations.
Local Open Scope Q_scope.

(** ** Sums over two lists with the same elements up to a relation *)
Section Match.
Context {A B : Type} (P : A -> B -> Prop) (f : A -> Q) (g : B -> Q).
Hypothesis Val : forall a b, P a b -> f a == g b.

Definition sumq {X} (h : X -> Q) (l : list X) : Q := fold_right (fun x s => h x + s) 0 l.

Lemma sum_split {X} (h : X -> Q) l x l' : sumq h (l ++ x :: l') == h x + sumq h (l ++ l').
Proof. induction l as [|y l IH]; cbn; [reflexivity|]. fold (sumq h (l ++ x :: l')). rewrite IH. cbn. fold (sumq h (l ++ l')). ring. Qed.

Lemma sum_match l1 : forall l2, NoDup l1 -> NoDup l2 -> (forall a, In a l1 -> exists b, In b l2 /\ P a b) -> (forall b, In b l2 -> exists a, In a l1 /\ P a b) ->
  (forall a b b', In a l1 -> In b l2 -> In b' l2 -> P a b -> P a b' -> b = b') ->
  (forall a a' b, In a l1 -> In a' l1 -> In b l2 -> P a b -> P a' b -> a = a') ->
  length l1 = length l2 /\ sumq f l1 == sumq g l2.
Proof.
  induction l1 as [|a l1 IH]; intros l2 N1 N2 F B0 U I.
  - destruct l2 as [|b l2]; [split; reflexivity|]. destruct (B0 b (or_introl eq_refl)) as (a & [] & _).
  - destruct (F a (or_introl eq_refl)) as (b & Hb & Pb). destruct (in_split _ _ Hb) as (x & y & ->).
    inversion N1 as [|a0 l0 Na N1']; subst. pose proof (NoDup_remove _ _ _ N2) as (N2' & Nb).
    destruct (IH (x ++ y) N1' N2') as (L & S).
    + intros a' Ha'. destruct (F a' (or_intror Ha')) as (b' & Hb' & Pb'). exists b'. split; [|exact Pb'].
      apply in_app_or in Hb'. destruct Hb' as [Hb'|[<-|Hb']]; [apply in_or_app; auto| |apply in_or_app; auto].
      exfalso. apply Na. rewrite (I a a' b (or_introl eq_refl) (or_intror Ha') Hb Pb Pb'). exact Ha'.
    + intros b' Hb'. assert (Hb2 : In b' (x ++ b :: y)) by (apply in_app_or in Hb'; apply in_or_app; cbn; tauto).
      destruct (B0 b' Hb2) as (a' & [<-|Ha'] & Pa'); [|exists a'; auto]. exfalso. apply Nb. rewrite (U a b b' (or_introl eq_refl) Hb Hb2 Pb Pa'). exact Hb'.
    + intros a' b1 b2 Ha' H1 H2. apply U; [now right| |]; apply in_or_app; [apply in_app_or in H1|apply in_app_or in H2]; cbn; tauto.
    + intros a1 a2 b' H1 H2 H3. apply I; [now right|now right|]. apply in_or_app; apply in_app_or in H3; cbn; tauto.
    + split.
      * rewrite app_length in *. cbn [length] in *. lia.
      * rewrite sum_split. cbn. fold (sumq f l1). rewrite S, (Val a b Pb). reflexivity.
Qed.
End Match.

(** ** Inner edges cancel *)
Section Cancel.
Variable at_ : N -> point.

Lemma total_sum l : total at_ l == sumq (area2 at_) l.
Proof. induction l as [|e l IH]; cbn [total sumq fold_right]; [reflexivity|]. fold (sumq (area2 at_) l). now rewrite IH. Qed.

Lemma total_split (h : N * N -> bool) l : total at_ l == total at_ (filter h l) + total at_ (filter (fun e => negb (h e)) l).
Proof.
  induction l as [|e l IH]; cbn [total filter]; [ring|]. rewrite IH. destruct (h e); cbn [negb total]; ring.
Qed.

Lemma border_total out : NoDup (directed_edges out) -> total at_ (directed_edges out) == total at_ (border_edges out).
Proof.
  intros Nd. set (h := fun e : N * N => negb (existsb (fun f => ((fst f =? snd e) && (snd f =? fst e))%N) (directed_edges out))).
  rewrite (total_split h). change (filter h (directed_edges out)) with (border_edges out).
  set (inn := filter (fun e => negb (h e)) (directed_edges out)).
  assert (In_ : forall a b, In (a, b) inn <-> In (a, b) (directed_edges out) /\ In (b, a) (directed_edges out)).
  { intros a b. unfold inn. rewrite filter_In. unfold h. rewrite negb_involutive, existsb_exists. cbn [fst snd]. split.
    - intros (H & (x, y) & K & Q). cbn [fst snd] in Q. apply andb_prop in Q. destruct Q as (Q1 & Q2). apply N.eqb_eq in Q1, Q2. subst x y. auto.
    - intros (H & K). split; [exact H|]. exists (b, a). split; [exact K|]. cbn [fst snd]. now rewrite !N.eqb_refl. }
  assert (Pm : Permutation inn (map turned inn)).
  { assert (Ni : NoDup inn) by (apply NoDup_filter; exact Nd).
    apply NoDup_Permutation; [exact Ni|now apply turned_inj|]. intros (a, b). rewrite in_map_iff. split.
    - intros H. exists (b, a). split; [reflexivity|]. apply In_. apply In_ in H. tauto.
    - intros ((x, y) & Q & H). unfold turned in Q. cbn in Q. injection Q as <- <-. apply In_. apply In_ in H. tauto. }
  pose proof (total_perm at_ _ _ Pm) as T. rewrite total_turned in T. lra.
Qed.

Lemma area_total out : total_area at_ out == (1#2) * - total at_ (directed_edges out).
Proof.
  induction out as [|t out IH]; cbn [total_area directed_edges flat_map]; [reflexivity|].
  change (flat_map tri_edges out) with (directed_edges out). rewrite total_app, IH. pose proof (total_tri at_ t) as T. destruct t as ((a, b), c).
  rewrite T. unfold tri_area. ring.
Qed.
End Cancel.

Lemma shrink (m y : point) r : 0 < r -> exists e, 0 < e /\ forall s, 0 < s < e -> square m r (along m y s).
Proof.
  intros R.
  destruct (affine_pos r (fst y - fst m) R) as (e1 & E1 & K1). destruct (affine_pos r (- (fst y - fst m)) R) as (e2 & E2 & K2).
  destruct (affine_pos r (snd y - snd m) R) as (e3 & E3 & K3). destruct (affine_pos r (- (snd y - snd m)) R) as (e4 & E4 & K4).
  destruct (below e1 e2 E1 E2) as (d & D1 & D2 & D3). destruct (below e3 e4 E3 E4) as (d' & D1' & D2' & D3').
  destruct (below d d' D1 D1') as (e & F1 & F2 & F3). exists e. split; [exact F1|]. intros s S.
  specialize (K1 s ltac:(lra)). specialize (K2 s ltac:(lra)). specialize (K3 s ltac:(lra)). specialize (K4 s ltac:(lra)).
  unfold square, along. cbn [fst snd]. repeat split; lra.
Qed.

(** A triangle contains the limit of points in it. *)
Lemma inside_limit a b c m y e : 0 < e -> (forall s, 0 < s < e -> inside_or_on a b c (along m y s)) -> inside_or_on a b c m.
Proof.
  intros E H. unfold inside_or_on. split; [|split]; refine (affine_limit _ _ e E (fun s S => _)); [| |];
    destruct (H s S) as (A & B & C); rewrite orient_along in A, B, C; eassumption.
Qed.

Lemma square_sum x y : ~ (x == 0 /\ y == 0) -> 0 < x * x + y * y.
Proof. intros H. destruct (Q_dec x 0) as [[X|X]|X]; [nra|nra|]. destruct (Q_dec y 0) as [[Y|Y]|Y]; [nra|nra|]. exfalso. apply H. split; assumption. Qed.

Section Border.
Variables (at_ : N -> point) (n : N) (out : list (N * N * N)) (cs : list edge).
Hypothesis V : valid_mesh at_ n out.
Hypothesis ids : forall t v, In t out -> tri_corner t v -> (v < n)%N.
Hypothesis SL : simple_loops at_ cs.
Hypothesis Ne : forall e, In e cs -> near at_ cs e (1#2) 1.
Hypothesis Ends : forall e, In e cs -> (efrom e < n)%N /\ (eto e < n)%N.
Hypothesis Off : forall t p, In t out -> tri_inside at_ t p -> ~ on_constraint at_ cs p.
Hypothesis Cov : forall p, ~ on_constraint at_ cs p -> (covered at_ out p <-> winding at_ cs p = 1%Z).
Hypothesis Rs : forall t e, In t out -> In e cs -> respects at_ n out (efrom e) (eto e).

Lemma inner_value u v c p : is_tri out u v c -> strictly_inside (at_ u) (at_ v) (at_ c) p -> winding at_ cs p = 1%Z.
Proof.
  intros T I. destruct (tri_in at_ n out V u v c T) as (t & Ht & _ & It & Ot & _). apply It in I. apply (Cov p (Off t p Ht I)).
  exact (inside_covered at_ out t p Ht I).
Qed.

Lemma edge_side u v : In (u, v) (border_edges out) -> exists e, In e cs /\ along_constraint at_ u v e.
Proof.
  intros B. apply border_iff in B. destruct B as (B & NB). destruct (edge_tri out u v B) as (c & T).
  pose proof (tri_in at_ n out V u v c T) as (t & Ht & Ct & It & Ot & Cw). destruct (tri_ids at_ n out V ids u v c T) as (Lu & Lv & Lc).
  set (m := along (at_ u) (at_ v) (1#2)).
  assert (U1 : orient (at_ u) (at_ v) m == 0) by apply line_on.
  assert (U2 : orient (at_ v) (at_ c) m < 0) by (unfold m, orient, along in *; cbn [fst snd] in *; lra).
  assert (U3 : orient (at_ c) (at_ u) m < 0) by (unfold m, orient, along in *; cbn [fst snd] in *; lra).
  destruct (small_in (at_ u) (at_ v) (at_ c) m (at_ c) ltac:(lra) (fun _ => Cw) U2 U3) as (e1 & E1 & K1).
  destruct (on_constraint_dec at_ cs m) as [On|Nc].
  - destruct On as (e & s & Ie & Pe & (S1 & S2) & P). exists e. split; [exact Ie|]. destruct (Ends e Ie) as (L1 & L2).
    assert (S0 : ~ s == 0).
    { intros Z. apply (edge_point at_ n out V u v c (1#2) (efrom e) T ltac:(lra) L1). apply Facing.place_sym. apply (Facing.place_trans _ _ _ P).
      unfold same_place, along. cbn [fst snd]. rewrite Z. split; ring. }
    assert (S3 : ~ s == 1).
    { intros Z. apply (edge_point at_ n out V u v c (1#2) (eto e) T ltac:(lra) L2). apply Facing.place_sym. apply (Facing.place_trans _ _ _ P).
      unfold same_place, along. cbn [fst snd]. rewrite Z. split; ring. }
    assert (S : 0 < s < 1) by (split; apply Qnot_le_lt; intros K; [apply S0|apply S3]; lra).
    assert (Im : tri_inside_or_on at_ t (along (at_ (efrom e)) (at_ (eto e)) s)).
    { apply Ot. unfold inside_or_on. rewrite <- !(at_place _ _ _ _ P). repeat split; lra. }
    destruct (rs_edge _ _ _ _ _ (Rs t e Ht Ie) t s Ht S Im) as (x & y & Cx & Cy & Nxy & Px & Py). apply Ct in Cx, Cy.
    assert (Om : orient (at_ x) (at_ y) m == 0).
    { transitivity (orient (at_ (efrom e)) (at_ (eto e)) m); [|rewrite (at_place _ _ _ _ P); apply line_on].
      destruct Px as (X1 & X2), Py as (Y1 & Y2). unfold orient. rewrite X1, X2, Y1, Y2. reflexivity. }
    assert (Sw : forall a b p : point, orient a b p == - orient b a p) by (intros; unfold orient; ring).
    destruct Cx as [-> |[-> | ->]], Cy as [-> |[-> | ->]]; try (destruct (Nxy eq_refl)).
    + split; assumption.
    + exfalso. rewrite Sw in Om. lra.
    + exfalso. (* the constraint goes the other way: the triangle would be on its left *)
      destruct (near_along at_ cs SL e (1#2) s 1 Ie ltac:(lra) S (Ne e Ie)) as (r & R & K).
      destruct (shrink m (at_ c) r R) as (e2 & E2 & K2). destruct (below e1 e2 E1 E2) as (h & H1 & H2 & H3).
      pose proof (inner_value u v c _ T (K1 h ltac:(lra))) as W.
      destruct (K (along m (at_ c) h)) as (_ & Kl).
      { specialize (K2 h ltac:(lra)). destruct P as (P1 & P2). destruct K2 as (A & A'). unfold square. rewrite <- P1, <- P2. split; assumption. }
      rewrite Kl in W; [lia|]. destruct (K1 h ltac:(lra)) as (N1 & _).
      assert (Q : orient (at_ (efrom e)) (at_ (eto e)) (along m (at_ c) h) == - orient (at_ u) (at_ v) (along m (at_ c) h)).
      { destruct Px as (X1 & X2), Py as (Y1 & Y2). unfold orient. rewrite <- X1, <- X2, <- Y1, <- Y2. ring. }
      rewrite Q. lra.
    + exfalso. lra.
    + exfalso. lra.
    + exfalso. rewrite Sw in Om. lra.
  - exfalso. apply NB. destruct (clear_around at_ cs m Nc) as (r & R & K). pose proof (simple_closed at_ cs SL) as CL.
    assert (Wm : forall q, square m r q -> winding at_ cs q = winding at_ cs m).
    { intros q Sq. symmetry. apply (winding_step at_ cs CL). intros s S. apply K. now apply square_along. }
    destruct (shrink m (at_ c) r R) as (e2 & E2 & K2). destruct (below e1 e2 E1 E2) as (h & H1 & H2 & H3).
    pose proof (inner_value u v c _ T (K1 h ltac:(lra))) as W1. rewrite (Wm _ (K2 h ltac:(lra))) in W1.
    set (y0 := along m (at_ c) (-1 # 1)).
    assert (Y0 : 0 < orient (at_ u) (at_ v) y0).
    { unfold y0. rewrite orient_along, U1. lra. }
    destruct (shrink m y0 r R) as (e3 & E3 & K3). destruct (below e3 1 E3 ltac:(lra)) as (h' & G1 & G2 & G3).
    set (y := along m y0 h').
    assert (Sy : square m r y) by (apply K3; lra).
    assert (Oy : 0 < orient (at_ u) (at_ v) y) by (unfold y; rewrite orient_along, U1; nra).
    destruct (start_tri at_ out m y) as (t' & e4 & Ht' & E4 & K4).
    { intros s S. pose proof (square_along m r y s ltac:(lra) Sy) as Sq. apply (Cov _ (K _ Sq)). rewrite (Wm _ Sq). exact W1. }
    destruct t' as ((x', y'), z'). cbn in K4.
    apply (facing at_ n out V ids u v c x' y' z' (along m y (e4 * (1#2))) (1#2) T (or_introl Ht')); [apply K4; lra| |lra|].
    + rewrite orient_along, U1. nra.
    + exact (inside_limit _ _ _ m y e4 E4 K4).
Qed.

Lemma side_edge e : In e cs -> exists u v, In (u, v) (border_edges out) /\ along_constraint at_ u v e.
Proof.
  intros Ie. destruct (Ne e Ie) as (r & R & K). destruct (clear_but at_ cs SL e (1#2) Ie ltac:(lra)) as (r1 & R1 & C).
  set (f := at_ (efrom e)) in *. set (g := at_ (eto e)) in *. set (m := along f g (1#2)) in *.
  assert (Om : orient f g m == 0) by apply line_on.
  destruct (below r r1 R R1) as (r2 & R2 & R3 & R4).
  assert (Clear : forall q, square m r2 q -> ~ orient f g q == 0 -> ~ on_constraint at_ cs q).
  { intros q Sq O (e' & s & J & _ & S & P). destruct (edge_dec e' e) as [-> |D].
    - apply O. rewrite (at_place _ _ _ _ P). apply line_on.
    - exact (C q (square_less m r2 r1 q ltac:(lra) Sq) e' s J D S P). }
  assert (Npr : 0 < (fst g - fst f) * (fst g - fst f) + (snd g - snd f) * (snd g - snd f)).
  { apply square_sum. pose proof (sl_proper _ _ SL e Ie) as Pr. intros (A & B). apply Pr. fold f g. split; lra. }
  (* a point on the right *)
  set (y0 := (fst m + (snd g - snd f), snd m - (fst g - fst f))).
  assert (Y0 : orient f g y0 < 0).
  { assert (I : orient f g y0 == orient f g m - ((fst g - fst f) * (fst g - fst f) + (snd g - snd f) * (snd g - snd f))) by (unfold y0, orient; cbn [fst snd]; ring). lra. }
  clearbody y0. destruct (shrink m y0 r2 R2) as (e3 & E3 & K3). destruct (below e3 1 E3 ltac:(lra)) as (h & G1 & G2 & G3).
  set (y := along m y0 h).
  assert (Sy : square m r2 y) by (apply K3; lra).
  assert (Oy : orient f g y < 0) by (unfold y; rewrite orient_along, Om; nra).
  assert (Oys : forall s, 0 < s -> orient f g (along m y s) < 0) by (intros s S; rewrite orient_along, Om; nra).
  destruct (start_tri at_ out m y) as (t & e4 & Ht & E4 & K4).
  { intros s S. pose proof (square_along m r2 y s ltac:(lra) Sy) as Sq. pose proof (Oys s ltac:(lra)) as Os.
    apply (Cov _ (Clear _ Sq ltac:(lra))). apply (K _ (square_less m r2 r _ ltac:(lra) Sq)). exact Os. }
  assert (Im : tri_inside_or_on at_ t m).
  { destruct t as ((x, y'), z). cbn in K4 |- *. exact (inside_limit _ _ _ m y e4 E4 K4). }
  destruct (rs_edge _ _ _ _ _ (Rs t e Ht Ie) t (1#2) Ht ltac:(lra) Im) as (u & v & Cu & Cv & Nuv & Pu & Pv).
  assert (Ou : forall q, orient (at_ u) (at_ v) q == orient f g q).
  { intros q. destruct Pu as (X1 & X2), Pv as (Y1 & Y2). unfold orient. fold f g in X1, X2, Y1, Y2. rewrite X1, X2, Y1, Y2. reflexivity. }
  assert (Sw : forall a b p : point, orient a b p == - orient b a p) by (intros; unfold orient; ring).
  assert (Q4 : tri_inside_or_on at_ t (along m y (e4 * (1#2)))) by (apply K4; lra).
  assert (Bad : forall d, is_tri out v u d -> ~ tri_inside_or_on at_ t (along m y (e4 * (1#2))) \/ t <> (v, u, d) /\ t <> (u, d, v) /\ t <> (d, v, u)).
  { intros d _. right. pose proof (Oys (e4 * (1#2)) ltac:(lra)) as O. pose proof (Ou (along m y (e4 * (1#2)))) as O1. pose proof (Sw (at_ v) (at_ u) (along m y (e4 * (1#2)))) as O2.
    repeat split; intros ->; cbn in Q4; destruct Q4 as (W1 & W2 & W3); lra. }
  assert (T : exists c, is_tri out u v c).
  { destruct t as ((a, b), d). cbn in Cu, Cv. 
    destruct Cu as [-> |[-> | ->]], Cv as [-> |[-> | ->]]; try (destruct (Nuv eq_refl)).
    - exists d. now left.
    - exfalso. destruct (Bad b) as [W|(W1 & W2 & W3)]; [unfold is_tri; auto|exact (W Q4)|]. first [apply W1; reflexivity|apply W2; reflexivity|apply W3; reflexivity].
    - exfalso. destruct (Bad d) as [W|(W1 & W2 & W3)]; [unfold is_tri; auto|exact (W Q4)|]. apply W1. reflexivity.
    - exists a. unfold is_tri. auto.
    - exists b. unfold is_tri. auto.
    - exfalso. destruct (Bad a) as [W|(W1 & W2 & W3)]; [unfold is_tri; auto|exact (W Q4)|]. first [apply W1; reflexivity|apply W2; reflexivity|apply W3; reflexivity]. }
  destruct T as (c & T). exists u, v. split; [|split; assumption]. apply border_iff. split; [exact (tri_edge out u v c T)|].
  intros NB. destruct (edge_tri out v u NB) as (d & T'). pose proof (tri_in at_ n out V v u d T') as (t' & Ht' & Ct & It & Ot & Cw).
  set (m' := along (at_ v) (at_ u) (1#2)).
  assert (Pm : same_place m' m).
  { destruct Pu as (X1 & X2), Pv as (Y1 & Y2). fold f g in X1, X2, Y1, Y2. unfold m', m, same_place, along. cbn [fst snd]. rewrite X1, X2, Y1, Y2. split; ring. }
  assert (U1 : orient (at_ v) (at_ u) m' == 0) by apply line_on.
  assert (U2 : orient (at_ u) (at_ d) m' < 0) by (unfold m', orient, along in *; cbn [fst snd] in *; lra).
  assert (U3 : orient (at_ d) (at_ v) m' < 0) by (unfold m', orient, along in *; cbn [fst snd] in *; lra).
  destruct (small_in (at_ v) (at_ u) (at_ d) m' (at_ d) ltac:(lra) (fun _ => Cw) U2 U3) as (e1 & E1 & K1).
  destruct (shrink m' (at_ d) r R) as (e2 & E2 & K2). destruct (below e1 e2 E1 E2) as (h' & H1 & H2 & H3).
  pose proof (inner_value v u d _ T' (K1 h' ltac:(lra))) as W.
  destruct (K (along m' (at_ d) h')) as (_ & Kl).
  { specialize (K2 h' ltac:(lra)). destruct Pm as (P1 & P2). unfold square in *. rewrite <- P1, <- P2. exact K2. }
  rewrite Kl in W; [lia|]. destruct (K1 h' ltac:(lra)) as (N1 & _). rewrite <- Ou, Sw. lra.
Qed.

Lemma border_match : length (border_edges out) = length cs /\ total_area at_ out == enclosed_area at_ cs.
Proof.
  assert (Nd : NoDup (border_edges out)) by (apply NoDup_filter; exact (vm_edges _ _ _ V)).
  set (g := fun e : edge => area2 at_ (efrom e, eto e)).
  assert (Mg : forall u v x y e, In (u, v) (directed_edges out) -> In (x, y) (directed_edges out) -> along_constraint at_ u v e -> along_constraint at_ x y e -> (u, v) = (x, y)).
  { intros u v x y e B1 B2 (P1 & P2) (Q1 & Q2). destruct (edge_tri out u v B1) as (c & T). destruct (edge_tri out x y B2) as (d & T').
    f_equal; apply (tri_merged at_ n out V u v c x y d T T'); auto.
    - exact (Facing.place_trans _ _ _ P1 (Facing.place_sym _ _ Q1)).
    - exact (Facing.place_trans _ _ _ P2 (Facing.place_sym _ _ Q2)). }
  destruct (sum_match (fun (a : N * N) e => along_constraint at_ (fst a) (snd a) e) (area2 at_) g) with (l1 := border_edges out) (l2 := cs) as (L & S).
  - intros (u, v) e ((P1 & P2) & Q1 & Q2). unfold g, area2. cbn [fst snd] in *. rewrite P1, P2, Q1, Q2. reflexivity.
  - exact Nd.
  - exact (sl_once _ _ SL).
  - intros (u, v) H. exact (edge_side u v H).
  - intros e H. destruct (side_edge e H) as (u & v & B & P). exists (u, v). split; assumption.
  - intros (u, v) e e' _ J J' (P1 & _) (Q1 & _). apply (sl_start _ _ SL e e' J J'). exact (Facing.place_trans _ _ _ (Facing.place_sym _ _ P1) Q1).
  - intros (u, v) (x, y) e B1 B2 _ P Q. apply border_iff in B1, B2. exact (Mg u v x y e (proj1 B1) (proj1 B2) P Q).
  - split; [exact L|]. rewrite area_total, border_total by exact (vm_edges _ _ _ V). rewrite total_sum, S.
    clear. unfold g. induction cs as [|e l IH]; cbn [sumq fold_right enclosed_area]; [reflexivity|]. fold (sumq (fun e : edge => area2 at_ (efrom e, eto e)) l).
    rewrite <- IH. unfold area2. cbn [fst snd]. ring.
Qed.
End Border.
