(** * BoxGrid: triangulations whose first four vertices are the corners of a box. *)

From Coq Require Import ZArith NArith List Bool Lia QArith Lqa Permutation.
From Verif Require Import Base BaseFacts Arith Types Utils Infinite Triangulation Geom Mesh Exact ExactC
  AnyDT Walk Insert DTExact Spec DTOut GridSpec InputSpec GridApi ApiProps LawsonApi ApiGrid LawsonGrid GridCdt Constrained SpecBox OneBin Box.
Import ListNotations.
Local Open Scope N_scope.

Section Plane.
Local Open Scope Q_scope.

Lemma mul_le_pos k x : 0 < k -> (k * x <= 0 <-> x <= 0).
Proof.
  intros Hk. split; intros H.
  - apply Qnot_lt_le. intros Hx. pose proof (Qmult_lt_0_compat _ _ Hk Hx). lra.
  - assert (0 <= - x) by lra. pose proof (Qmult_le_0_compat _ _ (Qlt_le_weak _ _ Hk) H0). lra.
Qed.

Variables x0 y0 x1 y1 : Q.
Hypothesis Hx : x0 < x1.
Hypothesis Hy : y0 < y1.

(** The halves of the box on both sides of each diagonal. *)
Lemma halves u v :
  (x0 <= u <= x1 /\ y0 <= v <= y1) <->
  (((x1 - x0) * (v - y0) - (y1 - y0) * (u - x0) <= 0 /\ u <= x1 /\ y0 <= v) \/
   ((y1 - y0) * (u - x0) - (x1 - x0) * (v - y0) <= 0 /\ x0 <= u /\ v <= y1)).
Proof.
  assert (A : 0 < x1 - x0) by lra. assert (B : 0 < y1 - y0) by lra. split.
  - intros ((H1 & H2) & H3 & H4).
    destruct (Qlt_le_dec 0 ((x1 - x0) * (v - y0) - (y1 - y0) * (u - x0))) as [H|H]; [right|left]; repeat split; lra.
  - intros [(H & H2 & H3)|(H & H1 & H4)].
    + assert (K1 : (y1 - y0) * (x0 - u) <= 0).
      { assert (0 <= (x1 - x0) * (v - y0)) by (apply Qmult_le_0_compat; lra). lra. }
      apply (proj1 (mul_le_pos _ _ B)) in K1.
      assert (K2 : (x1 - x0) * (v - y1) <= 0).
      { assert (0 <= (y1 - y0) * (x1 - u)) by (apply Qmult_le_0_compat; lra). lra. }
      apply (proj1 (mul_le_pos _ _ A)) in K2. split; split; lra.
    + assert (K1 : (x1 - x0) * (y0 - v) <= 0).
      { assert (0 <= (y1 - y0) * (u - x0)) by (apply Qmult_le_0_compat; lra). lra. }
      apply (proj1 (mul_le_pos _ _ A)) in K1.
      assert (K2 : (y1 - y0) * (u - x1) <= 0).
      { assert (0 <= (x1 - x0) * (y1 - v)) by (apply Qmult_le_0_compat; lra). lra. }
      apply (proj1 (mul_le_pos _ _ B)) in K2. split; split; lra.
Qed.
End Plane.

Section Corners.
Variable at_ : N -> point.
Variables a b c d : N.
Hypothesis Bx : box_corners (at_ a) (at_ b) (at_ c) (at_ d).

Lemma rot_in x y z t p : In t [(x, y, z); (y, z, x); (z, x, y)] ->
  (tri_inside_or_on at_ t p <-> inside_or_on (at_ x) (at_ y) (at_ z) p).
Proof. intros H. simpl in H. unfold inside_or_on. decompose [or] H; try contradiction; subst; simpl; unfold inside_or_on; tauto. Qed.

Lemma half_acb p : inside_or_on (at_ a) (at_ c) (at_ b) p <->
  ((fst (at_ c) - fst (at_ a)) * (snd p - snd (at_ a)) - (snd (at_ c) - snd (at_ a)) * (fst p - fst (at_ a)) <= 0 /\
   fst p <= fst (at_ c) /\ snd (at_ a) <= snd p)%Q.
Proof.
  destruct Bx as (H1 & H2 & H3 & H4 & H5 & H6). unfold inside_or_on, orient. rewrite ?H2, ?H3, ?H5, ?H6.
  assert (A : (0 < fst (at_ b) - fst (at_ a))%Q) by lra. assert (B : (0 < snd (at_ c) - snd (at_ a))%Q) by lra.
  pose proof (mul_le_pos (snd (at_ c) - snd (at_ a)) (fst p - fst (at_ b)) B) as K1.
  pose proof (mul_le_pos (fst (at_ b) - fst (at_ a)) (snd (at_ a) - snd p) A) as K2.
  split; intros (J1 & J2 & J3).
  - split; [lra|]. split.
    + assert (fst p - fst (at_ b) <= 0)%Q by (apply K1; lra). lra.
    + assert (snd (at_ a) - snd p <= 0)%Q by (apply K2; lra). lra.
  - split; [lra|]. split.
    + assert ((snd (at_ c) - snd (at_ a)) * (fst p - fst (at_ b)) <= 0)%Q by (apply K1; lra). lra.
    + assert ((fst (at_ b) - fst (at_ a)) * (snd (at_ a) - snd p) <= 0)%Q by (apply K2; lra). lra.
Qed.

Lemma half_adc p : inside_or_on (at_ a) (at_ d) (at_ c) p <->
  ((snd (at_ c) - snd (at_ a)) * (fst p - fst (at_ a)) - (fst (at_ c) - fst (at_ a)) * (snd p - snd (at_ a)) <= 0 /\
   fst (at_ a) <= fst p /\ snd p <= snd (at_ c))%Q.
Proof.
  destruct Bx as (H1 & H2 & H3 & H4 & H5 & H6). unfold inside_or_on, orient. rewrite ?H2, ?H3, ?H5, ?H6.
  assert (A : (0 < fst (at_ b) - fst (at_ a))%Q) by lra. assert (B : (0 < snd (at_ c) - snd (at_ a))%Q) by lra.
  pose proof (mul_le_pos (snd (at_ c) - snd (at_ a)) (fst (at_ a) - fst p) B) as K1.
  pose proof (mul_le_pos (fst (at_ b) - fst (at_ a)) (snd p - snd (at_ c)) A) as K2.
  split; intros (J1 & J2 & J3).
  - split; [lra|]. split.
    + assert (fst (at_ a) - fst p <= 0)%Q by (apply K1; lra). lra.
    + assert (snd p - snd (at_ c) <= 0)%Q by (apply K2; lra). lra.
  - assert ((snd (at_ c) - snd (at_ a)) * (fst (at_ a) - fst p) <= 0)%Q by (apply K1; lra).
    assert ((fst (at_ b) - fst (at_ a)) * (snd p - snd (at_ c)) <= 0)%Q by (apply K2; lra). repeat split; lra.
Qed.

Lemma in_halves p : in_box (at_ a) (at_ c) p <->
  (inside_or_on (at_ a) (at_ c) (at_ b) p \/ inside_or_on (at_ a) (at_ d) (at_ c) p).
Proof.
  rewrite half_acb, half_adc. destruct Bx as (H1 & H2 & H3 & H4 & H5 & H6). unfold in_box. apply halves; lra.
Qed.

Lemma half_adb p : inside_or_on (at_ a) (at_ d) (at_ b) p <->
  ((fst (at_ c) - fst (at_ a)) * (snd p - snd (at_ a)) - (snd (at_ c) - snd (at_ a)) * (fst (at_ a) + fst (at_ c) - fst p - fst (at_ a)) <= 0 /\
   fst (at_ a) + fst (at_ c) - fst p <= fst (at_ c) /\ snd (at_ a) <= snd p)%Q.
Proof.
  destruct Bx as (H1 & H2 & H3 & H4 & H5 & H6). unfold inside_or_on, orient. rewrite ?H2, ?H3, ?H5, ?H6.
  assert (A : (0 < fst (at_ b) - fst (at_ a))%Q) by lra. assert (B : (0 < snd (at_ c) - snd (at_ a))%Q) by lra.
  pose proof (mul_le_pos (snd (at_ c) - snd (at_ a)) (fst (at_ a) - fst p) B) as K1.
  pose proof (mul_le_pos (fst (at_ b) - fst (at_ a)) (snd (at_ a) - snd p) A) as K2.
  split; intros (J1 & J2 & J3).
  - split; [lra|]. split.
    + assert (fst (at_ a) - fst p <= 0)%Q by (apply K1; lra). lra.
    + assert (snd (at_ a) - snd p <= 0)%Q by (apply K2; lra). lra.
  - assert ((snd (at_ c) - snd (at_ a)) * (fst (at_ a) - fst p) <= 0)%Q by (apply K1; lra).
    assert ((fst (at_ b) - fst (at_ a)) * (snd (at_ a) - snd p) <= 0)%Q by (apply K2; lra). repeat split; lra.
Qed.

Lemma half_bdc p : inside_or_on (at_ b) (at_ d) (at_ c) p <->
  ((snd (at_ c) - snd (at_ a)) * (fst (at_ a) + fst (at_ c) - fst p - fst (at_ a)) - (fst (at_ c) - fst (at_ a)) * (snd p - snd (at_ a)) <= 0 /\
   fst (at_ a) <= fst (at_ a) + fst (at_ c) - fst p /\ snd p <= snd (at_ c))%Q.
Proof.
  destruct Bx as (H1 & H2 & H3 & H4 & H5 & H6). unfold inside_or_on, orient. rewrite ?H2, ?H3, ?H5, ?H6.
  assert (A : (0 < fst (at_ b) - fst (at_ a))%Q) by lra. assert (B : (0 < snd (at_ c) - snd (at_ a))%Q) by lra.
  pose proof (mul_le_pos (snd (at_ c) - snd (at_ a)) (fst p - fst (at_ b)) B) as K1.
  pose proof (mul_le_pos (fst (at_ b) - fst (at_ a)) (snd p - snd (at_ c)) A) as K2.
  split; intros (J1 & J2 & J3).
  - split; [lra|]. split.
    + assert (fst p - fst (at_ b) <= 0)%Q by (apply K1; lra). lra.
    + assert (snd p - snd (at_ c) <= 0)%Q by (apply K2; lra). lra.
  - assert ((snd (at_ c) - snd (at_ a)) * (fst p - fst (at_ b)) <= 0)%Q by (apply K1; lra).
    assert ((fst (at_ b) - fst (at_ a)) * (snd p - snd (at_ c)) <= 0)%Q by (apply K2; lra). repeat split; lra.
Qed.

Lemma in_halves' p : in_box (at_ a) (at_ c) p <->
  (inside_or_on (at_ a) (at_ d) (at_ b) p \/ inside_or_on (at_ b) (at_ d) (at_ c) p).
Proof.
  rewrite half_adb, half_bdc. destruct Bx as (H1 & H2 & H3 & H4 & H5 & H6). unfold in_box.
  rewrite <- (halves (fst (at_ a)) (snd (at_ a)) (fst (at_ c)) (snd (at_ c))); [|lra|lra].
  split; intros ((A & B) & C & F); repeat split; lra.
Qed.

Notation box_mesh := (box_mesh a b c d).

Lemma box_covered l p : box_mesh l -> covered at_ l p <-> in_box (at_ a) (at_ c) p.
Proof.
  intros (t1 & t2 & -> & H). unfold covered.
  assert (K : (exists t, In t [t1; t2] /\ tri_inside_or_on at_ t p) <-> (tri_inside_or_on at_ t1 p \/ tri_inside_or_on at_ t2 p)).
  { split; [intros (t & [<-|[<-|[]]] & Ht); auto|intros [Ht|Ht]; eexists; (split; [|exact Ht]); simpl; auto]. }
  rewrite K. destruct H as [(A & B)|[(A & B)|[(A & B)|(A & B)]]].
  - rewrite (rot_in a c b t1 p A), (rot_in a d c t2 p B), in_halves. tauto.
  - rewrite (rot_in a c b t2 p A), (rot_in a d c t1 p B), in_halves. tauto.
  - rewrite (rot_in a d b t1 p A), (rot_in b d c t2 p B), in_halves'. tauto.
  - rewrite (rot_in a d b t2 p A), (rot_in b d c t1 p B), in_halves'. tauto.
Qed.

Lemma box_convex l : box_mesh l -> convex_area at_ l.
Proof.
  intros H p q s Hp Hq (S0 & S1). apply (box_covered l _ H) in Hp, Hq. apply (box_covered l _ H).
  destruct Hp as ((A1 & A2) & A3 & A4), Hq as ((B1 & B2) & B3 & B4). unfold in_box, along. cbn [fst snd].
  assert (M : forall x y m : Q, (m <= x)%Q -> (m <= y)%Q -> (m <= x + s * (y - x))%Q).
  { intros x y m Hx Hy. assert (0 <= s * (y - m))%Q by (apply Qmult_le_0_compat; lra).
    assert (0 <= (1 - s) * (x - m))%Q by (apply Qmult_le_0_compat; lra). lra. }
  assert (M' : forall x y m : Q, (x <= m)%Q -> (y <= m)%Q -> (x + s * (y - x) <= m)%Q).
  { intros x y m Hx Hy. assert (0 <= s * (m - y))%Q by (apply Qmult_le_0_compat; lra).
    assert (0 <= (1 - s) * (m - x))%Q by (apply Qmult_le_0_compat; lra). lra. }
  split; split; auto.
Qed.

Lemma flag o : (sqdist o (at_ a) + sqdist o (at_ c) == sqdist o (at_ b) + sqdist o (at_ d))%Q.
Proof. destruct Bx as (H1 & H2 & H3 & H4 & H5 & H6). unfold sqdist. rewrite H2, H3, H5, H6. ring. Qed.

Lemma corner_ids : a <> b /\ a <> c /\ a <> d /\ b <> c /\ b <> d /\ c <> d.
Proof.
  destruct Bx as (H1 & H2 & H3 & H4 & H5 & H6).
  repeat split; intros F; rewrite F in *; lra.
Qed.

Definition four := [a; b; c; d].

Lemma rot_four x y z t u v w : In t [(x, y, z); (y, z, x); (z, x, y)] -> In x four -> In y four -> In z four ->
  x <> y -> y <> z -> z <> x -> (t = (u, v, w) \/ t = (v, w, u) \/ t = (w, u, v)) ->
  In u four /\ In v four /\ In w four /\ u <> v /\ v <> w /\ w <> u.
Proof.
  intros H A B C N1 N2 N3 K. cbn [In] in H.
  destruct H as [<-|[<-|[<-|[]]]]; destruct K as [K|[K|K]]; injection K as <- <- <-; repeat split; auto.
Qed.

Lemma box_tri l u v w : box_mesh l -> is_tri l u v w -> In u four /\ In v four /\ In w four /\ u <> v /\ v <> w /\ w <> u.
Proof.
  intros (t1 & t2 & -> & H) K. destruct corner_ids as (N1 & N2 & N3 & N4 & N5 & N6).
  assert (K' : exists t, (t = t1 \/ t = t2) /\ (t = (u, v, w) \/ t = (v, w, u) \/ t = (w, u, v))).
  { destruct K as [[K|[K|[]]]|[[K|[K|[]]]|[K|[K|[]]]]];
      [exists t1|exists t2|exists t1|exists t2|exists t1|exists t2]; auto. }
  clear K. destruct K' as (t & Ht & K).
  destruct H as [(A & B)|[(A & B)|[(A & B)|(A & B)]]]; destruct Ht as [->| ->];
    first [eapply rot_four; [exact A|..|exact K]; unfold four; simpl; now auto 6 | eapply rot_four; [exact B|..|exact K]; unfold four; simpl; now auto 6].
Qed.

Lemma corner_circle u v w x : In u four -> In v four -> In w four -> In x four -> u <> v -> v <> w -> w <> u ->
  ~ in_circumcircle (at_ u) (at_ v) (at_ w) (at_ x).
Proof.
  intros U V W X N1 N2 N3 (o & A & B & C). pose proof (flag o) as F. unfold four in *. cbn [In] in U, V, W, X.
  destruct U as [<-|[<-|[<-|[<-|[]]]]]; destruct V as [<-|[<-|[<-|[<-|[]]]]]; try congruence;
    destruct W as [<-|[<-|[<-|[<-|[]]]]]; try congruence; destruct X as [<-|[<-|[<-|[<-|[]]]]]; lra.
Qed.

Lemma box_local l : box_mesh l -> locally_delaunay at_ l.
Proof.
  intros H u v w x T1 T2. destruct (box_tri l _ _ _ H T1) as (A & B & C & D1 & D2 & D3).
  destruct (box_tri l _ _ _ H T2) as (_ & _ & F & _). now apply corner_circle.
Qed.
End Corners.

Section Grid.
Context {E : Env}.
Variables (vs : list vertex) (px py : N -> Q) (bound : Z).
Notation pos := (pair_at px py).
Hypothesis G : exact_input vs pos bound.
Hypothesis Hid : 2 * lenN vs + 2 <= idmax.

Lemma grid_box fuel bins a b c d v0 v1 v2 v3 rest : (4 * length vs + 12 <= fuel)%nat ->
  box_corners (pos a) (pos b) (pos c) (pos d) -> Permutation [v0; v1; v2; v3] [a; b; c; d] ->
  bin_sort bins (normalized vs) = Ret (v0 :: v1 :: v2 :: v3 :: rest) ->
  (forall v, In v rest -> in_box (pos a) (pos c) (pos v)) ->
  exists out, triangulation_from_2d_vertices fuel bins vs = Ret out /\
    (forall p, covered pos out p <-> in_box (pos a) (pos c) p) /\
    forall x y z v, is_tri out x y z -> v < lenN vs -> ~ in_circumcircle (pos x) (pos y) (pos z) (pos v).
Proof.
  intros Hf Bx Pm Hb Hin.
  destruct (input_api vs px py bound G Hid) as (X & _).
  assert (Perm : Permutation (v0 :: v1 :: v2 :: v3 :: rest) (rangeN 0 (length vs))).
  { pose proof (bin_sort_permutation bins (normalized vs) (v0 :: v1 :: v2 :: v3 :: rest)) as K.
    rewrite normalized_lenN, normalized_len in K. apply K; [lia|auto]. }
  assert (Hlen : (4 <= length vs)%nat).
  { apply Permutation_length in Perm. rewrite length_rangeN in Perm. simpl in Perm. lia. }
  assert (Hl : forall v, In v [a; b; c; d] -> exists y, nthN (normalized vs) v = Some y).
  { intros v Hv. apply nthN_Some. rewrite normalized_lenN.
    apply (Permutation_in _ (Permutation_sym Pm)) in Hv.
    assert (Hv' : In v (v0 :: v1 :: v2 :: v3 :: rest)) by (cbn [In] in *; tauto).
    apply (Permutation_in _ Perm), In_rangeN in Hv'. unfold lenN. lia. }
  destruct (Hl a) as (va & Na); [simpl; auto|]. destruct (Hl b) as (vb & Nb); [simpl; auto|].
  destruct (Hl c) as (vc & Nc); [simpl; auto|]. destruct (Hl d) as (vd & Nd); [simpl; auto 6|].
  destruct Bx as (B1 & B2 & B3 & B4 & B5 & B6) eqn:EB. unfold pair_at in B1, B2, B3, B4, B5, B6. cbn [fst snd] in *.
  destruct (box_inserted (normalized vs) px py X a b c d ltac:(unfold lenN in Hid; lia) va vb vc vd Na Nb Nc Nd) with
    (f := (fuel - 20)%nat) (m := None (A := list N)) (v0 := v0) (l := [v1; v2; v3]) as (s & Hs & Ms); auto.
  clear EB. replace (20 + (fuel - 20))%nat with fuel in Hs by lia.
  pose proof (box_local pos a b c d Bx _ Ms) as LD. pose proof (box_convex pos a b c d Bx _ Ms) as Cx.
  assert (H3 : 3 <= lenN vs) by (unfold lenN; lia).
  assert (Hc : forall v, v < lenN vs -> covered pos (filter_triangles (s_ts s)) (pos v)).
  { intros v Hv. apply (box_covered pos a b c d Bx _ _ Ms).
    assert (Hv' : In v (v0 :: v1 :: v2 :: v3 :: rest)).
    { apply (Permutation_in _ (Permutation_sym Perm)), In_rangeN. unfold lenN in Hv. lia. }
    destruct (in_dec N.eq_dec v rest) as [R|R]; [auto|].
    assert (K : In v [a; b; c; d]) by (apply (Permutation_in _ Pm); cbn [In] in *; tauto).
    unfold in_box, pair_at. cbn [fst snd]. cbn [In] in K. destruct K as [<-|[<-|[<-|[<-|[]]]]]; repeat split; lra. }
  destruct (grid_succeeds vs px py bound G Hid fuel bins v0 [v1; v2; v3] rest s Hf H3 Hb Hs LD Cx Hc) as (out & Ho & A & B).
  exists out. split; [auto|]. split; [|auto].
  intros p. rewrite A. exact (box_covered pos a b c d Bx _ p Ms).
Qed.

(** One bin, the corners are the last four vertices. *)
Lemma grid_box_last fuel n a b c d : (4 * length vs + 12 <= fuel)%nat -> (1 <= bound)%Z -> lenN vs = n + 4 ->
  Permutation [a; b; c; d] [n; n + 1; n + 2; n + 3] -> box_corners (pos a) (pos b) (pos c) (pos d) ->
  (forall v, v < n -> in_box (pos a) (pos c) (pos v)) ->
  exists out, triangulation_from_2d_vertices fuel 1 vs = Ret out /\
    (forall p, covered pos out p <-> in_box (pos a) (pos c) p) /\
    forall x y z v, is_tri out x y z -> v < lenN vs -> ~ in_circumcircle (pos x) (pos y) (pos z) (pos v).
Proof.
  intros Hf Hb Hn Pm Bx Hin.
  destruct (input_api vs px py bound G Hid) as (_ & _ & Hs). destruct (Hs 1) as (order & Ho); [lia|lia|].
  pose proof (one_bin (normalized vs) order) as K. rewrite normalized_lenN, normalized_len in K.
  specialize (K ltac:(lia) Ho). subst order.
  assert (Hl : length vs = (N.to_nat n + 4)%nat) by (unfold lenN in Hn; lia).
  rewrite Hl, rangeN_app, rev_app_distr, N.add_0_l, N2Nat.id in Ho.
  cbn [rangeN rev app] in Ho.
  replace (N.succ n) with (n + 1) in Ho by lia. replace (N.succ (n + 1)) with (n + 2) in Ho by lia.
  replace (N.succ (n + 2)) with (n + 3) in Ho by lia.
  apply (grid_box fuel 1 a b c d (n + 3) (n + 2) (n + 1) n (rev (rangeN 0 (N.to_nat n)))); auto.
  - apply Permutation_sym. apply (Permutation_trans Pm). apply (Permutation_rev [n; n + 1; n + 2; n + 3]).
  - intros v Hv. apply Hin. apply in_rev, In_rangeN in Hv. lia.
Qed.

(** Constraints between such vertices succeed. *)
Lemma grid_box_cdt fuel n a b c d cs :
  ((2 * length vs + 4) * (2 * length vs + 4) <= fuel)%nat -> (1 <= bound)%Z -> lenN vs = n + 4 ->
  Permutation [a; b; c; d] [n; n + 1; n + 2; n + 3] -> box_corners (pos a) (pos b) (pos c) (pos d) ->
  (forall v, v < n -> in_box (pos a) (pos c) (pos v)) ->
  (forall e, In e cs -> efrom e < lenN vs /\ eto e < lenN vs /\
     (~ same_place (pos (efrom e)) (pos (eto e)) -> clear_between pos (lenN vs) (efrom e) (eto e))) ->
  noncrossing pos cs ->
  exists out, constrained_triangulation_from_2d_vertices fuel 1 vs cs = Ret out /\
    forall e, In e cs -> ~ same_place (pos (efrom e)) (pos (eto e)) -> respects pos (lenN vs) out (efrom e) (eto e).
Proof.
  intros Hf Hb Hn Pm Bx Hin Hcs Hx.
  assert (Hf' : (4 * length vs + 12 <= fuel)%nat) by nia.
  destruct (grid_box_last fuel n a b c d Hf' Hb Hn Pm Bx Hin) as (out0 & Ho & Cv & _).
  assert (All : forall v, v < lenN vs -> in_box (pos a) (pos c) (pos v)).
  { intros v Hv. destruct (N.lt_ge_cases v n) as [L|L].
    - exact (Hin v L).
    - assert (K : In v [a; b; c; d]).
      { apply (Permutation_in _ (Permutation_sym Pm)). cbn [In].
        destruct (N.eq_dec v n); [auto|]. destruct (N.eq_dec v (n + 1)); [auto|]. destruct (N.eq_dec v (n + 2)); [auto|].
        do 3 right. left. lia. }
      destruct Bx as (B1 & B2 & B3 & B4 & B5 & B6). cbn [In] in K. unfold in_box.
      destruct K as [<-|[<-|[<-|[<-|[]]]]]; repeat split; lra. }
  destruct (grid_cdt_returns vs px py bound G Hid fuel 1 Hf ltac:(lia) Hb cs out0 Ho) as (out & Hr).
  { intros e He. destruct (Hcs e He) as (K1 & K2 & K3). split; [auto|]. split; [auto|]. intros Hne. split; [auto|].
    intros t (T0 & T1). apply Cv.
    destruct (All _ K1) as ((A1 & A2) & A3 & A4), (All _ K2) as ((C1 & C2) & C3 & C4).
    revert A1 A2 A3 A4 C1 C2 C3 C4. generalize (pos (efrom e)), (pos (eto e)). intros p q A1 A2 A3 A4 C1 C2 C3 C4.
    unfold in_box, along. cbn [fst snd].
    assert (M : forall x y m : Q, (m <= x)%Q -> (m <= y)%Q -> (m <= x + t * (y - x))%Q).
    { intros x y m Hx' Hy'. assert (0 <= t * (y - m))%Q by (apply Qmult_le_0_compat; lra).
      assert (0 <= (1 - t) * (x - m))%Q by (apply Qmult_le_0_compat; lra). lra. }
    assert (M' : forall x y m : Q, (x <= m)%Q -> (y <= m)%Q -> (x + t * (y - x) <= m)%Q).
    { intros x y m Hx' Hy'. assert (0 <= t * (m - y))%Q by (apply Qmult_le_0_compat; lra).
      assert (0 <= (1 - t) * (m - x))%Q by (apply Qmult_le_0_compat; lra). lra. }
    split; split; auto. }
  exists out. split; [auto|]. intros e He Hne.
  exact (proj1 (grid_cdt_edges vs px py bound G Hid fuel 1 Hf' cs e out ltac:(lia) Hx He Hne Hr)).
Qed.
End Grid.
