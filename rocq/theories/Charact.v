(** * Charact: the result as the set of the triangles with an empty circumcircle; the results of
    inputs that are rotated, scaled, translated or reflected. *)

From Coq Require Import ZArith NArith List Bool Lia QArith Lqa Permutation.
From Verif Require Import Base BaseFacts Arith Types Utils Infinite Triangulation AnyDT Spec DTOut GridSpec InputSpec GridApi
  SpecBox BoxGrid SpecUnique Unique UniqueGrid.
Import ListNotations.
Local Open Scope Q_scope.

(** ** The triangles with an empty circumcircle *)

Lemma same_points_refl at_ n : same_points at_ at_ n n.
Proof. split; intros v Hv; exists v; (split; [exact Hv|apply same_refl]). Qed.

Lemma empty_listed at_ n out a b c : delaunay at_ n out -> (forall t, In t out -> tri_clockwise at_ t) ->
  (forall a b c, In (a, b, c) out -> (a < n /\ b < n /\ c < n)%N) -> no_empty_circle_of_four at_ n ->
  (a < n)%N -> (b < n)%N -> (c < n)%N -> clockwise (at_ a) (at_ b) (at_ c) ->
  covered at_ out (mid at_ (a, b, c)) -> empty_circle at_ n a b c -> triangle_at at_ out a b c.
Proof.
  intros Dl W I Gp La Lb Lc Cw Cv Em.
  apply (tri_unique at_ at_ n n [(a, b, c)] out (same_points_refl at_ n)); auto.
  - intros x y z v [K|[]] Hv. injection K as <- <- <-. now apply Em.
  - intros t [<-|[]]. exact Cw.
  - intros x y z [K|[]]. injection K as <- <- <-. auto.
  - now left.
Qed.

Lemma listed_empty at_ n out a b c : delaunay at_ n out -> triangle_at at_ out a b c -> empty_circle at_ n a b c.
Proof.
  intros Dl (((x, y), z) & Ht & Sm) v Hv K. apply (Dl x y z v Ht Hv). destruct K as (o & O1 & O2 & O3).
  exists o. unfold sqdist in *. cbn [same_triangle] in Sm.
  destruct Sm as [((A & A') & (B & B') & C & C')|[((A & A') & (B & B') & C & C')|((A & A') & (B & B') & C & C')]];
    rewrite A, A', B, B', C, C' in *; repeat split; lra.
Qed.

Lemma mid_covered at_ n out a b c : convex_area at_ out -> (forall v, (v < n)%N -> covered at_ out (at_ v)) ->
  (a < n)%N -> (b < n)%N -> (c < n)%N -> covered at_ out (mid at_ (a, b, c)).
Proof.
  intros Cx Cv La Lb Lc.
  pose proof (Cx (at_ a) (at_ b) (1 # 2) (Cv a La) (Cv b Lb) ltac:(split; discriminate)) as K.
  pose proof (Cx _ (at_ c) (1 # 3) K (Cv c Lc) ltac:(split; discriminate)) as (t & Ht & In_).
  exists t. split; [exact Ht|]. destruct t as ((x, y), z). cbn [tri_inside_or_on] in *. revert In_.
  unfold inside_or_on. set (m := along _ (at_ c) (1 # 3)). set (m' := mid at_ (a, b, c)).
  assert (Q1 : fst m' == fst m) by (unfold m, m', mid, along; cbn [fst snd]; field).
  assert (Q2 : snd m' == snd m) by (unfold m, m', mid, along; cbn [fst snd]; field).
  unfold orient. now rewrite Q1, Q2.
Qed.

(** ** Rotations, scalings, translations and reflections *)

Section Move.
(** [g] is 1, or -1 for a reflection. *)
Variables p q s t g : Q.
Hypothesis Hg : g * g == 1.
Hypothesis Hk : ~ (p == 0 /\ q == 0).

Definition mv (x : point) : point := (p * fst x - g * q * snd x + s, q * fst x + g * p * snd x + t).
Let k := p * p + q * q.
Definition back (x : point) : point :=
  ((p * (fst x - s) + q * (snd x - t)) / k, g * (p * (snd x - t) - q * (fst x - s)) / k).

Lemma sq_nonneg x : 0 <= x * x.
Proof.
  destruct (Qlt_le_dec x 0) as [H|H].
  - setoid_replace (x * x) with ((- x) * (- x)) by ring. apply Qmult_le_0_compat; lra.
  - now apply Qmult_le_0_compat.
Qed.

Lemma sq_zero x : x * x <= 0 -> x == 0.
Proof.
  intros H. destruct (Qeq_dec x 0) as [|N0]; [assumption|exfalso].
  pose proof (sq_nonneg x). assert (E : x * x == 0) by lra. apply Qmult_integral in E. tauto.
Qed.

Lemma k_pos : 0 < k.
Proof.
  unfold k. pose proof (sq_nonneg p). pose proof (sq_nonneg q).
  destruct (Qlt_le_dec 0 (p * p + q * q)) as [|L]; [assumption|exfalso]. apply Hk. split; apply sq_zero; lra.
Qed.

Lemma mv_orient a b c : orient (mv a) (mv b) (mv c) == g * k * orient a b c.
Proof. unfold orient, mv, k. cbn [fst snd]. ring. Qed.

Lemma mv_sqdist a b : sqdist (mv a) (mv b) == k * sqdist a b.
Proof.
  unfold sqdist, mv, k. cbn [fst snd].
  transitivity ((p * p + q * q) * ((fst a - fst b) * (fst a - fst b)) + (g * g) * ((p * p + q * q) * ((snd a - snd b) * (snd a - snd b)))).
  - ring.
  - rewrite Hg. ring.
Qed.

Lemma mv_back x : same_place (mv (back x)) x.
Proof.
  pose proof k_pos as K. assert (K0 : ~ k == 0) by lra. unfold mv, back. cbn [fst snd]. split; cbn [fst snd].
  - transitivity ((p * (p * (fst x - s) + q * (snd x - t)) - (g * g) * (q * (p * (snd x - t) - q * (fst x - s)))) / k + s); [field; exact K0|].
    rewrite Hg. unfold k in *. field. exact K0.
  - transitivity ((q * (p * (fst x - s) + q * (snd x - t)) + (g * g) * (p * (p * (snd x - t) - q * (fst x - s)))) / k + t); [field; exact K0|].
    rewrite Hg. unfold k in *. field. exact K0.
Qed.

Lemma mv_same a b : same_place a b -> same_place (mv a) (mv b).
Proof. intros (A & B). unfold mv. split; cbn [fst snd]; now rewrite A, B. Qed.

Lemma mv_inj a b : same_place (mv a) (mv b) -> same_place a b.
Proof.
  intros (A & B). assert (D0 : sqdist (mv a) (mv b) == 0) by (unfold sqdist; rewrite A, B; ring).
  rewrite mv_sqdist in D0. pose proof k_pos as K. apply Qmult_integral in D0. destruct D0 as [D0|D0]; [lra|].
  unfold sqdist in D0. pose proof (sq_nonneg (fst a - fst b)). pose proof (sq_nonneg (snd a - snd b)).
  assert (X : fst a - fst b == 0) by (apply sq_zero; lra). assert (Y : snd a - snd b == 0) by (apply sq_zero; lra).
  split; lra.
Qed.

Lemma sqdist_same a b a' b' : same_place a a' -> same_place b b' -> sqdist a b == sqdist a' b'.
Proof. intros (A & A') (B & B'). unfold sqdist. now rewrite A, A', B, B'. Qed.

Lemma mv_sqdist_back o a : sqdist o (mv a) == k * sqdist (back o) a.
Proof.
  rewrite <- mv_sqdist. apply sqdist_same; [|apply same_refl]. apply same_place_sym, mv_back.
Qed.

Lemma k_lt x y : k * x < k * y <-> x < y.
Proof.
  pose proof k_pos as K. rewrite Qmult_comm, (Qmult_comm k y). now apply Qmult_lt_r.
Qed.

Lemma k_eq x y : k * x == k * y <-> x == y.
Proof.
  pose proof k_pos as K. split; [|intros ->; reflexivity]. intros H. apply (Qmult_inj_l x y k); [lra|exact H].
Qed.

Lemma mv_circle a b c v : in_circumcircle (mv a) (mv b) (mv c) (mv v) <-> in_circumcircle a b c v.
Proof.
  split; intros (o & O1 & O2 & O3).
  - exists (back o). rewrite !mv_sqdist_back in *. rewrite k_eq in O1, O2. rewrite k_lt in O3. auto.
  - exists (mv o). rewrite !mv_sqdist. rewrite O1, O2. rewrite O1, O2 in O3. rewrite k_lt. repeat split; auto; reflexivity.
Qed.

Lemma mv_on a b c v : on_circumcircle (mv a) (mv b) (mv c) (mv v) -> on_circumcircle a b c v.
Proof.
  intros (o & O1 & O2 & O3). exists (back o). rewrite !mv_sqdist_back in *. rewrite k_eq in O1, O2, O3. auto.
Qed.

Lemma mv_general at_ n : no_empty_circle_of_four at_ n -> no_empty_circle_of_four (fun v => mv (at_ v)) n.
Proof.
  intros Gp a b c d La Lb Lc Ld Or Na Nb Nc Oc.
  destruct (Gp a b c d La Lb Lc Ld) as (v & Lv & K).
  - intros Z. apply Or. rewrite mv_orient, Z. ring.
  - intros F. apply Na, mv_same, F.
  - intros F. apply Nb, mv_same, F.
  - intros F. apply Nc, mv_same, F.
  - now apply mv_on.
  - exists v. split; [exact Lv|]. now apply (proj2 (mv_circle _ _ _ _)).
Qed.

(** The corners are listed in the opposite order after a reflection. *)
Definition mvt (x : N * N * N) : N * N * N := if Qle_bool 0 g then x else reversed x.

Lemma g_cases : g == 1 /\ Qle_bool 0 g = true \/ g == -1 /\ Qle_bool 0 g = false.
Proof.
  assert (K : (g - 1) * (g + 1) == 0) by (setoid_replace ((g - 1) * (g + 1)) with (g * g - 1) by ring; rewrite Hg; reflexivity).
  apply Qmult_integral in K. destruct K as [K|K].
  - left. split; [lra|]. apply Qle_bool_iff. lra.
  - right. split; [lra|]. destruct (Qle_bool 0 g) eqn:Z; auto. apply Qle_bool_iff in Z. lra.
Qed.

Lemma neg_k x : g == 1 -> (g * k * x < 0 <-> x < 0).
Proof.
  intros G1. pose proof (k_lt x 0) as K. rewrite Qmult_0_r in K. rewrite G1. rewrite <- K.
  setoid_replace (1 * k * x) with (k * x) by ring. reflexivity.
Qed.

Lemma pos_k x : g == -1 -> (g * k * x < 0 <-> 0 < x).
Proof.
  intros G1. pose proof (k_lt 0 x) as K. rewrite Qmult_0_r in K. rewrite G1. rewrite <- K.
  setoid_replace (-1 * k * x) with (- (k * x)) by ring. split; lra.
Qed.

Lemma swap_orient a b c : orient b a c == - orient a b c.
Proof. unfold orient. ring. Qed.

Lemma mv_clockwise at_ x : tri_clockwise at_ x <-> tri_clockwise (fun v => mv (at_ v)) (mvt x).
Proof.
  destruct x as ((a, b), c). unfold mvt. destruct g_cases as [(G1 & ->)|(G1 & ->)]; cbn [tri_clockwise reversed]; unfold clockwise.
  - rewrite mv_orient, (neg_k _ G1). reflexivity.
  - rewrite mv_orient, (pos_k _ G1). setoid_replace (orient (at_ a) (at_ c) (at_ b)) with (- orient (at_ a) (at_ b) (at_ c)) by (unfold orient; ring).
    split; lra.
Qed.

Lemma mv_inside at_ x y : tri_inside at_ x y <-> tri_inside (fun v => mv (at_ v)) (mvt x) (mv y).
Proof.
  destruct x as ((a, b), c). unfold mvt. destruct g_cases as [(G1 & ->)|(G1 & ->)]; cbn [tri_inside reversed]; unfold strictly_inside.
  - rewrite !mv_orient, !(neg_k _ G1). reflexivity.
  - rewrite !mv_orient, !(pos_k _ G1).
    rewrite (swap_orient (at_ c) (at_ a)), (swap_orient (at_ b) (at_ c)), (swap_orient (at_ a) (at_ b)). split; intros (A & B & C); repeat split; lra.
Qed.

Lemma mv_covers at_ x y : tri_inside_or_on at_ x y <-> tri_inside_or_on (fun v => mv (at_ v)) (mvt x) (mv y).
Proof.
  pose proof (fun z G1 => neg_k (- z) G1) as NK. pose proof (fun z G1 => pos_k (- z) G1) as PK.
  assert (N1 : forall z, g == 1 -> (g * k * z <= 0 <-> z <= 0)).
  { intros z G1. specialize (NK z G1). setoid_replace (g * k * - z) with (- (g * k * z)) in NK by ring.
    split; intros H; apply Qnot_lt_le; intros F; [assert (K : - (g * k * z) < 0) by (apply NK; lra)|assert (K : - z < 0) by (apply NK; lra)]; lra. }
  assert (P1 : forall z, g == -1 -> (g * k * z <= 0 <-> 0 <= z)).
  { intros z G1. specialize (PK z G1). setoid_replace (g * k * - z) with (- (g * k * z)) in PK by ring.
    split; intros H; apply Qnot_lt_le; intros F; [assert (K : - (g * k * z) < 0) by (apply PK; lra)|assert (K : 0 < - z) by (apply PK; lra)]; lra. }
  destruct x as ((a, b), c). unfold mvt. destruct g_cases as [(G1 & ->)|(G1 & ->)]; cbn [tri_inside_or_on reversed]; unfold inside_or_on.
  - rewrite !mv_orient, !(N1 _ G1). reflexivity.
  - rewrite !mv_orient, !(P1 _ G1).
    rewrite (swap_orient (at_ c) (at_ a)), (swap_orient (at_ b) (at_ c)), (swap_orient (at_ a) (at_ b)). split; intros (A & B & C); repeat split; lra.
Qed.

Lemma inside_same at_ x y z : same_place y z -> tri_inside at_ x y -> tri_inside at_ x z.
Proof. destruct x as ((a, b), c). intros (A & B). cbn [tri_inside]. unfold strictly_inside, orient. now rewrite A, B. Qed.

Lemma covers_same at_ x y z : same_place y z -> tri_inside_or_on at_ x y -> tri_inside_or_on at_ x z.
Proof. destruct x as ((a, b), c). intros (A & B). cbn [tri_inside_or_on]. unfold inside_or_on, orient. now rewrite A, B. Qed.

Lemma mv_tiles at_ out : tiles at_ out -> tiles (fun v => mv (at_ v)) (map mvt out).
Proof.
  intros (W & V). split.
  - intros x Hx. apply in_map_iff in Hx. destruct Hx as (y & <- & Hy). apply (proj1 (mv_clockwise at_ y)). auto.
  - intros i j x y z Nij Ei Ej Ix Iy.
    rewrite nth_error_map in Ei, Ej.
    destruct (nth_error out i) as [u|] eqn:Eu; [|discriminate]. destruct (nth_error out j) as [w|] eqn:Ew; [|discriminate].
    injection Ei as <-. injection Ej as <-.
    apply (V i j u w (back z) Nij Eu Ew); apply (proj2 (mv_inside at_ _ _)); refine (inside_same _ _ _ _ (same_place_sym _ _ (mv_back z)) _); assumption.
Qed.

Lemma mv_covered at_ out y : covered (fun v => mv (at_ v)) (map mvt out) y <-> covered at_ out (back y).
Proof.
  split.
  - intros (x & Hx & K). apply in_map_iff in Hx. destruct Hx as (u & <- & Hu). exists u. split; [exact Hu|].
    apply mv_covers. exact (covers_same _ _ _ _ (same_place_sym _ _ (mv_back y)) K).
  - intros (x & Hx & K). exists (mvt x). split; [now apply in_map|]. apply (mv_covers at_) in K.
    exact (covers_same _ _ _ _ (mv_back y) K).
Qed.

Lemma mv_delaunay at_ n out : delaunay at_ n out -> delaunay (fun v => mv (at_ v)) n (map mvt out).
Proof.
  intros Dl a b c v Ht Hv K. apply in_map_iff in Ht. destruct Ht as (((x, y), z) & Q & Hx).
  apply (proj1 (mv_circle _ _ _ _)) in K. unfold mvt in Q. destruct (Qle_bool 0 g); cbn [reversed] in Q; injection Q as <- <- <-.
  - exact (Dl _ _ _ _ Hx Hv K).
  - apply (Dl _ _ _ _ Hx Hv). destruct K as (o & O1 & O2 & O3). exists o. repeat split; lra.
Qed.

Lemma mv_ids out n : (forall a b c, In (a, b, c) out -> (a < n /\ b < n /\ c < n)%N) ->
  forall a b c, In (a, b, c) (map mvt out) -> (a < n /\ b < n /\ c < n)%N.
Proof.
  intros H a b c Ht. apply in_map_iff in Ht. destruct Ht as (((x, y), z) & Q & Hx). apply H in Hx.
  unfold mvt in Q. destruct (Qle_bool 0 g); cbn [reversed] in Q; injection Q as <- <- <-; tauto.
Qed.

(** An affine function that is not negative at the corners of a box is not negative in it. *)
Lemma affine_box x0 x1 y0 y1 (u v w : Q) x y : x0 <= x <= x1 -> y0 <= y <= y1 ->
  0 <= u * x0 + v * y0 + w -> 0 <= u * x1 + v * y0 + w -> 0 <= u * x1 + v * y1 + w -> 0 <= u * x0 + v * y1 + w ->
  0 <= u * x + v * y + w.
Proof.
  intros (X0 & X1) (Y0 & Y1) A B C D.
  assert (H : forall (a b0 b1 b : Q), b0 <= b <= b1 -> a * b0 <= a * b \/ a * b1 <= a * b).
  { intros a b0 b1 b (B0 & B1). destruct (Qlt_le_dec a 0) as [L|L].
    - right. assert (K : 0 <= (- a) * (b1 - b)) by (apply Qmult_le_0_compat; lra). lra.
    - left. assert (K : 0 <= a * (b - b0)) by (apply Qmult_le_0_compat; lra). lra. }
  destruct (H u x0 x1 x (conj X0 X1)) as [U|U]; destruct (H v y0 y1 y (conj Y0 Y1)) as [V|V]; lra.
Qed.

(** A box that contains the corners of another one contains it. *)
Lemma back_box at1 at2 n1 n2 (a c a' b' c' d' : N) : same_points (fun v => mv (at1 v)) at2 n1 n2 ->
  (forall v, (v < n1)%N -> in_box (at1 a) (at1 c) (at1 v)) ->
  (a' < n2)%N -> (b' < n2)%N -> (c' < n2)%N -> (d' < n2)%N -> box_corners (at2 a') (at2 b') (at2 c') (at2 d') ->
  forall y, in_box (at2 a') (at2 c') y -> in_box (at1 a) (at1 c) (back y).
Proof.
  intros (_ & S2) B1 La Lb Lc Ld (X1 & X2 & X3 & X4 & X5 & X6) y (Y1 & Y2).
  assert (H : forall w, (w < n2)%N -> in_box (at1 a) (at1 c) (back (at2 w))).
  { intros w Lw. destruct (S2 w Lw) as (v & Lv & Sm). pose proof (B1 v Lv) as K.
    assert (Q1 : same_place (back (at2 w)) (at1 v)).
    { apply mv_inj. exact (same_place_trans _ _ _ (mv_back _) (same_place_sym _ _ Sm)). }
    destruct Q1 as (Q1 & Q2). unfold in_box in *. now rewrite Q1, Q2. }
  pose proof (H a' La) as Ha. pose proof (H b' Lb) as Hb. pose proof (H c' Lc) as Hc. pose proof (H d' Ld) as Hd. clear H.
  pose proof k_pos as K. assert (K0 : ~ k == 0) by lra.
  assert (F1 : forall z, fst (back z) == p / k * fst z + q / k * snd z + (- (p * s + q * t) / k)) by (intros z; unfold back; cbn [fst snd]; field; exact K0).
  assert (F2 : forall z, snd (back z) == - (g * q / k) * fst z + g * p / k * snd z + (g * (q * s - p * t) / k)) by (intros z; unfold back; cbn [fst snd]; field; exact K0).
  unfold in_box in *. rewrite !F1, !F2 in *. clear F1 F2.
  rewrite X2, X3 in *. rewrite X5, X6 in *.
  revert Ha Hb Hc Hd. generalize (p / k) (q / k) (- (p * s + q * t) / k) (- (g * q / k)) (g * p / k) (g * (q * s - p * t) / k).
  intros u1 v1 w1 u2 v2 w2 ((A1 & A2) & A3 & A4) ((C1 & C2) & C3 & C4) ((D1 & D2) & D3 & D4) ((H1 & H2) & H3 & H4).
  pose proof (affine_box _ _ _ _ u1 v1 (w1 - fst (at1 a)) (fst y) (snd y) Y1 Y2) as R1.
  pose proof (affine_box _ _ _ _ (- u1) (- v1) (fst (at1 c) - w1) (fst y) (snd y) Y1 Y2) as R2.
  pose proof (affine_box _ _ _ _ u2 v2 (w2 - snd (at1 a)) (fst y) (snd y) Y1 Y2) as R3.
  pose proof (affine_box _ _ _ _ (- u2) (- v2) (snd (at1 c) - w2) (fst y) (snd y) Y1 Y2) as R4.
  repeat split; [assert (0 <= u1 * fst y + v1 * snd y + (w1 - fst (at1 a))) by (apply R1; lra)
    |assert (0 <= - u1 * fst y + - v1 * snd y + (fst (at1 c) - w1)) by (apply R2; lra)
    |assert (0 <= u2 * fst y + v2 * snd y + (w2 - snd (at1 a))) by (apply R3; lra)
    |assert (0 <= - u2 * fst y + - v2 * snd y + (snd (at1 c) - w2)) by (apply R4; lra)]; lra.
Qed.
End Move.

(** ** The inputs of [InputSpec.v] *)
Local Open Scope N_scope.

Lemma grid_exactly (E : Env) (vs : list vertex) at_ bound fuel bins out : exact_input vs at_ bound -> 2 * lenN vs + 2 <= idmax ->
  (4 * length vs + 12 <= fuel)%nat -> no_empty_circle_of_four at_ (lenN vs) ->
  triangulation_from_2d_vertices fuel bins vs = Ret out -> delaunay at_ (lenN vs) out ->
  (forall v, v < lenN vs -> covered at_ out (at_ v)) -> convex_area at_ out ->
  forall a b c, a < lenN vs -> b < lenN vs -> c < lenN vs -> clockwise (at_ a) (at_ b) (at_ c) ->
    (triangle_at at_ out a b c <-> empty_circle at_ (lenN vs) a b c).
Proof.
  intros G Hid Hf Gp R Dl Cv Cx a b c La Lb Lc Cw. split; [now apply listed_empty|].
  destruct (grid_valid vs at_ bound G Hid fuel bins out Hf R) as (V & _).
  apply empty_listed; auto.
  - apply (vm_clockwise _ _ _ V).
  - apply (proj1 (dt_ids fuel bins vs out ltac:(lia) R)).
  - apply (mid_covered at_ (lenN vs)); auto.
Qed.

Lemma box_out (E : Env) (vs : list vertex) at_ bound fuel n a b c d : exact_input vs at_ bound -> 2 * lenN vs + 2 <= idmax ->
  (4 * length vs + 12 <= fuel)%nat -> (1 <= bound)%Z ->
  lenN vs = n + 4 -> Permutation [a; b; c; d] [n; n + 1; n + 2; n + 3] -> box_corners (at_ a) (at_ b) (at_ c) (at_ d) ->
  (forall v, v < n -> in_box (at_ a) (at_ c) (at_ v)) ->
  exists out, triangulation_from_2d_vertices fuel 1 vs = Ret out /\
    (forall p, covered at_ out p <-> in_box (at_ a) (at_ c) p) /\ delaunay at_ (lenN vs) out.
Proof.
  intros G Hi Hf Hb L P B Hin. pair_input G.
  destruct (grid_box_last vs _ _ bound G Hi fuel n a b c d Hf Hb L P B Hin) as (out & R & C & Dl).
  exists out. split; [exact R|split; [exact C|]]. intros x y z v Ht Hv. apply Dl; [now left|exact Hv].
Qed.

Lemma in_box_convex a c p q s : in_box a c p -> in_box a c q -> (0 <= s <= 1)%Q -> in_box a c (along p q s).
Proof.
  intros ((A1 & A2) & A3 & A4) ((B1 & B2) & B3 & B4) (S1 & S2). unfold in_box, along. cbn [fst snd].
  assert (H : forall l u x y : Q, (l <= x -> l <= y -> x <= u -> y <= u -> l <= x + s * (y - x) <= u)%Q).
  { intros l u x y X1 Y1 X2 Y2.
    assert (K1 : (0 <= (1 - s) * (x - l))%Q) by (apply Qmult_le_0_compat; lra).
    assert (K2 : (0 <= s * (y - l))%Q) by (apply Qmult_le_0_compat; lra).
    assert (K3 : (0 <= (1 - s) * (u - x))%Q) by (apply Qmult_le_0_compat; lra).
    assert (K4 : (0 <= s * (u - y))%Q) by (apply Qmult_le_0_compat; lra). split; lra. }
  split; apply H; auto.
Qed.

Lemma grid_box_exactly (E : Env) (vs : list vertex) at_ bound fuel n a b c d : exact_input vs at_ bound -> 2 * lenN vs + 2 <= idmax ->
  (4 * length vs + 12 <= fuel)%nat -> (1 <= bound)%Z ->
  lenN vs = n + 4 -> Permutation [a; b; c; d] [n; n + 1; n + 2; n + 3] -> box_corners (at_ a) (at_ b) (at_ c) (at_ d) ->
  (forall v, v < n -> in_box (at_ a) (at_ c) (at_ v)) -> no_empty_circle_of_four at_ (lenN vs) ->
  exists out, triangulation_from_2d_vertices fuel 1 vs = Ret out /\
    forall x y z, x < lenN vs -> y < lenN vs -> z < lenN vs -> clockwise (at_ x) (at_ y) (at_ z) ->
      (triangle_at at_ out x y z <-> empty_circle at_ (lenN vs) x y z).
Proof.
  intros G Hi Hf Hb L P B Hin Gp.
  destruct (box_out E vs at_ bound fuel n a b c d G Hi Hf Hb L P B Hin) as (out & R & C & Dl).
  exists out. split; [exact R|]. destruct (box_all at_ n a b c d P B Hin) as (_ & All). rewrite <- L in All.
  apply (grid_exactly E vs at_ bound fuel 1 out G Hi Hf Gp R Dl).
  - intros v Hv. apply C. auto.
  - intros x y s Hx Hy Hs. apply C in Hx, Hy. apply C. now apply in_box_convex.
Qed.

Lemma same_points_ext at1 at1' at2 n1 n2 : (forall v, same_place (at1 v) (at1' v)) -> same_points at1 at2 n1 n2 -> same_points at1' at2 n1 n2.
Proof.
  intros X (A & B). split; intros v Hv.
  - destruct (A v Hv) as (w & Lw & Q). exists w. split; [exact Lw|]. exact (same_place_trans _ _ _ (same_place_sym _ _ (X v)) Q).
  - destruct (B v Hv) as (w & Lw & Q). exists w. split; [exact Lw|]. exact (same_place_trans _ _ _ (same_place_sym _ _ (X w)) Q).
Qed.

Lemma same_triangles_ext at1 at1' at2 out1 out2 : (forall v, same_place (at1 v) (at1' v)) ->
  same_triangles at1 at2 out1 out2 -> same_triangles at1' at2 out1 out2.
Proof.
  intros X (A & B & C).
  assert (H : forall s t, same_triangle at1 at2 s t -> same_triangle at1' at2 s t).
  { intros ((a, b), c) ((x, y), z). cbn [same_triangle]. pose proof (fun v w => same_place_trans _ _ w (same_place_sym _ _ (X v))) as K.
    intros [(S1 & S2 & S3)|[(S1 & S2 & S3)|(S1 & S2 & S3)]]; [left|right; left|right; right]; auto. }
  split; [|split; [|exact C]].
  - intros s Hs. destruct (A s Hs) as (t & Ht & S). eauto.
  - intros t Ht. destruct (B t Ht) as (s & Hs & S). eauto.
Qed.

Section Inputs.
Variables E1 E2 : Env.
Variables (vs1 : list (@vertex E1)) (vs2 : list (@vertex E2)) (at1 at2 : N -> point) (bound1 bound2 : Z).
Hypothesis G1 : exact_input (E := E1) vs1 at1 bound1.
Hypothesis G2 : exact_input (E := E2) vs2 at2 bound2.
Hypothesis Hid1 : 2 * lenN vs1 + 2 <= @idmax E1.
Hypothesis Hid2 : 2 * lenN vs2 + 2 <= @idmax E2.
Variables (fuel1 fuel2 : nat).
Hypothesis Hf1 : (4 * length vs1 + 12 <= fuel1)%nat.
Hypothesis Hf2 : (4 * length vs2 + 12 <= fuel2)%nat.
Variables p q s t g : Q.
Hypothesis Hg : (g * g == 1)%Q.
Hypothesis Hk : ~ (p == 0 /\ q == 0)%Q.
Hypothesis Sp : same_points (fun v => mv p q s t g (at1 v)) at2 (lenN vs1) (lenN vs2).
Hypothesis Gp : no_empty_circle_of_four at1 (lenN vs1).

Lemma grid_moved bins1 bins2 out1 out2 :
  triangulation_from_2d_vertices (E := E1) fuel1 bins1 vs1 = Ret out1 ->
  triangulation_from_2d_vertices (E := E2) fuel2 bins2 vs2 = Ret out2 ->
  delaunay at1 (lenN vs1) out1 -> delaunay at2 (lenN vs2) out2 ->
  (forall x, covered at1 out1 (back p q s t g x) <-> covered at2 out2 x) ->
  same_triangles (fun v => mv p q s t g (at1 v)) at2 (map (mvt g) out1) out2.
Proof.
  intros R1 R2 D1 D2 Cv.
  destruct (grid_valid vs1 at1 bound1 G1 Hid1 fuel1 bins1 out1 Hf1 R1) as (V1 & _).
  destruct (grid_valid vs2 at2 bound2 G2 Hid2 fuel2 bins2 out2 Hf2 R2) as (V2 & _).
  apply (delaunay_unique _ at2 (lenN vs1) (lenN vs2) (map (mvt g) out1) out2 Sp).
  - now apply mv_general.
  - apply mv_tiles; auto. exact (valid_tiles _ _ _ V1).
  - exact (valid_tiles _ _ _ V2).
  - apply (mv_ids p q g Hk). apply (proj1 (dt_ids (E := E1) fuel1 bins1 vs1 out1 ltac:(lia) R1)).
  - apply (proj1 (dt_ids (E := E2) fuel2 bins2 vs2 out2 ltac:(lia) R2)).
  - now apply mv_delaunay.
  - exact D2.
  - intros x. rewrite mv_covered; auto.
Qed.

Variables (n1 n2 a b c d a' b' c' d' : N).
Hypothesis Hb1 : (1 <= bound1)%Z.
Hypothesis Hb2 : (1 <= bound2)%Z.
Hypothesis L1 : lenN vs1 = n1 + 4.
Hypothesis P1 : Permutation [a; b; c; d] [n1; n1 + 1; n1 + 2; n1 + 3].
Hypothesis B1 : box_corners (at1 a) (at1 b) (at1 c) (at1 d).
Hypothesis N1 : forall v, v < n1 -> in_box (at1 a) (at1 c) (at1 v).
Hypothesis L2 : lenN vs2 = n2 + 4.
Hypothesis P2 : Permutation [a'; b'; c'; d'] [n2; n2 + 1; n2 + 2; n2 + 3].
Hypothesis B2 : box_corners (at2 a') (at2 b') (at2 c') (at2 d').
Hypothesis N2 : forall v, v < n2 -> in_box (at2 a') (at2 c') (at2 v).

(** The first box after the motion is in the second one. *)
Lemma mv_box x : in_box (at1 a) (at1 c) x -> in_box (at2 a') (at2 c') (mv p q s t g x).
Proof.
  destruct (box_all at1 n1 a b c d P1 B1 N1) as ((La & Lb & Lc & Ld) & _). rewrite <- L1 in *.
  destruct (box_all at2 n2 a' b' c' d' P2 B2 N2) as (_ & A2). rewrite <- L2 in A2.
  destruct Sp as (S1 & _). destruct B1 as (X1 & X2 & X3 & X4 & X5 & X6). intros (Y1 & Y2).
  assert (H : forall w, w < lenN vs1 -> in_box (at2 a') (at2 c') (mv p q s t g (at1 w))).
  { intros w Lw. destruct (S1 w Lw) as (v & Lv & Q1 & Q2). pose proof (A2 v Lv) as K. unfold in_box in *. now rewrite Q1, Q2. }
  pose proof (H a La) as Ha. pose proof (H b Lb) as Hb. pose proof (H c Lc) as Hc. pose proof (H d Ld) as Hd. clear H.
  unfold in_box, mv in *. cbn [fst snd] in *. rewrite X2, X3 in *. rewrite X5, X6 in *.
  destruct Ha as ((H1 & H2) & H3 & H4), Hb as ((H5 & H6) & H7 & H8), Hc as ((H9 & H10) & H11 & H12), Hd as ((H13 & H14) & H15 & H16).
  pose proof (affine_box _ _ _ _ p (- (g * q)) (s - fst (at2 a')) (fst x) (snd x) Y1 Y2) as R1.
  pose proof (affine_box _ _ _ _ (- p) (g * q) (fst (at2 c') - s) (fst x) (snd x) Y1 Y2) as R2.
  pose proof (affine_box _ _ _ _ q (g * p) (t - snd (at2 a')) (fst x) (snd x) Y1 Y2) as R3.
  pose proof (affine_box _ _ _ _ (- q) (- (g * p)) (snd (at2 c') - t) (fst x) (snd x) Y1 Y2) as R4.
  repeat split; [assert (0 <= p * fst x + - (g * q) * snd x + (s - fst (at2 a')))%Q by (apply R1; lra)
    |assert (0 <= - p * fst x + g * q * snd x + (fst (at2 c') - s))%Q by (apply R2; lra)
    |assert (0 <= q * fst x + g * p * snd x + (t - snd (at2 a')))%Q by (apply R3; lra)
    |assert (0 <= - q * fst x + - (g * p) * snd x + (snd (at2 c') - t))%Q by (apply R4; lra)]; lra.
Qed.

Lemma grid_box_moved : exists out1 out2, triangulation_from_2d_vertices (E := E1) fuel1 1 vs1 = Ret out1 /\
    triangulation_from_2d_vertices (E := E2) fuel2 1 vs2 = Ret out2 /\
    same_triangles (fun v => mv p q s t g (at1 v)) at2 (map (mvt g) out1) out2.
Proof.
  destruct (box_out E1 vs1 at1 bound1 fuel1 n1 a b c d G1 Hid1 Hf1 Hb1 L1 P1 B1 N1) as (out1 & R1 & C1 & D1).
  destruct (box_out E2 vs2 at2 bound2 fuel2 n2 a' b' c' d' G2 Hid2 Hf2 Hb2 L2 P2 B2 N2) as (out2 & R2 & C2 & D2).
  exists out1, out2. split; [exact R1|split; [exact R2|]]. apply (grid_moved 1 1 out1 out2 R1 R2 D1 D2).
  destruct (box_all at1 n1 a b c d P1 B1 N1) as (_ & A1).
  destruct (box_all at2 n2 a' b' c' d' P2 B2 N2) as ((La' & Lb' & Lc' & Ld') & _).
  rewrite <- L1 in *. rewrite <- L2 in *.
  intros x. rewrite C1, C2. split.
  - intros H. apply mv_box in H. destruct (mv_back p q s t g Hg Hk x) as (Q1 & Q2). unfold in_box in *. now rewrite <- Q1, <- Q2.
  - exact (back_box p q s t g Hg Hk at1 at2 _ _ a c a' b' c' d' Sp A1 La' Lb' Lc' Ld' B2 x).
Qed.
End Inputs.

Lemma moved_mv p q s t x : same_place (mv p q s t 1 x) (turned p q s t x).
Proof. unfold mv, turned. split; cbn [fst snd]; ring. Qed.

Lemma mirrored_mv p q s t x : same_place (mv p q s t (-1) x) (mirrored p q s t x).
Proof. unfold mv, mirrored. split; cbn [fst snd]; ring. Qed.

Section Boxed.
Variables E1 E2 : Env.
Variables (vs1 : list (@vertex E1)) (vs2 : list (@vertex E2)) (at1 at2 : N -> point) (bound1 bound2 : Z) (fuel1 fuel2 : nat).
Variables (n1 n2 a b c d a' b' c' d' : N).
Variables p q s t : Q.

Lemma grid_box_moved_only :
  exact_input (E := E1) vs1 at1 bound1 -> exact_input (E := E2) vs2 at2 bound2 ->
  2 * lenN vs1 + 2 <= @idmax E1 -> 2 * lenN vs2 + 2 <= @idmax E2 ->
  (4 * length vs1 + 12 <= fuel1)%nat -> (4 * length vs2 + 12 <= fuel2)%nat -> (1 <= bound1)%Z -> (1 <= bound2)%Z ->
  lenN vs1 = n1 + 4 -> Permutation [a; b; c; d] [n1; n1 + 1; n1 + 2; n1 + 3] ->
  box_corners (at1 a) (at1 b) (at1 c) (at1 d) -> (forall v, v < n1 -> in_box (at1 a) (at1 c) (at1 v)) ->
  lenN vs2 = n2 + 4 -> Permutation [a'; b'; c'; d'] [n2; n2 + 1; n2 + 2; n2 + 3] ->
  box_corners (at2 a') (at2 b') (at2 c') (at2 d') -> (forall v, v < n2 -> in_box (at2 a') (at2 c') (at2 v)) ->
  ~ (p == 0 /\ q == 0)%Q ->
  same_points (fun v => turned p q s t (at1 v)) at2 (lenN vs1) (lenN vs2) -> no_empty_circle_of_four at1 (lenN vs1) ->
  exists out1 out2, triangulation_from_2d_vertices (E := E1) fuel1 1 vs1 = Ret out1 /\
    triangulation_from_2d_vertices (E := E2) fuel2 1 vs2 = Ret out2 /\
    same_triangles (fun v => turned p q s t (at1 v)) at2 out1 out2.
Proof.
  intros G1 G2 I1 I2 F1 F2 Hb1 Hb2 L1 P1 B1 N1 L2 P2 B2 N2 Hk Sp Gp.
  apply (same_points_ext _ (fun v => mv p q s t 1 (at1 v))) in Sp; [|intros v; apply same_place_sym, moved_mv].
  destruct (grid_box_moved E1 E2 vs1 vs2 at1 at2 bound1 bound2 G1 G2 I1 I2 fuel1 fuel2 F1 F2 p q s t 1 ltac:(reflexivity) Hk Sp Gp
    n1 n2 a b c d a' b' c' d' Hb1 Hb2 L1 P1 B1 N1 L2 P2 B2 N2) as (out1 & out2 & R1 & R2 & S).
  exists out1, out2. split; [exact R1|split; [exact R2|]].
  replace (map (mvt 1) out1) with out1 in S by (symmetry; apply map_id).
  apply (same_triangles_ext _ (fun v => turned p q s t (at1 v))) in S; [exact S|intros v; apply moved_mv].
Qed.

Lemma grid_box_mirrored :
  exact_input (E := E1) vs1 at1 bound1 -> exact_input (E := E2) vs2 at2 bound2 ->
  2 * lenN vs1 + 2 <= @idmax E1 -> 2 * lenN vs2 + 2 <= @idmax E2 ->
  (4 * length vs1 + 12 <= fuel1)%nat -> (4 * length vs2 + 12 <= fuel2)%nat -> (1 <= bound1)%Z -> (1 <= bound2)%Z ->
  lenN vs1 = n1 + 4 -> Permutation [a; b; c; d] [n1; n1 + 1; n1 + 2; n1 + 3] ->
  box_corners (at1 a) (at1 b) (at1 c) (at1 d) -> (forall v, v < n1 -> in_box (at1 a) (at1 c) (at1 v)) ->
  lenN vs2 = n2 + 4 -> Permutation [a'; b'; c'; d'] [n2; n2 + 1; n2 + 2; n2 + 3] ->
  box_corners (at2 a') (at2 b') (at2 c') (at2 d') -> (forall v, v < n2 -> in_box (at2 a') (at2 c') (at2 v)) ->
  ~ (p == 0 /\ q == 0)%Q ->
  same_points (fun v => mirrored p q s t (at1 v)) at2 (lenN vs1) (lenN vs2) -> no_empty_circle_of_four at1 (lenN vs1) ->
  exists out1 out2, triangulation_from_2d_vertices (E := E1) fuel1 1 vs1 = Ret out1 /\
    triangulation_from_2d_vertices (E := E2) fuel2 1 vs2 = Ret out2 /\
    same_triangles (fun v => mirrored p q s t (at1 v)) at2 (map reversed out1) out2.
Proof.
  intros G1 G2 I1 I2 F1 F2 Hb1 Hb2 L1 P1 B1 N1 L2 P2 B2 N2 Hk Sp Gp.
  apply (same_points_ext _ (fun v => mv p q s t (-1) (at1 v))) in Sp; [|intros v; apply same_place_sym, mirrored_mv].
  destruct (grid_box_moved E1 E2 vs1 vs2 at1 at2 bound1 bound2 G1 G2 I1 I2 fuel1 fuel2 F1 F2 p q s t (-1) ltac:(reflexivity) Hk Sp Gp
    n1 n2 a b c d a' b' c' d' Hb1 Hb2 L1 P1 B1 N1 L2 P2 B2 N2) as (out1 & out2 & R1 & R2 & S).
  exists out1, out2. split; [exact R1|split; [exact R2|]].
  apply (same_triangles_ext _ (fun v => mirrored p q s t (at1 v))) in S; [exact S|intros v; apply mirrored_mv].
Qed.
End Boxed.
