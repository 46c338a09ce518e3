(** * Domain: a property of triangles that is constant across the edges which are not
    constrained is constant along the segments that meet no constraint. *)

From Coq Require Import NArith List Bool Lia QArith Lqa.
From Verif Require Import Base BaseFacts Arith Types Geom Mesh Exact MeshVerts MeshEdge CSwap CCross CPres CApply.
Import ListNotations.
Local Open Scope N_scope.

(** ** Affine functions on a segment *)
Section Affine.
Local Open Scope Q_scope.

Definition comb (p q : pt3) (s : Q) : pt3 := padd (pscale (1 - s) p) (pscale s q).

Lemma det_comb a b p q s : det a b (comb p q s) == (1 - s) * det a b p + s * det a b q.
Proof. unfold comb. now rewrite det_padd, !det_pscale. Qed.

Lemma hw_comb p q s : 0 < hw p -> 0 < hw q -> 0 <= s -> s <= 1 -> 0 < hw (comb p q s).
Proof. intros. unfold comb; cbn [hw padd pscale]. nra. Qed.

(** The zero of the affine function with values [f] at 0 and [g] at 1. *)
Definition root (f g : Q) : Q := f / (f - g).

Lemma root_zero f g : ~ f == g -> (1 - root f g) * f + root f g * g == 0.
Proof. intros H. unfold root. field. lra. Qed.

Lemma root_down f g s m : s <= m -> 0 < (1 - s) * f + s * g -> (1 - m) * f + m * g <= 0 ->
  s < m /\ s < root f g /\ root f g <= m.
Proof.
  intros Hsm Fs Fm.
  assert (Hne : ~ f == g) by (intros Q; rewrite Q in *; lra).
  pose proof (root_zero f g Hne) as R. set (r := root f g) in *.
  assert (Sm : s < m) by (destruct (Qlt_le_dec s m); auto; assert (s == m) as Q by lra; rewrite Q in Fs; lra).
  assert (Gd : g - f < 0).
  { destruct (Qlt_le_dec (g - f) 0); auto. exfalso.
    assert (0 <= (m - s) * (g - f)) by (apply Qmult_le_0_compat; lra). lra. }
  split; auto. split.
  - destruct (Qlt_le_dec s r); auto. exfalso.
    assert (0 <= (s - r) * (f - g)) by (apply Qmult_le_0_compat; lra). lra.
  - destruct (Qlt_le_dec m r); auto. exfalso.
    assert (0 < (r - m) * (f - g)) by (apply Qmul_pos; lra). lra.
Qed.

Lemma root_up f g m t : m <= t -> (1 - m) * f + m * g <= 0 -> 0 < (1 - t) * f + t * g ->
  m < t /\ m <= root f g /\ root f g < t.
Proof.
  intros Hmt Fm Ft.
  assert (Hne : ~ f == g) by (intros Q; rewrite Q in *; lra).
  pose proof (root_zero f g Hne) as R. set (r := root f g) in *.
  assert (Sm : m < t) by (destruct (Qlt_le_dec m t); auto; assert (m == t) as Q by lra; rewrite Q in Fm; lra).
  assert (Gd : 0 < g - f).
  { destruct (Qlt_le_dec 0 (g - f)); auto. exfalso.
    assert (0 <= (t - m) * (f - g)) by (apply Qmult_le_0_compat; lra). lra. }
  split; auto. split.
  - destruct (Qlt_le_dec r m); auto. exfalso.
    assert (0 < (m - r) * (g - f)) by (apply Qmul_pos; lra). lra.
  - destruct (Qlt_le_dec r t); auto. exfalso.
    assert (0 <= (r - t) * (g - f)) by (apply Qmult_le_0_compat; lra). lra.
Qed.

Definition between (s t r : Q) : bool :=
  (if Qlt_le_dec s r then true else false) && (if Qlt_le_dec r t then true else false).

Lemma between_iff s t r : between s t r = true <-> s < r /\ r < t.
Proof.
  unfold between. destruct (Qlt_le_dec s r), (Qlt_le_dec r t); cbn; split; intros; try discriminate; try lra; auto.
Qed.

Lemma filter_less {A} (f g : A -> bool) (l : list A) x :
  (forall y, f y = true -> g y = true) -> In x l -> f x = false -> g x = true ->
  (length (filter f l) < length (filter g l))%nat.
Proof.
  intros Hfg. induction l as [|y l IH]; intros Hx Fx Gx; [destruct Hx|].
  assert (Le : forall l, (length (filter f l) <= length (filter g l))%nat).
  { clear -Hfg. induction l as [|y l IH]; cbn [filter]; auto. destruct (f y) eqn:Fy; [rewrite (Hfg y Fy); cbn; lia|].
    destruct (g y); cbn; lia. }
  cbn [filter]. destruct Hx as [->|Hx].
  - rewrite Fx, Gx. specialize (Le l). cbn [length]. lia.
  - specialize (IH Hx Fx Gx). destruct (f y) eqn:Fy; [rewrite (Hfg y Fy); cbn [length]; lia|].
    destruct (g y); cbn [length]; lia.
Qed.

(** Induction over the points of a finite set inside an interval. *)
Lemma split_at (Z : list Q) (P : Q -> Q -> Prop) :
  (forall s t, 0 <= s -> s <= t -> t <= 1 -> (forall r, In r Z -> ~ (s < r /\ r < t)) -> P s t) ->
  (forall s r t, 0 <= s -> s < r -> r < t -> t <= 1 -> P s r -> P r t -> P s t) ->
  P 0 1.
Proof.
  intros Base Step.
  assert (K : forall n s t, (length (filter (between s t) Z) <= n)%nat -> 0 <= s -> s <= t -> t <= 1 -> P s t).
  { induction n as [|n IH]; intros s t Hn H0 Hst H1.
    - apply Base; auto. intros r Hr Q. apply between_iff in Q.
      assert (In r (filter (between s t) Z)) by (apply filter_In; auto).
      destruct (filter (between s t) Z); [contradiction|cbn in Hn; lia].
    - destruct (filter (between s t) Z) as [|r l] eqn:Ef.
      + apply IH; auto. rewrite Ef. cbn; lia.
      + assert (Hr : In r (filter (between s t) Z)) by (rewrite Ef; now left).
        apply filter_In in Hr. destruct Hr as (Hr & Bt). pose proof Bt as Bt'. apply between_iff in Bt'. destruct Bt' as (B1 & B2).
        assert (L : (length (filter (between s r) Z) < length (filter (between s t) Z))%nat).
        { apply (filter_less _ _ _ r); auto.
          - intros y Hy. apply between_iff in Hy. apply between_iff. lra.
          - destruct (between s r r) eqn:Q; auto. apply between_iff in Q. lra. }
        assert (L' : (length (filter (between r t) Z) < length (filter (between s t) Z))%nat).
        { apply (filter_less _ _ _ r); auto.
          - intros y Hy. apply between_iff in Hy. apply between_iff. lra.
          - destruct (between r t r) eqn:Q; auto. apply between_iff in Q. lra. }
        rewrite Ef in L, L'. cbn [length] in *.
        apply (Step s r t); auto; apply IH; try lra; lia. }
  apply (K (length (filter (between 0 1) Z))); lra || lia.
Qed.

(** A small enough weight keeps the negative values negative. *)
Lemma small_neg (l : list (Q * Q)) :
  exists d, 0 < d /\ forall xy, In xy l -> fst xy < 0 -> fst xy + d * snd xy < 0.
Proof.
  destruct (small_delta (filter (fun xy => if Qlt_le_dec (fst xy) 0 then true else false) l)) as (d & Hd & H).
  { intros xy Hx. apply filter_In in Hx. destruct Hx as (_ & Hx). destruct (Qlt_le_dec (fst xy) 0); auto; discriminate. }
  exists d. split; auto. intros xy Hx Hn. apply H; auto; [lra|]. apply filter_In. split; auto.
  destruct (Qlt_le_dec (fst xy) 0); auto; lra.
Qed.
End Affine.

Section WithEnv.
Context {E : Env}.
Variables px py : N -> Q.
Notation pos := (hpos px py).
Notation D a b c := (det (pos a) (pos b) (pos c)).
Notation onseg a b := (onseg px py a b).
Variable ts : list tri.
Hypothesis M : Mesh pos ts.
Hypothesis J : PosInj px py ts.

(** Inside, on one edge, or at a corner. *)
Lemma closed_cases i p : (0 < hw p)%Q -> inC pos ts i p ->
  inT pos ts i p \/
  (exists u v c x y z, view ts i u v c x y z /\
     (det (pos u) (pos v) p == 0)%Q /\ (det (pos v) (pos c) p < 0)%Q /\ (det (pos c) (pos u) p < 0)%Q) \/
  (exists w b c x y z l, view ts i w b c x y z /\ is_finite w = true /\ (0 < l)%Q /\ peq p (pscale l (pos w))).
Proof.
  intros Hw (a & b & c & x & y & z & V & C1 & C2 & C3).
  assert (Two : forall a b c x y z, view ts i a b c x y z -> (det (pos a) (pos b) p == 0)%Q -> (det (pos c) (pos a) p == 0)%Q ->
    exists w b c x y z l, view ts i w b c x y z /\ is_finite w = true /\ (0 < l)%Q /\ peq p (pscale l (pos w))).
  { clear a b c x y z V C1 C2 C3. intros a b c x y z V Z1 Z2.
    pose proof (M_cw _ _ M _ _ _ _ _ _ _ V) as C.
    pose proof (cramer_w (pos a) (pos b) (pos c) p) as W.
    pose proof (cramer_x (pos a) (pos b) (pos c) p) as Wx.
    pose proof (cramer_y (pos a) (pos b) (pos c) p) as Wy.
    rewrite Z1, Z2 in W, Wx, Wy. set (k := D a b c) in *. set (q := det (pos b) (pos c) p) in *.
    assert (Nk : (~ k == 0)%Q) by lra.
    set (l := (q / k)%Q). assert (El : (q == l * k)%Q) by (unfold l; field; auto).
    rewrite El in W, Wx, Wy.
    assert (Pw : (hw p == l * hw (pos a))%Q) by (apply (Qmult_inj_l _ _ k); auto; lra).
    assert (Pq : (0 < l)%Q /\ is_finite a = true).
    { destruct (hw_cases px py a) as [(Fa & Ha)|(Fa & Ha)]; rewrite Ha in Pw; split; auto; lra. }
    exists a, b, c, x, y, z, l. split; auto. split; [tauto|]. split; [tauto|].
    split; [|split; auto]; cbn [pscale hx hy]; apply (Qmult_inj_l _ _ k); auto; lra. }
  destruct (Qlt_le_dec (det (pos a) (pos b) p) 0) as [H1|H1];
  destruct (Qlt_le_dec (det (pos b) (pos c) p) 0) as [H2|H2];
  destruct (Qlt_le_dec (det (pos c) (pos a) p) 0) as [H3|H3].
  - left. apply (inT_view _ _ _ _ _ _ _ _ _ _ V). now repeat split.
  - right; left. exists c, a, b, z, x, y. split; [now apply view_rot2|]. split; [lra|]. auto.
  - right; left. exists b, c, a, y, z, x. split; [now apply view_rot|]. split; [lra|]. auto.
  - right; right. apply (Two c a b z x y); [now apply view_rot2|lra|lra].
  - right; left. exists a, b, c, x, y, z. split; auto. split; [lra|]. auto.
  - right; right. apply (Two a b c x y z); [auto|lra|lra].
  - right; right. apply (Two b c a y z x); [now apply view_rot|lra|lra].
  - right; right. apply (Two b c a y z x); [now apply view_rot|lra|lra].
Qed.

(** A point between the ends of an edge. *)
Lemma edge_onseg i u v c x y z p : view ts i u v c x y z ->
  (det (pos u) (pos v) p == 0)%Q -> (det (pos v) (pos c) p < 0)%Q -> (det (pos c) (pos u) p < 0)%Q ->
  exists s t, (0 < s)%Q /\ (0 < t)%Q /\ peq p (onseg u v s t).
Proof.
  intros V Z1 Z2 Z3. pose proof (M_cw _ _ M _ _ _ _ _ _ _ V) as C.
  pose proof (cramer_w (pos u) (pos v) (pos c) p) as W.
  pose proof (cramer_x (pos u) (pos v) (pos c) p) as Wx.
  pose proof (cramer_y (pos u) (pos v) (pos c) p) as Wy.
  rewrite Z1 in W, Wx, Wy. set (k := D u v c) in *.
  set (q := det (pos v) (pos c) p) in *. set (r := det (pos c) (pos u) p) in *.
  assert (Nk : (~ k == 0)%Q) by lra.
  exists (q / k)%Q, (r / k)%Q.
  assert (Pos : forall f, (f < 0)%Q -> (0 < f / k)%Q).
  { intros f Hf. assert (Q : (f == f / k * k)%Q) by (field; auto). destruct (Qlt_le_dec 0 (f / k)); auto. exfalso.
    assert (0 <= (- (f / k)) * (- k))%Q by (apply Qmult_le_0_compat; lra). lra. }
  split; auto. split; auto.
  assert (K : forall f a b, (k * f == q * a + r * b)%Q -> (f == q / k * a + r / k * b)%Q).
  { intros f a b H. assert (Q : (f == k * f / k)%Q) by (field; auto). rewrite Q, H. field. auto. }
  unfold CCross.onseg. split; [|split]; cbn [padd pscale hx hy hw]; apply K; lra.
Qed.

(** A corner in a closed triangle is a corner of it. *)
Lemma vertex_corner i j w p l : corner ts j w -> is_finite w = true -> (0 < l)%Q -> peq p (pscale l (pos w)) ->
  inC pos ts i p -> corner ts i w.
Proof.
  intros Cj Fw Hl Hp (a & b & c & x & y & z & V & C1 & C2 & C3).
  assert (K : forall u v, (det (pos u) (pos v) p <= 0)%Q -> (D u v w <= 0)%Q).
  { intros u v H. rewrite Hp, det_pscale in H. destruct (Qlt_le_dec 0 (D u v w)); auto.
    assert (0 < l * D u v w)%Q by (apply Qmul_pos; auto). lra. }
  destruct (vertex_in_closed px py ts i a b c x y z j w M V Cj Fw) as (v & Hv & Fv & Sv).
  { split; [|split]; auto. }
  assert (Ci : corner ts i v).
  { destruct (view_he _ _ _ _ _ _ _ _ V) as (H1 & H2 & H3). destruct Hv as [->|[->| ->]]; eexists; eexists; eauto. }
  now rewrite <- (J i j v w Ci Cj Fv Fw Sv).
Qed.

(** ** Constancy *)
Variable K : N -> Prop.

Lemma path p q : (0 < hw p)%Q -> (0 < hw q)%Q ->
  (forall s, (0 <= s <= 1)%Q -> forall i j, inC pos ts i (comb p q s) -> inC pos ts j (comb p q s) -> K i -> K j) ->
  forall i j, inC pos ts i p -> inC pos ts j q -> K i -> K j.
Proof.
  intros Hp Hq L.
  set (Z := map (fun uv => root (det (pos (fst uv)) (pos (snd uv)) p) (det (pos (fst uv)) (pos (snd uv)) q)) (all_edges ts)).
  assert (P : forall i j, inC pos ts i (comb p q 0) -> inC pos ts j (comb p q 1) -> K i -> K j).
  { apply (split_at Z (fun s t => forall i j, inC pos ts i (comb p q s) -> inC pos ts j (comb p q t) -> K i -> K j)).
    - intros s t H0 Hst H1 Nz i j Hi Hj Ki.
      set (m := ((s + t) / 2)%Q). assert (Em : (m * 2 == s + t)%Q) by (unfold m; field).
      assert (Sm : (s <= m)%Q) by lra. assert (Mt : (m <= t)%Q) by lra.
      destruct (M_cover _ _ M (comb p q m)) as (k & Hk); [apply hw_comb; auto; lra|].
      assert (Hs : inC pos ts k (comb p q s) /\ inC pos ts k (comb p q t)).
      { destruct Hk as (a & b & c & x & y & z & V & C1 & C2 & C3).
        destruct (view_he _ _ _ _ _ _ _ _ V) as (E1 & E2 & E3).
        assert (F : forall u v n, he ts k u v n -> (det (pos u) (pos v) (comb p q m) <= 0)%Q ->
          (det (pos u) (pos v) (comb p q s) <= 0)%Q /\ (det (pos u) (pos v) (comb p q t) <= 0)%Q).
        { intros u v n He. rewrite !det_comb. set (f := det (pos u) (pos v) p). set (g := det (pos u) (pos v) q). intros Hm.
          assert (Hr : In (root f g) Z).
          { unfold Z. apply in_map_iff. exists (u, v). split; auto. eapply he_all_edges; eauto. }
          split; apply Qnot_lt_le; intros Hlt.
          - destruct (root_down f g s m Sm Hlt Hm) as (A & B & C). apply (Nz _ Hr). lra.
          - destruct (root_up f g m t Mt Hm Hlt) as (A & B & C). apply (Nz _ Hr). lra. }
        destruct (F _ _ _ E1 C1). destruct (F _ _ _ E2 C2). destruct (F _ _ _ E3 C3).
        split; apply (inC_view _ _ _ _ _ _ _ _ _ _ V); repeat split; auto. }
      apply (L t) with (i := k); auto; [lra|tauto|]. apply (L s) with (i := i); auto; [lra|tauto].
    - intros s r t H0 Hsr Hrt H1 A B i j Hi Hj Ki.
      destruct (M_cover _ _ M (comb p q r)) as (k & Hk); [apply hw_comb; auto; lra|].
      apply (B k j); auto. apply (A i k); auto. }
  assert (Ends : forall i, (inC pos ts i p -> inC pos ts i (comb p q 0)) /\ (inC pos ts i q -> inC pos ts i (comb p q 1))).
  { intros i. split; intros (a & b & c & x & y & z & V & C1 & C2 & C3); apply (inC_view _ _ _ _ _ _ _ _ _ _ V);
      split; [|split| |split]; rewrite det_comb; lra. }
  intros i j Hi Hj. apply P; now apply Ends.
Qed.

(** The constrained edges, and what they do not separate. *)
Variable Cn : N -> N -> Prop.
Hypothesis K_step : forall i u v n, he ts i u v n -> n <> NONE -> ~ Cn u v -> K i -> K n.

Definition free (u v : N) : Prop := ~ Cn u v /\ ~ Cn v u.

Lemma edge_local i j u v c x y z p : view ts i u v c x y z -> (0 < hw p)%Q ->
  (det (pos u) (pos v) p == 0)%Q -> (det (pos v) (pos c) p < 0)%Q -> (det (pos c) (pos u) p < 0)%Q ->
  free u v -> inC pos ts j p -> (K i <-> K j).
Proof.
  intros V Hw Z1 Z2 Z3 (F1 & F2) Hj.
  destruct (view_he _ _ _ _ _ _ _ _ V) as (He & _).
  pose proof (edge_point_neighbor px py ts i u v c x y z p M V Hw Z1) as Nx.
  pose proof (glue_some _ _ M _ _ _ _ He Nx) as He'.
  destruct (edge_excl px py ts i u v c x y z p j M V Hw Z1 Z2 Z3 Hj) as [->| ->]; [tauto|].
  split.
  - apply (K_step i u v x); auto.
  - apply (K_step x v u i); auto. intros Q. pose proof (he_id _ _ M _ _ _ _ He). unfold NONE in Q. lia.
Qed.

(** The triangles around a corner. *)
Lemma fan w i j : is_finite w = true -> corner ts i w -> corner ts j w -> (forall u, free w u) -> K i -> K j.
Proof.
  intros Fw Ci Cj Fr.
  destruct (corner_view ts i w Ci) as (b & c & n1 & n2 & n3 & Vi).
  destruct (corner_view ts j w Cj) as (b' & c' & m1 & m2 & m3 & Vj).
  pose proof (M_cw _ _ M _ _ _ _ _ _ _ Vi) as Di. pose proof (M_cw _ _ M _ _ _ _ _ _ _ Vj) as Dj.
  pose proof (det_rot3 (pos w) (pos b) (pos c)) as (Ri1 & Ri2). pose proof (det_rot3 (pos w) (pos b') (pos c')) as (Rj1 & Rj2).
  (* directions into the two triangles *)
  set (xi := padd (pos b) (pos c)).
  assert (Xi : (det (pos w) (pos b) xi < 0)%Q /\ (det (pos c) (pos w) xi < 0)%Q).
  { unfold xi. rewrite !det_padd. destruct (det_zero (pos w) (pos b)) as (_ & _ & ->) || idtac.
    pose proof (det_baa (pos b) (pos w)). pose proof (det_aba (pos c) (pos w)). lra. }
  assert (Hxj : exists xj, (det (pos w) (pos b') xj < 0)%Q /\ (det (pos c') (pos w) xj < 0)%Q /\ (0 <= hw xj)%Q /\
     (~ det (pos w) xi xj == 0)%Q).
  { set (x0 := padd (pos b') (pos c')).
    pose proof (det_baa (pos b') (pos w)) as A1. pose proof (det_aba (pos c') (pos w)) as A2.
    pose proof (hw_nonneg px py b') as W1. pose proof (hw_nonneg px py c') as W2.
    destruct (Qeq_dec (det (pos w) xi x0) 0) as [Z|Z].
    2:{ exists x0. unfold x0 in *. rewrite !det_padd in *. cbn [padd hw]. repeat split; lra. }
    assert (Nz : (~ det (pos w) xi (pos b') == 0)%Q).
    { intros Zb. assert (Zc : (det (pos w) xi (pos c') == 0)%Q) by (unfold x0 in Z; rewrite det_padd in Z; lra).
      (* then xi is a multiple of w *)
      assert (Zb' : (det (pos w) (pos b') xi == 0)%Q) by (rewrite det_swap23; lra).
      assert (Zc' : (det (pos c') (pos w) xi == 0)%Q) by (rewrite <- det_cyc, <- det_cyc; rewrite <- Zc; unfold det; ring).
      pose proof (cramer (pos w) (pos b') (pos c') xi (pos w) (pos b)) as Cr.
      rewrite Zb', Zc' in Cr.
      pose proof (det_aba (pos w) (pos b)) as Q1. rewrite Q1 in Cr.
      assert ((D w b' c' * det (pos w) (pos b) xi == 0)%Q) by lra.
      assert (0 < D w b' c' * det (pos w) (pos b) xi)%Q by (apply mul_neg_neg; tauto). lra. }
    exists (padd x0 (pos b')). unfold x0. rewrite !det_padd. cbn [padd hw].
    repeat split; try lra. unfold x0 in Z. rewrite det_padd in Z. lra. }
  destruct Hxj as (xj & Xj1 & Xj2 & Wj & Nz).
  assert (Wi : (0 <= hw xi)%Q).
  { unfold xi; cbn [padd hw]. pose proof (hw_nonneg px py b). pose proof (hw_nonneg px py c). lra. }
  (* close enough to w *)
  set (g := fun (x : pt3) (uv : N * N) => (det (pos (fst uv)) (pos (snd uv)) (pos w), det (pos (fst uv)) (pos (snd uv)) x)%Q).
  set (h := fun (x : pt3) (uv : N * N) => (- det (pos (fst uv)) (pos (snd uv)) (pos w), - det (pos (fst uv)) (pos (snd uv)) x)%Q).
  destruct (small_neg (map (g xi) (all_edges ts) ++ map (h xi) (all_edges ts) ++ map (g xj) (all_edges ts) ++ map (h xj) (all_edges ts)))
    as (e & He & Sm).
  assert (Sg : forall u v k n x, he ts k u v n -> x = xi \/ x = xj ->
     ((D u v w < 0)%Q -> (D u v w + e * det (pos u) (pos v) x < 0)%Q) /\
     ((0 < D u v w)%Q -> (0 < D u v w + e * det (pos u) (pos v) x)%Q)).
  { intros u v k n x Hh Hx. apply he_all_edges in Hh. split; intros Hs.
    - specialize (Sm (g x (u, v))). cbn [g fst snd] in Sm. apply Sm; auto.
      rewrite !in_app_iff. destruct Hx as [->| ->]; [left|do 2 right; left]; now apply in_map.
    - specialize (Sm (h x (u, v))). cbn [h fst snd] in Sm. 
      assert (- D u v w + e * - det (pos u) (pos v) x < 0)%Q; [|lra]. apply Sm; [|lra].
      rewrite !in_app_iff. destruct Hx as [->| ->]; [right; left|do 3 right]; now apply in_map. }
  set (zi := toward (pos w) xi e). set (zj := toward (pos w) xj e).
  assert (Dz : forall u v s, (det u v (comb zi zj s) == (1 - s) * (det u v (pos w) + e * det u v xi) + s * (det u v (pos w) + e * det u v xj))%Q).
  { intros u v s. rewrite det_comb. unfold zi, zj. now rewrite !det_toward. }
  assert (Sz : forall u v k n s, he ts k u v n -> (0 <= s <= 1)%Q ->
     ((D u v w < 0)%Q -> (det (pos u) (pos v) (comb zi zj s) < 0)%Q) /\
     ((0 < D u v w)%Q -> (0 < det (pos u) (pos v) (comb zi zj s))%Q)).
  { intros u v k n s Hh Hs. rewrite Dz. destruct (Sg u v k n xi Hh (or_introl eq_refl)) as (A1 & A2).
    destruct (Sg u v k n xj Hh (or_intror eq_refl)) as (B1 & B2).
    set (f1 := (D u v w + e * det (pos u) (pos v) xi)%Q) in *. set (f2 := (D u v w + e * det (pos u) (pos v) xj)%Q) in *.
    split; intros Hd.
    - specialize (A1 Hd). specialize (B1 Hd).
      assert (0 <= (1 - s) * (- f1))%Q by (apply Qmult_le_0_compat; lra).
      assert (0 <= s * (- f2))%Q by (apply Qmult_le_0_compat; lra).
      destruct (Qlt_le_dec s 1) as [L1|L1]; [assert (0 < (1 - s) * (- f1))%Q by (apply Qmul_pos; lra); lra|].
      assert (s == 1)%Q as Q by lra. rewrite Q. lra.
    - specialize (A2 Hd). specialize (B2 Hd).
      assert (0 <= (1 - s) * f1)%Q by (apply Qmult_le_0_compat; lra).
      assert (0 <= s * f2)%Q by (apply Qmult_le_0_compat; lra).
      destruct (Qlt_le_dec s 1) as [L1|L1]; [assert (0 < (1 - s) * f1)%Q by (apply Qmul_pos; lra); lra|].
      assert (s == 1)%Q as Q by lra. rewrite Q. lra. }
  assert (Hwz : (0 < hw zi)%Q /\ (0 < hw zj)%Q).
  { unfold zi, zj, toward; cbn [hw]. rewrite (hw_fin px py w Fw).
    assert (0 <= e * hw xi)%Q by (apply Qmult_le_0_compat; lra).
    assert (0 <= e * hw xj)%Q by (apply Qmult_le_0_compat; lra). lra. }
  assert (Ti : forall k b c n1 n2 n3 x, view ts k w b c n1 n2 n3 -> x = xi \/ x = xj -> (det (pos w) (pos b) x < 0)%Q -> (det (pos c) (pos w) x < 0)%Q ->
    inC pos ts k (toward (pos w) x e)).
  { intros k b0 c0 k1 k2 k3 x V Hx G1 G2. pose proof (M_cw _ _ M _ _ _ _ _ _ _ V) as Dk.
    pose proof (det_rot3 (pos w) (pos b0) (pos c0)) as (R1 & R2).
    destruct (view_he _ _ _ _ _ _ _ _ V) as (_ & H2 & _).
    apply (inC_view _ _ _ _ _ _ _ _ _ _ V). 
    split; [|split]; rewrite det_toward.
    - pose proof (det_zero (pos w) (pos b0)) as (_ & Q & _). rewrite Q.
      assert (0 < e * (- det (pos w) (pos b0) x))%Q by (apply Qmul_pos; lra). lra.
    - destruct (Sg _ _ _ _ x H2 Hx) as (A & _). apply Qlt_le_weak, A. lra.
    - pose proof (det_zero (pos w) (pos c0)) as (_ & _ & Q). rewrite Q.
      assert (0 < e * (- det (pos c0) (pos w) x))%Q by (apply Qmul_pos; lra). lra. }
  apply (path zi zj); try tauto.
  2:{ unfold zi. apply (Ti i b c n1 n2 n3); auto; tauto. }
  2:{ unfold zj. apply (Ti j b' c' m1 m2 m3); auto. }
  intros s Hs k l Hk Hl Kk.
  assert (Hz : (0 < hw (comb zi zj s))%Q) by (apply hw_comb; tauto).
  (* the triangle k has the corner w *)
  assert (Cw : forall k, inC pos ts k (comb zi zj s) -> corner ts k w).
  { clear k Hk Kk. intros k (a0 & b0 & c0 & k1 & k2 & k3 & V & G1 & G2 & G3).
    apply (vertex_corner k i w (pos w) 1); auto; [lra|split; [|split]; cbn [pscale hx hy hw]; ring|].
    destruct (view_he _ _ _ _ _ _ _ _ V) as (H1 & H2 & H3).
    apply (inC_view _ _ _ _ _ _ _ _ _ _ V). split; [|split]; apply Qnot_lt_le; intros Hlt.
    - destruct (Sz _ _ _ _ s H1 Hs) as (_ & A). specialize (A Hlt). lra.
    - destruct (Sz _ _ _ _ s H2 Hs) as (_ & A). specialize (A Hlt). lra.
    - destruct (Sz _ _ _ _ s H3 Hs) as (_ & A). specialize (A Hlt). lra. }
  destruct (closed_cases k _ Hz Hk) as [Tk|[(u & v & d & k1 & k2 & k3 & V & Z1 & Z2 & Z3)|(w' & u & v & k1 & k2 & k3 & la & V & Fw' & Hla & Pw)]].
  - now rewrite <- (open_closed_excl _ _ M _ _ _ Tk Hl).
  - apply (edge_local k l u v d k1 k2 k3 (comb zi zj s)); auto.
    pose proof (M_cw _ _ M _ _ _ _ _ _ _ V) as Dk.
    destruct (corner_cases px py _ _ _ _ _ _ _ _ _ V (Cw k Hk)) as [->|[->| ->]].
    + apply Fr.
    + destruct (Fr u) as (A & B). now split.
    + exfalso. destruct (view_he _ _ _ _ _ _ _ _ V) as (H1 & _). destruct (Sz _ _ _ _ s H1 Hs) as (A & _). specialize (A Dk). lra.
  - exfalso. pose proof (M_cw _ _ M _ _ _ _ _ _ _ V) as Dk.
    pose proof (det_rot3 (pos w') (pos u) (pos v)) as (Q1 & Q2).
    assert (Zw : forall a b, (det a b (pos w') == 0)%Q -> (det a b (comb zi zj s) == 0)%Q).
    { intros a0 b0 Hz0. rewrite Pw, det_pscale, Hz0. ring. }
    destruct (view_he _ _ _ _ _ _ _ _ V) as (H1 & _ & H3).
    destruct (corner_cases px py _ _ _ _ _ _ _ _ _ V (Cw k Hk)) as [Ew|[Ew|Ew]].
    + rewrite <- Ew in Zw.
      assert (A : (det (pos w) xi (comb zi zj s) == 0)%Q) by (apply Zw, det_zero).
      assert (B : (det (pos w) xj (comb zi zj s) == 0)%Q) by (apply Zw, det_zero).
      rewrite Dz in A, B.
      destruct (det_zero (pos w) xi) as (_ & Y1 & Y2). destruct (det_zero (pos w) xj) as (_ & Y3 & Y4).
      pose proof (det_baa xi (pos w)) as Y5. pose proof (det_baa xj (pos w)) as Y6. pose proof (det_swap23 (pos w) xi xj) as Y7.
      rewrite Y1, Y5 in A. rewrite Y3, Y6, Y7 in B.
      assert (A' : (s * (e * det (pos w) xi xj) == 0)%Q) by lra.
      assert (B' : ((1 - s) * (e * det (pos w) xi xj) == 0)%Q) by lra.
      assert (C' : (e * det (pos w) xi xj == 0)%Q) by lra.
      apply Qmult_integral in C'. destruct C'; [lra|contradiction].
    + subst w. destruct (Sz _ _ _ _ s H3 Hs) as (A & _).
      assert (D v w' u < 0)%Q by lra. specialize (A H). rewrite Zw in A by apply det_baa. lra.
    + subst w. destruct (Sz _ _ _ _ s H1 Hs) as (A & _).
      assert (D w' u v < 0)%Q by lra. specialize (A H). rewrite Zw in A by apply det_aba. lra.
Qed.

(** A point on a constrained edge, ends included. *)
Definition onC (p : pt3) : Prop :=
  exists u v s t, Cn u v /\ (0 <= s)%Q /\ (0 <= t)%Q /\ (0 < s + t)%Q /\ peq p (onseg u v s t).

Lemma local p i j : (0 < hw p)%Q -> ~ onC p -> inC pos ts i p -> inC pos ts j p -> K i -> K j.
Proof.
  intros Hp No Hi Hj Ki.
  destruct (closed_cases i _ Hp Hi) as [Tk|[(u & v & d & k1 & k2 & k3 & V & Z1 & Z2 & Z3)|(w & u & v & k1 & k2 & k3 & l & V & Fw & Hl & Pw)]].
  - now rewrite <- (open_closed_excl _ _ M _ _ _ Tk Hj).
  - apply (edge_local i j u v d k1 k2 k3 p); auto.
    destruct (edge_onseg i u v d k1 k2 k3 p V Z1 Z2 Z3) as (s & t & Hs & Ht & Pq).
    split; intros Hc; apply No.
    + exists u, v, s, t. repeat split; try lra; auto; apply Pq.
    + exists v, u, t, s. split; auto. split; [lra|]. split; [lra|]. split; [lra|].
      rewrite Pq. unfold CCross.onseg. split; [|split]; cbn [padd pscale hx hy hw]; ring.
  - destruct (view_he _ _ _ _ _ _ _ _ V) as (H1 & _).
    assert (Ci : corner ts i w) by (eexists; eexists; eauto).
    apply (fan w i j); auto.
    + exact (vertex_corner j i w p l Ci Fw Hl Pw Hj).
    + intros x. split; intros Hc; apply No.
      * exists w, x, l, 0%Q. split; auto. split; [lra|]. split; [lra|]. split; [lra|].
        rewrite Pw. unfold CCross.onseg. split; [|split]; cbn [padd pscale hx hy hw]; ring.
      * exists x, w, 0%Q, l. split; auto. split; [lra|]. split; [lra|]. split; [lra|].
        rewrite Pw. unfold CCross.onseg. split; [|split]; cbn [padd pscale hx hy hw]; ring.
Qed.

Lemma constant p q i j : (0 < hw p)%Q -> (0 < hw q)%Q -> (forall s, (0 <= s <= 1)%Q -> ~ onC (comb p q s)) ->
  inC pos ts i p -> inC pos ts j q -> K i -> K j.
Proof.
  intros Hp Hq No. apply path; auto. intros s Hs k l. apply local; auto. apply hw_comb; tauto.
Qed.

Hypothesis Cn_edge : forall u v, Cn u v -> medge ts u v /\ is_finite u = true /\ is_finite v = true.

(** No constraint goes through an open triangle. *)
Lemma open_free i p : inT pos ts i p -> ~ onC p.
Proof.
  intros Ti (u & v & s & t & Hc & Hs & Ht & Hst & Pq). destruct (Cn_edge u v Hc) as (Hm & Fu & Fv).
  destruct (medge_both px py u v Fu Fv ts M Hm) as ((j & n & (c & y & z & V)) & _).
  pose proof (M_cw _ _ M _ _ _ _ _ _ _ V) as C. pose proof (det_rot3 (pos u) (pos v) (pos c)) as (R1 & R2).
  assert (Z : (det (pos u) (pos v) (onseg u v s t) == 0)%Q).
  { rewrite (det_onseg px py), det_aba, det_baa. ring. }
  assert (Cj : inC pos ts j p).
  { apply (inC_view _ _ _ _ _ _ _ _ _ _ V). split; [|split]; rewrite Pq; [rewrite Z; lra| |]; rewrite (det_onseg px py).
    - rewrite det_aba, R1. assert (0 <= s * (- D u v c))%Q by (apply Qmult_le_0_compat; lra). lra.
    - rewrite det_baa, R2. assert (0 <= t * (- D u v c))%Q by (apply Qmult_le_0_compat; lra). lra. }
  pose proof (open_closed_excl _ _ M _ _ _ Ti Cj) as <-.
  apply (inT_view _ _ _ _ _ _ _ _ _ _ V) in Ti. destruct Ti as (T1 & _). rewrite Pq, Z in T1. lra.
Qed.

(** A point between the ends of an edge is on a constraint only if the edge is constrained. *)
Lemma edge_free i u v c x y z p : view ts i u v c x y z -> (0 < hw p)%Q ->
  (det (pos u) (pos v) p == 0)%Q -> (det (pos v) (pos c) p < 0)%Q -> (det (pos c) (pos u) p < 0)%Q ->
  free u v -> ~ onC p.
Proof.
  intros V Hw Z1 Z2 Z3 (F1 & F2) (a & b & s & t & Hc & Hs & Ht & Hst & Pq). destruct (Cn_edge a b Hc) as (Hm & Fa & Fb).
  destruct (medge_both px py a b Fa Fb ts M Hm) as ((j & n & He) & (j' & n' & He')).
  pose proof He as (d & y' & z' & V').
  assert (Cor : forall w k l, corner ts k w -> is_finite w = true -> (0 < l)%Q -> peq p (pscale l (pos w)) -> False).
  { intros w k l Cw Fw Hl Pl.
    assert (S : forall u v, (det (pos u) (pos v) p == l * D u v w)%Q) by (intros; rewrite Pl; apply det_pscale).
    rewrite S in Z1, Z2, Z3. apply (vertex_excl_edge px py ts i u v c x y z k w M V Cw).
    - rewrite (hw_fin px py w Fw). lra.
    - apply Qmult_integral in Z1. destruct Z1; auto. lra.
    - destruct (Qlt_le_dec (D v c w) 0); auto. assert (0 <= l * D v c w)%Q by (apply Qmult_le_0_compat; lra). lra.
    - destruct (Qlt_le_dec (D c u w) 0); auto. assert (0 <= l * D c u w)%Q by (apply Qmult_le_0_compat; lra). lra. }
  destruct (Qlt_le_dec 0 s) as [Ps|Ps].
  2:{ assert (s == 0)%Q as Qs by lra. apply (Cor b j' t); auto; [eexists; eexists; eauto|lra|].
      rewrite Pq. unfold CCross.onseg. split; [|split]; cbn [padd pscale hx hy hw]; rewrite Qs; ring. }
  destruct (Qlt_le_dec 0 t) as [Pt|Pt].
  2:{ assert (t == 0)%Q as Qs by lra. apply (Cor a j s); auto; [eexists; eexists; eauto|].
      rewrite Pq. unfold CCross.onseg. split; [|split]; cbn [padd pscale hx hy hw]; rewrite Qs; ring. }
  destruct (edge_tri px py a b ts j d n y' z' s t M V' Ps Pt) as (Y1 & Y2 & Y3).
  destruct (edge_point_edge px py ts i u v c x y z p j a b n M V Hw) as (_ & Sm); auto; try lra.
  - apply (inC_view _ _ _ _ _ _ _ _ _ _ V'). split; [|split]; rewrite Pq; lra.
  - rewrite Pq. exact Y1.
  - destruct Sm as [(-> & ->)|(-> & ->)]; contradiction.
Qed.
End WithEnv.
