(** * Hull: the border edges of a convex triangulation start at the vertices of the hull. *)

From Coq Require Import ZArith NArith List Bool Lia QArith Lqa.
From Verif Require Import Spec SpecCount.
Import ListNotations.
Local Open Scope N_scope.

(** ** The border line of points on one side of a line *)

Definition dot (dx dy : Q) (u x : point) : Q := (dx * (fst x - fst u) + dy * (snd x - snd u))%Q.

Lemma dot_triple dx dy u w x y :
  (orient u x w * dot dx dy u y + orient u w y * dot dx dy u x + orient u y x * dot dx dy u w == 0)%Q.
Proof. unfold orient, dot. ring. Qed.

Lemma orient_swap u x y : (orient u y x == - orient u x y)%Q.
Proof. unfold orient. ring. Qed.

Section Extreme.
Variables dx dy : Q.
Variable u : point.
Hypothesis Hd : ~ (dx == 0 /\ dy == 0)%Q.
Notation h := (dot dx dy u).

(** On the half line from u that bounds the half plane, with the half plane on its right. *)
Definition on_ray_ (x : point) : Prop := (h x == 0)%Q /\ (0 < dy * (fst x - fst u) - dx * (snd x - snd u))%Q.

Lemma norm_pos : (0 < dx * dx + dy * dy)%Q.
Proof.
  assert (A : (0 <= dx * dx)%Q) by nra. assert (B : (0 <= dy * dy)%Q) by nra.
  destruct (Qlt_le_dec 0 (dx * dx + dy * dy)) as [|K]; auto. exfalso. apply Hd.
  assert (A0 : (dx * dx == 0)%Q) by lra. assert (B0 : (dy * dy == 0)%Q) by lra.
  apply Qmult_integral in A0, B0. tauto.
Qed.

Lemma ray_extreme x y : on_ray_ x -> (h y <= 0)%Q -> (orient u x y <= 0)%Q.
Proof.
  intros (Z & P) Hy. pose proof norm_pos as Np.
  assert (K : (orient u x y * (dx * dx + dy * dy) == (dy * (fst x - fst u) - dx * (snd x - snd u)) * h y
     - (h x) * (dy * (fst y - fst u) - dx * (snd y - snd u)))%Q) by (unfold orient, dot; ring).
  rewrite Z in K. destruct (Qlt_le_dec 0 (orient u x y)) as [C|]; auto. exfalso.
  assert (0 < orient u x y * (dx * dx + dy * dy))%Q by (apply Qmult_lt_0_compat; auto).
  assert ((dy * (fst x - fst u) - dx * (snd x - snd u)) * h y <= 0)%Q by nra. lra.
Qed.

(** One of the points has all others on the right of the line from u to it. *)
Lemma extreme_off (X : list point) : X <> [] -> (forall x, In x X -> h x <= 0)%Q ->
  (forall x, In x X -> ~ on_ray_ x) -> (forall x, In x X -> ~ same_place u x) ->
  exists w, In w X /\ forall x, In x X -> (orient u w x <= 0)%Q.
Proof.
  induction X as [|x X IH]; [congruence|]. intros _ Hh Hr Hn.
  destruct X as [|x' X'] eqn:EX.
  { exists x. split; [now left|]. intros y [<-|[]]. unfold orient. ring_simplify. discriminate. }
  rewrite <- EX in *. assert (NX : X <> []) by (rewrite EX; discriminate). clear EX x' X'.
  destruct IH as (w & Hw & Ext); auto.
  1-3: intros y Hy; try apply Hh; try apply Hr; try apply Hn; now right.
  destruct (Qlt_le_dec 0 (orient u w x)) as [C|C].
  2: { exists w. split; [now right|]. intros y [<-|Hy]; auto. }
  exists x. split; [now left|]. intros y [<-|Hy].
  { unfold orient. ring_simplify. discriminate. }
  pose proof (Ext y Hy) as Ey. pose proof (Hh y (or_intror Hy)) as Hhy. pose proof (Hh w (or_intror Hw)) as Hhw.
  pose proof (Hh x (or_introl eq_refl)) as Hhx.
  pose proof (dot_triple dx dy u w x y) as T. pose proof (orient_swap u w x) as S1. pose proof (orient_swap u x y) as S2.
  destruct (Qlt_le_dec (h w) 0) as [Nw|Zw].
  - assert (P1 : (0 <= orient u x w * h y)%Q) by nra.
    assert (P2 : (0 <= orient u w y * h x)%Q) by nra.
    assert (P3 : (orient u y x * h w <= 0)%Q) by lra.
    destruct (Qlt_le_dec 0 (orient u x y)) as [G|]; auto. exfalso. nra.
  - assert (Z : (h w == 0)%Q) by lra. rewrite Z in T.
    assert (P1 : (0 <= orient u x w * h y)%Q) by nra.
    assert (P2 : (0 <= orient u w y * h x)%Q) by nra.
    assert (Zy : (h y == 0)%Q).
    { assert (Q1 : (orient u x w * h y == 0)%Q) by lra. apply Qmult_integral in Q1. destruct Q1; auto. lra. }
    (* w and y are on the line, on the same side of u, or one of them on the ray *)
    set (g := fun p : point => (dy * (fst p - fst u) - dx * (snd p - snd u))%Q).
    pose proof norm_pos as Np.
    assert (Gw : (g w <= 0)%Q).
    { destruct (Qlt_le_dec 0 (g w)); auto. exfalso. apply (Hr w (or_intror Hw)). split; auto. }
    assert (Gy : (g y <= 0)%Q).
    { destruct (Qlt_le_dec 0 (g y)); auto. exfalso. apply (Hr y (or_intror Hy)). split; auto. }
    assert (K : forall p q, (orient u p q * (dx * dx + dy * dy) == g p * h q - h p * g q)%Q)
      by (intros; unfold orient, dot, g; ring).
    pose proof (K x y) as Kxy. pose proof (K w x) as Kwx. rewrite Zy in Kxy. rewrite Z in Kwx.
    assert (P3 : (0 < g w * h x)%Q).
    { assert (0 < orient u w x * (dx * dx + dy * dy))%Q by (apply Qmult_lt_0_compat; auto). lra. }
    destruct (Qlt_le_dec 0 (orient u x y)) as [G|]; auto. exfalso.
    assert (0 < orient u x y * (dx * dx + dy * dy))%Q by (apply Qmult_lt_0_compat; auto). nra.
Qed.

Lemma ray_dec x : {on_ray_ x} + {~ on_ray_ x}.
Proof.
  unfold on_ray_. destruct (Qeq_dec (h x) 0) as [A|A]; [|right; tauto].
  destruct (Qlt_le_dec 0 (dy * (fst x - fst u) - dx * (snd x - snd u))) as [B|B]; [left; auto|right; lra].
Qed.

Lemma extreme (X : list point) : X <> [] -> (forall x, In x X -> h x <= 0)%Q ->
  (forall x, In x X -> ~ same_place u x) ->
  exists w, In w X /\ forall x, In x X -> (orient u w x <= 0)%Q.
Proof.
  intros NX Hh Hn. destruct (Exists_dec on_ray_ X ray_dec) as [K|K].
  - apply Exists_exists in K. destruct K as (w & Hw & R). exists w. split; auto. intros x Hx. apply ray_extreme; auto.
  - apply extreme_off; auto. intros x Hx R. apply K. apply Exists_exists. eauto.
Qed.
End Extreme.

(** ** Near the start of a segment *)

Lemma below e d : (0 < e)%Q -> (0 < d)%Q -> exists m, (0 < m)%Q /\ (m < e)%Q /\ (m < d)%Q.
Proof.
  intros He Hd. destruct (Qlt_le_dec e d) as [L|L].
  - exists ((1 # 2) * e)%Q. lra.
  - exists ((1 # 2) * d)%Q. lra.
Qed.

Lemma affine_pos al be : (0 < al)%Q -> exists e, (0 < e)%Q /\ forall s, (0 < s < e)%Q -> (0 < al + s * be)%Q.
Proof.
  intros G. destruct (Qlt_le_dec be 0) as [B|B].
  - exists (al / - be)%Q. split; [apply Qlt_shift_div_l; lra|]. intros s (S1 & S2).
    assert (B' : (0 < - be)%Q) by lra. apply (Qmult_lt_r _ _ (- be) B') in S2. unfold Qdiv in S2. rewrite <- Qmult_assoc in S2.
    rewrite (Qmult_comm (/ - be)), Qmult_inv_r in S2 by (intros K; rewrite K in B'; discriminate). lra.
  - exists 1%Q. split; [reflexivity|]. intros s (S1 & S2). nra.
Qed.

Lemma affine_start al be : exists e, (0 < e)%Q /\
  ((forall s, (0 < s < e)%Q -> (al + s * be <= 0)%Q) \/ (forall s, (0 < s < e)%Q -> (0 < al + s * be)%Q)).
Proof.
  destruct (Q_dec al 0) as [[L|G]|Z].
  - destruct (affine_pos (- al) (- be)) as (e & He & K); [lra|]. exists e. split; auto. left.
    intros s Hs. specialize (K s Hs). lra.
  - destruct (affine_pos al be G) as (e & He & K). eauto.
  - exists 1%Q. split; [reflexivity|]. destruct (Qlt_le_dec 0 be) as [B|B].
    + right. intros s (S1 & S2). rewrite Z. nra.
    + left. intros s (S1 & S2). rewrite Z. nra.
Qed.

Lemma affine_limit al be e : (0 < e)%Q -> (forall s, (0 < s < e)%Q -> (al + s * be <= 0)%Q) -> (al <= 0)%Q.
Proof.
  intros He H. destruct (Qlt_le_dec 0 al) as [G|]; auto. exfalso.
  destruct (affine_pos al be G) as (d & Hd & K). destruct (below e d He Hd) as (m & M1 & M2 & M3).
  specialize (H m (conj M1 M2)). specialize (K m (conj M1 M3)). lra.
Qed.

Lemma orient_along a b p q s : (orient a b (along p q s) == orient a b p + s * (orient a b q - orient a b p))%Q.
Proof. unfold orient, along. cbn [fst snd]. ring. Qed.

(** A triangle contains the start of a segment, or avoids it. *)
Lemma inside_start a b c p q : exists e, (0 < e)%Q /\
  ((forall s, (0 < s < e)%Q -> inside_or_on a b c (along p q s)) \/
   (forall s, (0 < s < e)%Q -> ~ inside_or_on a b c (along p q s))).
Proof.
  destruct (affine_start (orient a b p) (orient a b q - orient a b p)) as (e1 & H1 & K1).
  destruct (affine_start (orient b c p) (orient b c q - orient b c p)) as (e2 & H2 & K2).
  destruct (affine_start (orient c a p) (orient c a q - orient c a p)) as (e3 & H3 & K3).
  destruct (below e1 e2 H1 H2) as (e4 & H4 & L1 & L2). destruct (below e4 e3 H4 H3) as (e & He & L4 & L3).
  exists e. split; auto.
  destruct K1 as [K1|K1].
  2: { right. intros s (S1 & S2) (I & _). rewrite orient_along in I. specialize (K1 s). lra. }
  destruct K2 as [K2|K2].
  2: { right. intros s (S1 & S2) (_ & I & _). rewrite orient_along in I. specialize (K2 s). lra. }
  destruct K3 as [K3|K3].
  2: { right. intros s (S1 & S2) (_ & _ & I). rewrite orient_along in I. specialize (K3 s). lra. }
  left. intros s (S1 & S2). split; [|split]; rewrite orient_along; [apply K1|apply K2|apply K3]; lra.
Qed.

Section Mesh.
Variable at_ : N -> point.

Lemma start_tri out p q : (forall s, (0 < s <= 1)%Q -> covered at_ out (along p q s)) ->
  exists t e, In t out /\ (0 < e)%Q /\ forall s, (0 < s < e)%Q -> tri_inside_or_on at_ t (along p q s).
Proof.
  intros H.
  assert (K : (exists t e, In t out /\ (0 < e)%Q /\ forall s, (0 < s < e)%Q -> tri_inside_or_on at_ t (along p q s)) \/
    exists e, (0 < e)%Q /\ forall s t, (0 < s < e)%Q -> In t out -> ~ tri_inside_or_on at_ t (along p q s)).
  { clear H. induction out as [|((a, b), c) l IH].
    - right. exists 1%Q. split; [reflexivity|]. intros s t _ [].
    - destruct IH as [(t & e & Ht & R)|(e & He & R)].
      + left. exists t, e. split; [now right|auto].
      + destruct (inside_start (at_ a) (at_ b) (at_ c) p q) as (d & Hd & [I|I]).
        * left. exists (a, b, c), d. split; [now left|auto].
        * right. destruct (below e d He Hd) as (m & M1 & M2 & M3). exists m. split; auto.
          intros s t (S1 & S2) [<-|Ht]; [apply I|apply R; auto]; lra. }
  destruct K as [|(e & He & K)]; auto. exfalso.
  destruct (below e 1 He) as (m & M1 & M2 & M3); [reflexivity|].
  destruct (H m) as (t & Ht & I); [lra|]. apply (K m t); auto.
Qed.

Variables (n : N) (out : list (N * N * N)).
Hypothesis V : valid_mesh at_ n out.
Hypothesis ids : forall t v, In t out -> tri_corner t v -> v < n.
Hypothesis Cv : forall v, v < n -> covered at_ out (at_ v).
Hypothesis Cx : convex_area at_ out.

(** Every vertex is at the place of a corner. *)
Lemma corner_of v : v < n -> exists t u, In t out /\ tri_corner t u /\ same_place (at_ u) (at_ v).
Proof.
  intros Hv. destruct (Cv v Hv) as (t & Ht & I). destruct (vm_empty _ _ _ V t v Ht Hv I) as (c & Hc & Sp). eauto.
Qed.

Lemma is_tri_corners a b c : is_tri out a b c -> a < n /\ b < n /\ c < n /\ clockwise (at_ a) (at_ b) (at_ c).
Proof.
  intros H. assert (K : exists t, In t out /\ tri_corner t a /\ tri_corner t b /\ tri_corner t c).
  { destruct H as [H|[H|H]]; eexists; (split; [exact H|]); cbn; auto 10. }
  destruct K as (t & Ht & A & B & C). split; [apply (ids t a); auto|]. split; [apply (ids t b); auto|]. split; [apply (ids t c); auto|].
  destruct H as [H|[H|H]]; apply (vm_clockwise _ _ _ V) in H; cbn in H; unfold clockwise, orient in *; lra.
Qed.

Lemma edge_tri u v : In (u, v) (directed_edges out) -> exists c, is_tri out u v c.
Proof.
  unfold directed_edges. rewrite in_flat_map. intros (((a, b), c) & Hin & [Q|[Q|[Q|[]]]]); injection Q as <- <-.
  - exists c. now left.
  - exists a. right; right. exact Hin.
  - exists b. right; left. exact Hin.
Qed.

Lemma tri_edge u v c : is_tri out u v c -> In (u, v) (directed_edges out).
Proof. unfold directed_edges. rewrite in_flat_map. intros [H|[H|H]]; (eexists; split; [exact H|]); cbn; auto. Qed.

(** A border edge starts at every corner of the hull. *)
Lemma hull_border u t0 : In t0 out -> tri_corner t0 u -> on_hull at_ n u ->
  exists v, In (u, v) (directed_edges out) /\ ~ In (v, u) (directed_edges out).
Proof.
  intros Ht0 Hu0 (dx & dy & Hd & Hull).
  (* the corners of all triangles that are not at u *)
  set (X := filter (fun p => negb (Qeq_bool (fst (at_ u)) (fst p) && Qeq_bool (snd (at_ u)) (snd p)))
              (flat_map (fun t : N * N * N => let '(a, b, c) := t in [at_ a; at_ b; at_ c]) out)).
  assert (InX : forall t w, In t out -> tri_corner t w -> ~ same_place (at_ u) (at_ w) -> In (at_ w) X).
  { intros ((a, b), c) w Ht Hw Ns. apply filter_In. split.
    - apply in_flat_map. exists (a, b, c). split; auto. cbn in Hw |- *. destruct Hw as [->|[->| ->]]; auto.
    - apply negb_true_iff. apply andb_false_iff.
      destruct (Qeq_bool (fst (at_ u)) (fst (at_ w))) eqn:Q1; auto.
      destruct (Qeq_bool (snd (at_ u)) (snd (at_ w))) eqn:Q2; auto.
      exfalso. apply Ns. split; now apply Qeq_bool_iff. }
  assert (XIn : forall p, In p X -> ~ same_place (at_ u) p /\ exists t w, In t out /\ tri_corner t w /\ p = at_ w).
  { intros p Hp. apply filter_In in Hp. destruct Hp as (Hp & Np). split.
    - intros (Q1 & Q2). apply Qeq_bool_iff in Q1, Q2. rewrite Q1, Q2 in Np. discriminate.
    - apply in_flat_map in Hp. destruct Hp as (((a, b), c) & Ht & Hp). cbn in Hp. exists (a, b, c).
      destruct Hp as [<-|[<-|[<-|[]]]]; [exists a|exists b|exists c]; (split; [exact Ht|]); cbn; auto. }
  assert (NX : X <> []).
  { destruct t0 as ((a, b), c). pose proof (vm_clockwise _ _ _ V _ Ht0) as Cw. cbn in Cw.
    assert (K : exists w, tri_corner (a, b, c) w /\ ~ same_place (at_ u) (at_ w)).
    { cbn in Hu0. unfold clockwise, orient in Cw. destruct Hu0 as [->|[->| ->]].
      - exists b. split; [cbn; auto|]. intros (Q1 & Q2). rewrite Q1, Q2 in Cw. lra.
      - exists a. split; [cbn; auto|]. intros (Q1 & Q2). rewrite Q1, Q2 in Cw. lra.
      - exists a. split; [cbn; auto|]. intros (Q1 & Q2). rewrite Q1, Q2 in Cw. lra. }
    destruct K as (w & Hw & Ns). intros E0. pose proof (InX _ w Ht0 Hw Ns) as K. rewrite E0 in K. destruct K. }
  destruct (extreme dx dy (at_ u) Hd X NX) as (p & Hp & Ext).
  { intros x Hx. destruct (XIn x Hx) as (_ & t & w & Ht & Hw & ->). apply Hull. apply (ids t w); auto. }
  { intros x Hx. apply (XIn x Hx). }
  destruct (XIn p Hp) as (Np & tw & w & Htw & Hw & ->).
  assert (Ext' : forall t x, In t out -> tri_corner t x -> (orient (at_ u) (at_ w) (at_ x) <= 0)%Q).
  { intros t x Ht Hx.
    destruct (Qeq_dec (fst (at_ u)) (fst (at_ x))) as [Q1|Q1]; [destruct (Qeq_dec (snd (at_ u)) (snd (at_ x))) as [Q2|Q2]|].
    - unfold orient. rewrite <- Q1, <- Q2. ring_simplify. discriminate.
    - apply Ext. apply (InX t x Ht Hx). intros (_ & K). contradiction.
    - apply Ext. apply (InX t x Ht Hx). intros (K & _). contradiction. }
  destruct (start_tri out (at_ u) (at_ w)) as (t & e & Ht & He & I).
  { intros s (S1 & S2). apply Cx; [apply Cv; apply (ids t0 u); auto|apply Cv; apply (ids tw w); auto|lra]. }
  (* u is a corner of t *)
  assert (Iu : tri_inside_or_on at_ t (at_ u)).
  { destruct t as ((a, b), c). cbn in I |- *. split; [|split].
    - apply (affine_limit _ (orient (at_ a) (at_ b) (at_ w) - orient (at_ a) (at_ b) (at_ u)) e He). intros s Hs. rewrite <- orient_along. apply (I s Hs).
    - apply (affine_limit _ (orient (at_ b) (at_ c) (at_ w) - orient (at_ b) (at_ c) (at_ u)) e He). intros s Hs. rewrite <- orient_along. apply (I s Hs).
    - apply (affine_limit _ (orient (at_ c) (at_ a) (at_ w) - orient (at_ c) (at_ a) (at_ u)) e He). intros s Hs. rewrite <- orient_along. apply (I s Hs). }
  assert (Hun : u < n) by (apply (ids t0 u); auto).
  destruct (vm_empty _ _ _ V t u Ht Hun Iu) as (u' & Hu' & Sp).
  assert (u' = u) by (apply (vm_merged _ _ _ V t t0); auto). subst u'.
  assert (R : exists b c, is_tri out u b c /\ tri_corner t b /\ tri_corner t c /\ forall s, (0 < s < e)%Q -> inside_or_on (at_ u) (at_ b) (at_ c) (along (at_ u) (at_ w) s)).
  { destruct t as ((a, b), c). cbn in Hu'. destruct Hu' as [->|[->| ->]].
    - exists b, c. split; [now left|]. split; [cbn; auto|]. split; [cbn; auto|]. exact I.
    - exists c, a. split; [right; right; exact Ht|]. split; [cbn; auto|]. split; [cbn; auto|]. intros s Hs. destruct (I s Hs) as (I1 & I2 & I3). split; auto.
    - exists a, b. split; [right; left; exact Ht|]. split; [cbn; auto|]. split; [cbn; auto|]. intros s Hs. destruct (I s Hs) as (I1 & I2 & I3). split; auto. }
  destruct R as (b & c & T & Hb & Hc & In0).
  destruct (is_tri_corners _ _ _ T) as (_ & Lb & Lc & Cw). unfold clockwise in Cw.
  assert (Zb : (orient (at_ u) (at_ b) (at_ w) == 0)%Q).
  { pose proof (Ext' t b Ht Hb) as E1. pose proof (orient_swap (at_ u) (at_ w) (at_ b)) as S1.
    destruct (In0 ((1 # 2) * e)%Q) as (J & _ & _); [lra|]. rewrite orient_along in J.
    assert (Z0 : (orient (at_ u) (at_ b) (at_ u) == 0)%Q) by (unfold orient; ring). rewrite Z0 in J.
    assert (orient (at_ u) (at_ b) (at_ w) <= 0)%Q by nra. lra. }
  (* for every corner x, the side of (u, b) is that of (u, w) *)
  assert (Sup : forall t' x, In t' out -> tri_corner t' x -> (orient (at_ u) (at_ b) (at_ x) <= 0)%Q).
  { intros t' x Ht' Hx. pose proof (Ext' t' x Ht' Hx) as E1. pose proof (Ext' t c Ht Hc) as E2.
    assert (K : (orient (at_ u) (at_ b) (at_ x) * orient (at_ u) (at_ w) (at_ c) - orient (at_ u) (at_ w) (at_ x) * orient (at_ u) (at_ b) (at_ c)
       == orient (at_ u) (at_ b) (at_ w) * orient (at_ u) (at_ x) (at_ c))%Q) by (unfold orient; ring).
    rewrite Zb in K.
    destruct (Qlt_le_dec 0 (orient (at_ u) (at_ b) (at_ x))) as [G|]; auto. exfalso.
    destruct (Qlt_le_dec (orient (at_ u) (at_ w) (at_ c)) 0) as [L|L].
    - assert (orient (at_ u) (at_ b) (at_ x) * orient (at_ u) (at_ w) (at_ c) < 0)%Q by nra.
      assert (0 <= orient (at_ u) (at_ w) (at_ x) * orient (at_ u) (at_ b) (at_ c))%Q by nra. lra.
    - (* w is on both lines: it is at u *)
      assert (Zc : (orient (at_ u) (at_ w) (at_ c) == 0)%Q) by lra.
      apply Np. clear - Zb Zc Cw. unfold orient, same_place in *.
      set (bx := (fst (at_ b) - fst (at_ u))%Q) in *. set (by_ := (snd (at_ b) - snd (at_ u))%Q) in *.
      set (cx := (fst (at_ c) - fst (at_ u))%Q) in *. set (cy := (snd (at_ c) - snd (at_ u))%Q) in *.
      set (wx := (fst (at_ w) - fst (at_ u))%Q) in *. set (wy := (snd (at_ w) - snd (at_ u))%Q) in *.
      assert (D : ~ (bx * cy - by_ * cx == 0)%Q) by lra.
      assert (Zx : (wx * (bx * cy - by_ * cx) == 0)%Q).
      { transitivity (bx * (wx * cy - wy * cx) + cx * (bx * wy - by_ * wx))%Q; [ring|]. rewrite Zb, Zc. ring. }
      assert (Zy : (wy * (bx * cy - by_ * cx) == 0)%Q).
      { transitivity (by_ * (wx * cy - wy * cx) + cy * (bx * wy - by_ * wx))%Q; [ring|]. rewrite Zb, Zc. ring. }
      apply Qmult_integral in Zx, Zy. destruct Zx as [Zx|]; [|contradiction]. destruct Zy as [Zy|]; [|contradiction].
      unfold wx in Zx. unfold wy in Zy. split; lra. }
  exists b. split; [exact (tri_edge _ _ _ T)|]. intros K. destruct (edge_tri _ _ K) as (c' & T').
  destruct (is_tri_corners _ _ _ T') as (_ & _ & _ & Cw'). unfold clockwise in Cw'.
  assert (Hc' : exists t', In t' out /\ tri_corner t' c') by (destruct T' as [H|[H|H]]; eexists; (split; [exact H|]); cbn; auto).
  destruct Hc' as (t' & Ht' & Hx). pose proof (Sup t' c' Ht' Hx) as S0.
  assert ((orient (at_ b) (at_ u) (at_ c') == - orient (at_ u) (at_ b) (at_ c'))%Q) by (unfold orient; ring). lra.
Qed.

(** No two border edges start at the same vertex. *)
Hypothesis support : forall u v x, In (u, v) (border_edges out) -> x < n -> (orient (at_ u) (at_ v) (at_ x) <= 0)%Q.

Lemma between_corner u v w c t' : is_tri out u v c -> In t' out -> tri_corner t' w ->
  (orient (at_ u) (at_ v) (at_ w) == 0)%Q -> ~ same_place (at_ u) (at_ w) ->
  (orient (at_ u) (at_ v) (at_ c) <= orient (at_ u) (at_ w) (at_ c))%Q -> (orient (at_ u) (at_ w) (at_ c) <= 0)%Q -> v = w.
Proof.
  intros T Ht' Hw Z Nu L0 L1. destruct (is_tri_corners _ _ _ T) as (_ & _ & _ & Cw). unfold clockwise in Cw.
  assert (Hwn : w < n) by (apply (ids t' w); auto).
  assert (I : inside_or_on (at_ u) (at_ v) (at_ c) (at_ w)).
  { split; [|split].
    - lra.
    - assert (Q1 : (orient (at_ v) (at_ c) (at_ w) == orient (at_ u) (at_ v) (at_ c) - orient (at_ u) (at_ w) (at_ c) - orient (at_ u) (at_ v) (at_ w))%Q)
        by (unfold orient; ring). lra.
    - assert (Q1 : (orient (at_ c) (at_ u) (at_ w) == orient (at_ u) (at_ w) (at_ c))%Q) by (unfold orient; ring). lra. }
  assert (K : exists t, In t out /\ tri_inside_or_on at_ t (at_ w) /\ forall x, tri_corner t x -> x = u \/ x = v \/ x = c).
  { destruct I as (I1 & I2 & I3). destruct T as [H|[H|H]]; eexists; (split; [exact H|]); cbn; (split; [repeat split; auto|]); intuition. }
  destruct K as (t & Ht & It & Hc). destruct (vm_empty _ _ _ V t w Ht Hwn It) as (x & Hx & Sp).
  assert (x = w) by (apply (vm_merged _ _ _ V t t'); auto). subst x.
  destruct (Hc w Hx) as [->|[->| ->]]; auto.
  - exfalso. apply Nu. split; reflexivity.
  - exfalso. lra.
Qed.

Lemma start_edges u v w : In (u, v) (border_edges out) -> In (u, w) (border_edges out) -> v = w.
Proof.
  intros B1 B2. pose proof (fun x => support u v x B1) as S1. pose proof (fun x => support u w x B2) as S2.
  assert (E1 : In (u, v) (directed_edges out)) by (apply filter_In in B1; tauto).
  assert (E2 : In (u, w) (directed_edges out)) by (apply filter_In in B2; tauto).
  destruct (edge_tri _ _ E1) as (c & T1). destruct (edge_tri _ _ E2) as (c' & T2).
  destruct (is_tri_corners _ _ _ T1) as (_ & Lv & Lc & Cw1). destruct (is_tri_corners _ _ _ T2) as (_ & Lw & Lc' & Cw2).
  unfold clockwise in *.
  assert (Kv : exists t, In t out /\ tri_corner t v) by (destruct T1 as [H|[H|H]]; eexists; (split; [exact H|]); cbn; auto).
  assert (Kw : exists t, In t out /\ tri_corner t w) by (destruct T2 as [H|[H|H]]; eexists; (split; [exact H|]); cbn; auto).
  destruct Kv as (tv & Htv & Hv). destruct Kw as (tw & Htw & Hw).
  pose proof (S1 w Lw) as A1. pose proof (S2 v Lv) as A2. pose proof (orient_swap (at_ u) (at_ v) (at_ w)) as Sw.
  assert (Z : (orient (at_ u) (at_ v) (at_ w) == 0)%Q) by lra.
  assert (Nw : ~ same_place (at_ u) (at_ w)).
  { intros (Q1 & Q2). unfold orient in Cw2. rewrite Q1, Q2 in Cw2. lra. }
  assert (Nv : ~ same_place (at_ u) (at_ v)).
  { intros (Q1 & Q2). unfold orient in Cw1. rewrite Q1, Q2 in Cw1. lra. }
  pose proof (S2 c Lc) as A3. pose proof (S1 c' Lc') as A4.
  destruct (Qlt_le_dec (orient (at_ u) (at_ w) (at_ c)) (orient (at_ u) (at_ v) (at_ c))) as [L|L].
  2: { eapply between_corner; eauto. }
  symmetry. eapply (between_corner u w v c' tv); eauto; [lra|].
  assert (Pl : (orient (at_ u) (at_ w) (at_ c') * orient (at_ u) (at_ v) (at_ c) - orient (at_ u) (at_ v) (at_ c') * orient (at_ u) (at_ w) (at_ c)
      == orient (at_ u) (at_ v) (at_ w) * orient (at_ u) (at_ c) (at_ c'))%Q) by (unfold orient; ring).
  rewrite Z in Pl.
  destruct (Qlt_le_dec (orient (at_ u) (at_ v) (at_ c')) (orient (at_ u) (at_ w) (at_ c'))) as [G|]; auto. exfalso. nra.
Qed.

Lemma border_starts : NoDup (border_edges out) -> NoDup (map fst (border_edges out)).
Proof.
  assert (K : forall l, incl l (border_edges out) -> NoDup l -> NoDup (map fst l)).
  { induction l as [|(u, v) l IH]; intros I Nd; cbn [map fst]; constructor.
    - intros H. apply in_map_iff in H. destruct H as ((u', w) & Q & H). cbn in Q. subst u'.
      inversion Nd as [|? ? N0 _]; subst. apply N0.
      replace v with w; auto. apply (start_edges u w v); apply I; [now right|now left].
    - inversion Nd; subst. apply IH; auto. intros x Hx. apply I. now right. }
  apply K. apply incl_refl.
Qed.

Lemma border_on_hull u v : In (u, v) (border_edges out) -> on_hull at_ n u.
Proof.
  intros H. assert (E1 : In (u, v) (directed_edges out)) by (apply filter_In in H; tauto).
  destruct (edge_tri _ _ E1) as (c & T). destruct (is_tri_corners _ _ _ T) as (_ & _ & _ & Cw).
  exists (- (snd (at_ v) - snd (at_ u)))%Q, (fst (at_ v) - fst (at_ u))%Q. split.
  - intros (Q1 & Q2). unfold clockwise, orient in Cw. rewrite Q2 in Cw. nra.
  - intros w Hw. pose proof (support u v w H Hw) as S0. unfold orient in S0. lra.
Qed.
End Mesh.
