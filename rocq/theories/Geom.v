(** * Geom: homogeneous plane geometry over the rationals (specification and lemmas).

    A point is a triple (x, y, w): w = 1 for an ordinary point of the plane, w = 0 for a
    direction ("point at infinity").  [det a b c] is the orientation determinant: for
    ordinary points it is twice the signed area of the triangle, positive when a, b, c
    turn counter-clockwise, negative when they turn clockwise. *)

From Coq Require Import QArith List Lqa Lia Setoid Morphisms.
Import ListNotations.
Local Open Scope Q_scope.

Record pt3 : Type := P3 { hx : Q; hy : Q; hw : Q }.

Definition det (a b c : pt3) : Q :=
  hx a * (hy b * hw c - hw b * hy c)
  - hy a * (hx b * hw c - hw b * hx c)
  + hw a * (hx b * hy c - hy b * hx c).

(** The open triangle with clockwise corners a, b, c: points strictly right of its edges. *)
Definition in_open (a b c p : pt3) : Prop :=
  det a b p < 0 /\ det b c p < 0 /\ det c a p < 0.

(** The closed triangle. *)
Definition in_closed (a b c p : pt3) : Prop :=
  det a b p <= 0 /\ det b c p <= 0 /\ det c a p <= 0.

Definition padd (p q : pt3) : pt3 := P3 (hx p + hx q) (hy p + hy q) (hw p + hw q).
Definition pscale (k : Q) (p : pt3) : pt3 := P3 (k * hx p) (k * hy p) (k * hw p).
Definition peq (p q : pt3) : Prop := hx p == hx q /\ hy p == hy q /\ hw p == hw q.

Lemma peq_refl p : peq p p.
Proof. repeat split; reflexivity. Qed.
Lemma peq_sym p q : peq p q -> peq q p.
Proof. intros (? & ? & ?); repeat split; symmetry; assumption. Qed.
Lemma peq_trans p q r : peq p q -> peq q r -> peq p r.
Proof. intros (? & ? & ?) (? & ? & ?); repeat split; etransitivity; eassumption. Qed.
#[export] Instance peq_equiv : Equivalence peq.
Proof. split; [exact peq_refl | exact peq_sym | exact peq_trans]. Qed.

#[export] Instance det_proper : Proper (peq ==> peq ==> peq ==> Qeq) det.
Proof.
  intros a a' (H1 & H2 & H3) b b' (H4 & H5 & H6) c c' (H7 & H8 & H9).
  unfold det. now rewrite H1, H2, H3, H4, H5, H6, H7, H8, H9.
Qed.

Lemma det_cyc a b c : det b c a == det a b c.
Proof. unfold det; ring. Qed.
Lemma det_cyc2 a b c : det c a b == det a b c.
Proof. unfold det; ring. Qed.
Lemma det_swap a b c : det b a c == - det a b c.
Proof. unfold det; ring. Qed.
Lemma det_swap23 a b c : det a c b == - det a b c.
Proof. unfold det; ring. Qed.
Lemma det_swap13 a b c : det c b a == - det a b c.
Proof. unfold det; ring. Qed.
Lemma det_aab a b : det a a b == 0.
Proof. unfold det; ring. Qed.
Lemma det_aba a b : det a b a == 0.
Proof. unfold det; ring. Qed.
Lemma det_baa a b : det b a a == 0.
Proof. unfold det; ring. Qed.

Lemma det_padd a b p q : det a b (padd p q) == det a b p + det a b q.
Proof. unfold det, padd; simpl; ring. Qed.
Lemma det_pscale a b k p : det a b (pscale k p) == k * det a b p.
Proof. unfold det, pscale; simpl; ring. Qed.

(** Cramer's rule, through the functional [det u v]. *)
Lemma cramer a b c p u v :
  det a b c * det u v p
  == det b c p * det u v a + det c a p * det u v b + det a b p * det u v c.
Proof. unfold det; ring. Qed.

(** Sum of the barycentric numerators. *)
Lemma cramer_w a b c p :
  det a b c * hw p == det b c p * hw a + det c a p * hw b + det a b p * hw c.
Proof. unfold det; ring. Qed.

Lemma cramer_x a b c p :
  det a b c * hx p == det b c p * hx a + det c a p * hx b + det a b p * hx c.
Proof. unfold det; ring. Qed.

Lemma cramer_y a b c p :
  det a b c * hy p == det b c p * hy a + det c a p * hy b + det a b p * hy c.
Proof. unfold det; ring. Qed.

(** ** Small perturbations *)

Lemma small_delta (l : list (Q * Q)) :
  (forall xy, In xy l -> fst xy < 0) ->
  exists d, 0 < d /\ forall e, 0 < e -> e <= d ->
    forall xy, In xy l -> fst xy + e * snd xy < 0.
Proof.
  induction l as [|[x y] l IH]; intros H.
  - exists 1; split; [lra|]. intros e _ _ xy [].
  - destruct IH as (d & Hd & IH); [intros; apply H; now right|].
    assert (Hx : x < 0) by (apply (H (x, y)); now left).
    destruct (Qlt_le_dec 0 y) as [Hy|Hy].
    + set (d' := - x / (2 * y)).
      assert (Hd' : 0 < d').
      { unfold d', Qdiv. apply Qmult_lt_0_compat; [lra|]. apply Qinv_lt_0_compat; lra. }
      assert (Hdy : d' * y == - x / 2).
      { unfold d'. field. lra. }
      exists (if Qlt_le_dec d d' then d else d'). split; [destruct (Qlt_le_dec d d'); auto|].
      intros e He0 He xy [<-|Hin]; simpl.
      * assert (e <= d') by (destruct (Qlt_le_dec d d'); lra).
        assert (e * y <= d' * y) by nra.
        assert (- x / 2 == (1#2) * (- x)) by field.
        lra.
      * apply IH; auto. destruct (Qlt_le_dec d d'); lra.
    + exists d; split; auto. intros e He0 He xy [<-|Hin]; simpl; auto. nra.
Qed.

(** Two open triangles containing [p]: they also contain [p + e * y] for small e > 0. *)
Lemma perturb_open2 a b c a' b' c' p y :
  in_open a b c p -> in_open a' b' c' p ->
  exists e, 0 < e /\ in_open a b c (padd p (pscale e y))
                  /\ in_open a' b' c' (padd p (pscale e y)).
Proof.
  intros (H1 & H2 & H3) (H4 & H5 & H6).
  destruct (small_delta
    [(det a b p, det a b y); (det b c p, det b c y); (det c a p, det c a y);
     (det a' b' p, det a' b' y); (det b' c' p, det b' c' y); (det c' a' p, det c' a' y)])
    as (d & Hd & H).
  { intros xy Hin; simpl in Hin. decompose [or] Hin; subst; simpl; try tauto; auto. }
  specialize (H d Hd (Qle_refl d)).
  exists d; split; auto.
  assert (G : forall u v, In (det u v p, det u v y)
    [(det a b p, det a b y); (det b c p, det b c y); (det c a p, det c a y);
     (det a' b' p, det a' b' y); (det b' c' p, det b' c' y); (det c' a' p, det c' a' y)] ->
    det u v (padd p (pscale d y)) < 0).
  { intros u v Hin. rewrite det_padd, det_pscale. exact (H _ Hin). }
  split; repeat split; apply G; simpl; tauto.
Qed.


(** ** Sign helpers *)

Lemma mul_neg_neg x y : x < 0 -> y < 0 -> 0 < x * y.
Proof. intros; nra. Qed.
Lemma mul_nonpos_nonpos x y : x <= 0 -> y <= 0 -> 0 <= x * y.
Proof. intros; nra. Qed.

Lemma neg_from k z s : k < 0 -> k * z == s -> 0 < s -> z < 0.
Proof. intros; destruct (Qlt_le_dec z 0); auto; nra. Qed.
Lemma nonpos_from k z s : k < 0 -> k * z == s -> 0 <= s -> z <= 0.
Proof. intros; destruct (Qlt_le_dec 0 z); auto; nra. Qed.


(** Half planes are convex: a half plane containing the corners contains the triangle. *)
Lemma bary_nonpos a b c x u v :
  det a b c < 0 -> in_closed a b c x ->
  det u v a <= 0 -> det u v b <= 0 -> det u v c <= 0 -> det u v x <= 0.
Proof.
  intros K (H1 & H2 & H3) A B C.
  apply (nonpos_from _ _ _ K (cramer a b c x u v)).
  pose proof (mul_nonpos_nonpos _ _ H2 A). pose proof (mul_nonpos_nonpos _ _ H3 B).
  pose proof (mul_nonpos_nonpos _ _ H1 C). lra.
Qed.

Lemma bary_neg a b c x u v :
  det a b c < 0 -> in_open a b c x ->
  det u v a <= 0 -> det u v b <= 0 -> det u v c <= 0 ->
  (det u v a < 0 \/ det u v b < 0 \/ det u v c < 0) -> det u v x < 0.
Proof.
  intros K (H1 & H2 & H3) A B C S.
  apply (neg_from _ _ _ K (cramer a b c x u v)).
  assert (P1 := mul_nonpos_nonpos _ _ (Qlt_le_weak _ _ H2) A).
  assert (P2 := mul_nonpos_nonpos _ _ (Qlt_le_weak _ _ H3) B).
  assert (P3 := mul_nonpos_nonpos _ _ (Qlt_le_weak _ _ H1) C).
  destruct S as [S|[S|S]].
  - pose proof (mul_neg_neg _ _ H2 S); lra.
  - pose proof (mul_neg_neg _ _ H3 S); lra.
  - pose proof (mul_neg_neg _ _ H1 S); lra.
Qed.

Lemma in_open_closed a b c x : in_open a b c x -> in_closed a b c x.
Proof. intros (? & ? & ?); repeat split; lra. Qed.

Lemma in_open_rot a b c x : in_open a b c x -> in_open b c a x.
Proof. intros (? & ? & ?); repeat split; assumption. Qed.
Lemma in_closed_rot a b c x : in_closed a b c x -> in_closed b c a x.
Proof. intros (? & ? & ?); repeat split; assumption. Qed.

(** Orientation facts up to rotation, for [lra]. *)
Lemma det_rot3 a b c : det b c a == det a b c /\ det c a b == det a b c.
Proof. split; [apply det_cyc | apply det_cyc2]. Qed.

Lemma det_anti a b c :
  det b a c == - det a b c /\ det a c b == - det a b c /\ det c b a == - det a b c.
Proof. repeat split; [apply det_swap | apply det_swap23 | apply det_swap13]. Qed.

Lemma det_zero a b : det a a b == 0 /\ det a b a == 0 /\ det b a a == 0.
Proof. repeat split; [apply det_aab | apply det_aba | apply det_baa]. Qed.

(** ** Splitting a triangle at an interior point *)

Section Split3.
Variables a b c p : pt3.
Hypothesis Hcw : det a b c < 0.
Hypothesis Hin : in_open a b c p.

Lemma split3_cw : det p a b < 0 /\ det p b c < 0 /\ det p c a < 0.
Proof.
  destruct Hin as (H1 & H2 & H3).
  rewrite <- (det_cyc p a b), <- (det_cyc p b c), <- (det_cyc p c a); auto.
Qed.

Lemma split3_sub x : in_open p b c x -> in_open a b c x.
Proof.
  destruct Hin as (H1 & H2 & H3). intros HX.
  destruct split3_cw as (_ & K & _).
  pose proof (det_zero a b). pose proof (det_zero b a). pose proof (det_zero a c).
  pose proof (det_zero c a). pose proof (det_rot3 a b c).
  split; [|split; [apply HX|]]; apply (bary_neg p b c x _ _ K HX); try lra.
Qed.

Lemma split3_cover x :
  in_closed a b c x -> in_closed p a b x \/ in_closed p b c x \/ in_closed p c a x.
Proof.
  destruct Hin as (H1 & H2 & H3). intros (X1 & X2 & X3).
  assert (S : det b c p * det p a x + det c a p * det p b x + det a b p * det p c x == 0)
    by (unfold det; ring).
  pose proof (det_anti p a x) as (A1 & A2 & A3).
  pose proof (det_anti p b x) as (B1 & B2 & B3).
  pose proof (det_anti p c x) as (C1 & C2 & C3).
  unfold in_closed.
  destruct (Qlt_le_dec 0 (det p a x)) as [La|La];
  destruct (Qlt_le_dec 0 (det p b x)) as [Lb|Lb];
  destruct (Qlt_le_dec 0 (det p c x)) as [Lc|Lc].
  - exfalso. pose proof (Qmult_lt_0_compat _ _ La Lb). nra.
  - right; right; repeat split; lra.
  - right; left; repeat split; lra.
  - right; right; repeat split; lra.
  - left; repeat split; lra.
  - left; repeat split; lra.
  - right; left; repeat split; lra.
  - (* all <= 0 : then all are zero *)
    assert (P1 := mul_nonpos_nonpos _ _ (Qlt_le_weak _ _ H2) La).
    assert (P2 := mul_nonpos_nonpos _ _ (Qlt_le_weak _ _ H3) Lb).
    assert (P3 := mul_nonpos_nonpos _ _ (Qlt_le_weak _ _ H1) Lc).
    assert (det c a p * det p b x == 0) by lra.
    assert (det p b x == 0) by (destruct (Qlt_le_dec (det p b x) 0); [nra|lra]).
    left; repeat split; lra.
Qed.
End Split3.

(** ** Splitting a triangle at a point inside one of its edges *)

Section Split2.
Variables u v c p : pt3.
Hypothesis Hcw : det u v c < 0.
Hypothesis Hon : det u v p == 0.
Hypothesis Hvc : det v c p < 0.
Hypothesis Hcu : det c u p < 0.

Lemma split2_cw : det p c u < 0 /\ det p v c < 0.
Proof.
  pose proof (det_rot3 p c u). pose proof (det_rot3 p v c). lra.
Qed.

(** Any functional sees [p] as a positive combination of [u] and [v]. *)
Lemma split2_comb s t :
  det u v c * det s t p == det v c p * det s t u + det c u p * det s t v.
Proof. rewrite (cramer u v c p s t), Hon. ring. Qed.

(** The triangle on the other side of the edge. *)
Lemma split2_other d : det v u d < 0 -> det u d p < 0 /\ det d v p < 0.
Proof.
  intros Hd.
  pose proof (det_zero u d) as (_ & Z1 & _).
  pose proof (det_zero v d) as (_ & _ & Z2).
  pose proof (det_rot3 v u d) as (R1 & R2).
  split.
  - apply (neg_from _ _ _ Hcw (split2_comb u d)).
    pose proof (mul_neg_neg _ _ Hcu Hd). rewrite Z1, R1. lra.
  - apply (neg_from _ _ _ Hcw (split2_comb d v)).
    pose proof (mul_neg_neg _ _ Hvc Hd).
    rewrite Z2, R2. lra.
Qed.

Lemma split2_sub1 x : in_open p c u x -> in_open u v c x.
Proof.
  intros HX. destruct split2_cw as (K & _).
  pose proof (det_zero u v). pose proof (det_zero v c). pose proof (det_zero c v).
  pose proof (det_rot3 u v c).
  split; [|split; [|apply HX]]; apply (bary_neg p c u x _ _ K HX); lra.
Qed.

Lemma split2_sub2 x : in_open p v c x -> in_open u v c x.
Proof.
  intros HX. destruct split2_cw as (_ & K).
  pose proof (det_zero u v). pose proof (det_zero v u). pose proof (det_zero c u).
  pose proof (det_rot3 u v c).
  split; [|split; [apply HX|]]; apply (bary_neg p v c x _ _ K HX); lra.
Qed.

Lemma split2_cover x : in_closed u v c x -> in_closed p c u x \/ in_closed p v c x.
Proof.
  intros HX.
  pose proof (det_anti p c x) as (A1 & A2 & A3).
  assert (U : det u p x <= 0).
  { apply (bary_nonpos u v c x _ _ Hcw HX).
    - pose proof (det_zero u p); lra.
    - pose proof (det_anti u v p); lra.
    - pose proof (det_rot3 u p c). pose proof (det_rot3 c u p). lra. }
  assert (V : det p v x <= 0).
  { apply (bary_nonpos u v c x _ _ Hcw HX).
    - pose proof (det_rot3 u p v). pose proof (det_rot3 p v u). pose proof (det_anti u v p). lra.
    - pose proof (det_zero v p); lra.
    - pose proof (det_rot3 p v c). lra. }
  destruct HX as (X1 & X2 & X3).
  destruct (Qlt_le_dec 0 (det p c x)); [right|left]; repeat split; lra.
Qed.
End Split2.

(** ** Swapping the diagonal of a strictly convex quad

    [T1 = (q4, q1, q2)] and [T2 = (q2, q1, q3)] become [(q4, q1, q3)] and [(q4, q3, q2)]. *)
Section Flip.
Variables q1 q2 q3 q4 : pt3.
Hypothesis H1 : det q4 q1 q2 < 0.
Hypothesis H2 : det q2 q1 q3 < 0.
Hypothesis N1 : det q4 q1 q3 < 0.
Hypothesis N2 : det q4 q3 q2 < 0.

Lemma flip_sub1 x :
  in_open q4 q1 q3 x -> det q2 q4 x < 0 /\ det q3 q2 x < 0.
Proof.
  intros HX. pose proof (det_rot3 q4 q1 q2). pose proof (det_rot3 q4 q3 q2).
  pose proof (det_rot3 q2 q1 q3). pose proof (det_zero q4 q2). pose proof (det_zero q3 q2).
  split; apply (bary_neg q4 q1 q3 x _ _ N1 HX); lra.
Qed.

Lemma flip_sub2 x :
  in_open q4 q3 q2 x -> det q4 q1 x < 0 /\ det q1 q3 x < 0.
Proof.
  intros HX. pose proof (det_rot3 q4 q1 q3). pose proof (det_rot3 q2 q1 q3).
  pose proof (det_zero q4 q1). pose proof (det_zero q3 q1).
  split; apply (bary_neg q4 q3 q2 x _ _ N2 HX); lra.
Qed.

Lemma flip_in_old x :
  (in_open q4 q1 q3 x \/ in_open q4 q3 q2 x) ->
  ~ det q1 q2 x == 0 -> in_open q4 q1 q2 x \/ in_open q2 q1 q3 x.
Proof.
  intros HX Hne. pose proof (det_anti q1 q2 x) as (A & _).
  assert (C : det q1 q2 x < 0 \/ 0 < det q1 q2 x).
  { destruct (Qlt_le_dec (det q1 q2 x) 0); [auto|right].
    destruct (Qlt_le_dec 0 (det q1 q2 x)); [auto|].
    exfalso; apply Hne. lra. }
  destruct HX as [HX|HX].
  - destruct (flip_sub1 x HX) as (B1 & B2). destruct HX as (X1 & X2 & X3).
    destruct C; [left|right]; repeat split; lra.
  - destruct (flip_sub2 x HX) as (B1 & B2). destruct HX as (X1 & X2 & X3).
    destruct C; [left|right]; repeat split; lra.
Qed.

(** A new triangle meeting an open triangle T forces an old one to meet T. *)
Lemma flip_meet a b c x :
  (in_open q4 q1 q3 x \/ in_open q4 q3 q2 x) -> in_open a b c x ->
  exists y, in_open a b c y /\ (in_open q4 q1 q2 y \/ in_open q2 q1 q3 y).
Proof.
  intros HX HT.
  destruct (Qeq_dec (det q1 q2 x) 0) as [Z|Z].
  - assert (exists e, 0 < e /\ in_open a b c (padd x (pscale e q4)) /\
              (in_open q4 q1 q3 (padd x (pscale e q4)) \/ in_open q4 q3 q2 (padd x (pscale e q4))))
      as (e & He & A & B).
    { destruct HX as [HX|HX];
      destruct (perturb_open2 _ _ _ _ _ _ x q4 HT HX) as (e & He & A & B); exists e; auto. }
    exists (padd x (pscale e q4)). split; auto. apply flip_in_old; auto.
    rewrite det_padd, det_pscale, Z.
    pose proof (det_rot3 q4 q1 q2) as (R & _). rewrite R. nra.
  - exists x; split; auto. apply flip_in_old; auto.
Qed.

Lemma flip_cover1 x : in_closed q4 q1 q2 x -> in_closed q4 q1 q3 x \/ in_closed q4 q3 q2 x.
Proof.
  intros HX. pose proof (det_anti q3 q4 x).
  assert (A : det q1 q3 x <= 0).
  { pose proof (det_rot3 q4 q1 q3). pose proof (det_rot3 q2 q1 q3). pose proof (det_zero q1 q3).
    apply (bary_nonpos q4 q1 q2 x _ _ H1 HX); lra. }
  assert (B : det q3 q2 x <= 0).
  { pose proof (det_rot3 q4 q3 q2). pose proof (det_rot3 q2 q1 q3). pose proof (det_zero q2 q3).
    apply (bary_nonpos q4 q1 q2 x _ _ H1 HX); lra. }
  destruct HX as (X1 & X2 & X3).
  destruct (Qlt_le_dec 0 (det q3 q4 x)); [right|left]; repeat split; lra.
Qed.

Lemma flip_cover2 x : in_closed q2 q1 q3 x -> in_closed q4 q1 q3 x \/ in_closed q4 q3 q2 x.
Proof.
  intros HX. pose proof (det_anti q3 q4 x).
  assert (A : det q4 q1 x <= 0).
  { pose proof (det_rot3 q4 q1 q2). pose proof (det_rot3 q4 q1 q3). pose proof (det_zero q1 q4).
    apply (bary_nonpos q2 q1 q3 x _ _ H2 HX); lra. }
  assert (B : det q2 q4 x <= 0).
  { pose proof (det_rot3 q4 q1 q2). pose proof (det_rot3 q4 q3 q2). pose proof (det_zero q2 q4).
    apply (bary_nonpos q2 q1 q3 x _ _ H2 HX); lra. }
  destruct HX as (X1 & X2 & X3).
  destruct (Qlt_le_dec 0 (det q3 q4 x)); [right|left]; repeat split; lra.
Qed.
End Flip.

(** ** Open against closed triangles *)

(** A point of a closed clockwise triangle can be pushed into its interior. *)
Lemma closed_push a b c x :
  det a b c < 0 -> in_closed a b c x ->
  forall e, 0 < e ->
  in_open a b c (padd x (pscale e (padd a (padd b c)))).
Proof.
  intros K (X1 & X2 & X3) e He.
  pose proof (det_rot3 a b c) as (R1 & R2).
  assert (Z : forall s t r, det s t (padd s (padd t r)) == det s t r)
    by (intros; unfold det, padd; simpl; ring).
  assert (E1 : det a b (padd a (padd b c)) == det a b c) by apply Z.
  assert (E2 : det b c (padd a (padd b c)) == det a b c)
    by (unfold det, padd; simpl; ring).
  assert (E3 : det c a (padd a (padd b c)) == det a b c)
    by (unfold det, padd; simpl; ring).
  repeat split; rewrite det_padd, det_pscale.
  - rewrite E1. nra.
  - rewrite E2. nra.
  - rewrite E3. nra.
Qed.

(** If a point of an open triangle lies in another closed triangle, the two open
    triangles meet. *)
Lemma open_closed_meet a b c a' b' c' x :
  det a' b' c' < 0 -> in_open a b c x -> in_closed a' b' c' x ->
  exists y, in_open a b c y /\ in_open a' b' c' y.
Proof.
  intros K H H'.
  destruct (perturb_open2 _ _ _ _ _ _ x (padd a' (padd b' c')) H H) as (e & He & A & _).
  exists (padd x (pscale e (padd a' (padd b' c')))). split; auto. now apply closed_push.
Qed.

(** Two clockwise triangles on the same side of a common directed edge meet. *)
Lemma same_edge_meet u v c c' :
  det u v c < 0 -> det u v c' < 0 ->
  exists y, in_open u v c y /\ in_open u v c' y.
Proof.
  intros K K'.
  pose proof (det_rot3 u v c) as (R1 & R2). pose proof (det_rot3 u v c') as (R3 & R4).
  set (m := padd u v).
  assert (M : forall d, det v d m == det u v d /\ det d u m == det u v d)
    by (intros; unfold m, det, padd; simpl; split; ring).
  destruct (M c) as (M1 & M2). destruct (M c') as (M3 & M4).
  destruct (small_delta
    [(det v c m, det v c (padd c c')); (det c u m, det c u (padd c c'));
     (det v c' m, det v c' (padd c c')); (det c' u m, det c' u (padd c c'))])
    as (d & Hd & H).
  { intros xy Hin; simpl in Hin. decompose [or] Hin; subst; simpl; try tauto; lra. }
  specialize (H d Hd (Qle_refl d)).
  exists (padd m (pscale d (padd c c'))).
  assert (E : det u v (padd m (pscale d (padd c c'))) == d * (det u v c + det u v c'))
    by (unfold m, det, padd, pscale; simpl; ring).
  assert (En : det u v (padd m (pscale d (padd c c'))) < 0) by (rewrite E; nra).
  assert (G : forall s t, In (det s t m, det s t (padd c c'))
    [(det v c m, det v c (padd c c')); (det c u m, det c u (padd c c'));
     (det v c' m, det v c' (padd c c')); (det c' u m, det c' u (padd c c'))] ->
     det s t (padd m (pscale d (padd c c'))) < 0).
  { intros s t Hin. rewrite det_padd, det_pscale. exact (H _ Hin). }
  split; repeat split; auto; apply G; simpl; tauto.
Qed.
