(** * GridExact: the predicates are exact on grid vertices. *)

From Coq Require Import ZArith NArith List Bool Lia QArith Qabs Qround Lqa.
From Verif Require Import Base BaseFacts Arith Types Utils Infinite Triangulation Geom Mesh Exact
  ExactC Rep.
Import ListNotations.
Local Open Scope Q_scope.

Section Grid.
Context {E : Env}.
Variable rep : F -> Q -> Prop.
Variable repr : Q -> Prop.
Variable pb : Z.
Variable ep : Q.
Hypothesis R : Rep rep repr pb ep.
Variable S : Z.
Hypothesis S1 : (1 <= S)%Z.
Hypothesis repr4 : forall q, G S 4 8 q -> repr q.
Hypothesis repr2 : forall q, G S 2 64 (8 * q) -> repr q.
Hypothesis Seps : ep <= / inject_Z (S ^ 2).

Notation coord := (coord rep S).
Notation gf := (gf rep S).
Notation G := (G S).

Lemma Seps1 : ep <= / inject_Z (S ^ 1).
Proof.
  eapply Qle_trans; [exact Seps|].
  assert (P1 : (0 < S ^ 1)%Z) by lia. assert (P2 : (0 < S ^ 2)%Z) by lia.
  assert (Q1 : 0 < inject_Z (S ^ 1)) by (change 0 with (inject_Z 0); now rewrite <- Zlt_Qlt).
  assert (Q2 : 0 < inject_Z (S ^ 2)) by (change 0 with (inject_Z 0); now rewrite <- Zlt_Qlt).
  assert (inject_Z (S ^ 1) <= inject_Z (S ^ 2)) by (rewrite <- Zle_Qle; nia).
  apply Qle_shift_inv_l; auto. setoid_replace (/ inject_Z (S ^ 2) * inject_Z (S ^ 1)) with (inject_Z (S ^ 1) / inject_Z (S ^ 2)) by (field; lra).
  apply Qle_shift_div_r; auto. lra.
Qed.

(** Comparisons of a grid number with 0 and with the tolerance. *)
Lemma left_side n b x q : gf n b x q -> (is_on_left_side x = true <-> 0 < q).
Proof. intros (A & _). exact (rp_lt _ _ _ _ R _ _ _ _ (rp_0 _ _ _ _ R) A). Qed.

Lemma right_side n b x q : gf n b x q -> (is_on_right_side x = true <-> q < 0).
Proof. intros (A & _). exact (rp_lt _ _ _ _ R _ _ _ _ A (rp_0 _ _ _ _ R)). Qed.

Lemma G_gap' n b q : G n b q -> (n = 1 \/ n = 2)%nat -> ~ q == 0 -> ep <= Qabs q.
Proof.
  intros H Hn Hq.
  assert (K : forall p, G n b p -> 0 < p -> ep <= p).
  { intros p Hp Pp. eapply Qle_trans; [|exact (G_gap S S1 _ _ _ Hp Pp)].
    destruct Hn as [-> | ->]; [exact Seps1|exact Seps]. }
  destruct (Qlt_le_dec 0 q) as [P|P].
  - rewrite Qabs_pos by lra. auto.
  - rewrite Qabs_neg by lra. apply K; [now apply (G_opp S S1)|lra].
Qed.

Lemma near_edge n b x q : gf n b x q -> (n = 1 \/ n = 2)%nat -> (is_near_edge x = true <-> q == 0).
Proof.
  intros (A & B) Hn. unfold is_near_edge.
  rewrite (rp_lt _ _ _ _ R _ _ _ _ (rp_abs _ _ _ _ R _ _ A) (rp_eps _ _ _ _ R)). split; intros H.
  - destruct (Qeq_dec q 0) as [|Hq]; auto. pose proof (G_gap' n b q B Hn Hq). lra.
  - rewrite H. apply (rr_ep _ _ _ _ R).
Qed.

Lemma strict_right n b x q : gf n b x q -> (n = 1 \/ n = 2)%nat -> (fle x (fneg feps) = true <-> q < 0).
Proof.
  intros (A & B) Hn. rewrite (rp_le _ _ _ _ R _ _ _ _ A (rp_neg _ _ _ _ R _ _ (rp_eps _ _ _ _ R))). split; intros H.
  - assert (0 < ep) by apply (rr_ep _ _ _ _ R). lra.
  - pose proof (G_gap' n b q B Hn) as K. assert (Hq : ~ q == 0) by lra. specialize (K Hq).
    rewrite Qabs_neg in K by lra. lra.
Qed.

(** ** The vertices *)
Variable vs : list vertex.
Variables ux uy : N -> Q.
Hypothesis Hlen : (lenN vs <= INF0)%N.
Hypothesis Hid : (3 <= idmax)%N.
Hypothesis Hvs : forall v p, nthN vs v = Some p -> coord (vx p) (ux v) /\ coord (vy p) (uy v).

Notation pos := (hpos ux uy).
Notation D a b c := (det (pos a) (pos b) (pos c)).

Lemma fin_index v p : nthN vs v = Some p -> is_finite v = true.
Proof. clear - Hlen. intros H. apply nthN_lt in H. unfold is_finite. apply N.ltb_lt. lia. Qed.

Lemma pos_index v p : nthN vs v = Some p -> pos v = P3 (ux v) (uy v) 1.
Proof. intros H. apply hpos_fin. eapply fin_index; eauto. Qed.

Definition tpe (xa ya xb yb xp yp : Q) : Q := (yp - ya) * (xb - xa) - (xp - xa) * (yb - ya).

Lemma side_gf a b p va vb vp :
  nthN vs a = Some va -> nthN vs b = Some vb -> nthN vs p = Some vp ->
  gf 2 2 (test_point_edge_side (va, vb) vp) (D a b p).
Proof.
  intros A B P. destruct (Hvs _ _ A) as (A1 & A2). destruct (Hvs _ _ B) as (B1 & B2).
  destruct (Hvs _ _ P) as (P1 & P2). unfold test_point_edge_side.
  pose proof (cross_gf rep repr pb ep R S S1 repr4 _ _ _ _ _ _ _ _ _ _ _ _ _ _ _ _ A2 P2 A1 B1 A1 P1 A2 B2) as (K1 & K2).
  rewrite (pos_index _ _ A), (pos_index _ _ B), (pos_index _ _ P).
  set (e := (uy p - uy a) * (ux b - ux a) - (ux p - ux a) * (uy b - uy a)) in *.
  assert (Q : e == det (P3 (ux a) (uy a) 1) (P3 (ux b) (uy b) 1) (P3 (ux p) (uy p) 1)).
  { unfold e, det; simpl. ring. }
  split; [eapply (rp_compat _ _ _ _ R); eauto|eapply (G_compat S); eauto].
Qed.

(** Infinite directions. *)
Lemma inf_index k q : infinite_vertex_local_quad_index k = Some q ->
  is_finite k = false /\
  pos k = match q with Q1 => P3 (-1) 0 0 | Q2 => P3 0 1 0 | Q3 => P3 1 0 0 | Q4 => P3 0 (-1) 0 end.
Proof.
  unfold infinite_vertex_local_quad_index, hpos.
  destruct (is_finite k); [discriminate|]. intros H. split; auto.
  destruct (k =? INF0)%N; [injection H as <-; reflexivity|].
  destruct (k =? INF1)%N; [injection H as <-; reflexivity|].
  destruct (k =? INF2)%N; injection H as <-; reflexivity.
Qed.

(** The rounded far end of a ray: beyond the unit square. *)
Lemma repr_8 z : (Z.abs z <= 64)%Z -> repr (inject_Z z / 8).
Proof.
  intros H. apply (rr_compat _ _ _ _ R (inject_Z (z * 16) / 128)).
  - apply (small_repr _ _ _ _ R). lia.
  - rewrite inject_Z_mult. change (inject_Z 16) with 16. field.
Qed.

Lemma repr_int z : (Z.abs z <= 8)%Z -> repr (inject_Z z).
Proof.
  intros H. apply (rr_compat _ _ _ _ R (inject_Z (z * 8) / 8)); [apply repr_8; lia|].
  rewrite inject_Z_mult. change (inject_Z 8) with 8. field.
Qed.

Lemma abs_big q : - (100) <= q -> q <= 100 -> Qabs q <= big.
Proof.
  intros A B. apply Qle_trans with 100; [|discriminate]. now apply Qabs_Qle_condition.
Qed.

(** x + 1.42 and x - 1.42 *)
Lemma far_plus x u : coord x u -> exists d, rep (fadd x fdelta) d /\ (11 # 8) <= d <= 3.
Proof.
  intros ((A & _) & P). destruct (rp_delta _ _ _ _ R) as (dl & Hd & L).
  destruct (rp_add _ _ _ _ R _ _ _ _ A Hd) as (d & Rd & Rn); [apply abs_big; lra|].
  exists d. split; auto. split.
  - apply (Rn (11 # 8)); [exact (repr_8 11 ltac:(lia))|]. lra.
  - apply (Rn 3); [exact (repr_int 3 ltac:(lia))|]. lra.
Qed.

Lemma far_minus x u : coord x u -> exists d, rep (fadd x (fneg fdelta)) d /\ -(2) <= d <= - (3 # 8).
Proof.
  intros ((A & _) & P). destruct (rp_delta _ _ _ _ R) as (dl & Hd & L).
  destruct (rp_add _ _ _ _ R _ _ _ _ A (rp_neg _ _ _ _ R _ _ Hd)) as (d & Rd & Rn); [apply abs_big; lra|].
  exists d. split; auto. split.
  - apply (Rn (-(2))); [exact (repr_int (-2) ltac:(lia))|]. lra.
  - apply (Rn (- (3#8))); [exact (repr_8 (-3) ltac:(lia))|]. lra.
Qed.

Lemma add0 x u : coord x u -> coord (fadd x f0) u.
Proof.
  intros ((A & B) & P). split; auto. split; auto.
  eapply (rp_compat _ _ _ _ R).
  - apply (add_exact _ _ _ _ R); [exact A|apply (rp_0 _ _ _ _ R)| |].
    + apply abs_big; lra.
    + apply (rr_compat _ _ _ _ R u); [eapply (repr_G repr S S1 repr4); eauto; lia|ring].
  - ring.
Qed.

(** Far coordinate, relative to a grid coordinate: a difference of known sign and size. *)
Lemma far_sub x d y u : rep x d -> -(2) <= d <= 3 -> coord y u ->
  exists e, rep (fsub x y) e /\ -(3) <= e <= 3 /\
    (11 # 8 <= d -> (11 # 8) - u <= e) /\ (d <= - (3 # 8) -> e <= - (3 # 8) - u).
Proof.
  intros Hd L ((A & B) & P).
  destruct (rp_sub _ _ _ _ R _ _ _ _ Hd A) as (e & Re & Rn); [apply abs_big; lra|].
  assert (K : forall z, (Z.abs z <= 16)%Z -> repr (inject_Z z / 8 - u)).
  { intros z Hz. apply repr2.
    assert (G0 : G 1 16 (inject_Z z)).
    { exists (z * S)%Z. change (Z.of_nat 1) with 1%Z. change (Z.of_nat 16) with 16%Z. rewrite Z.pow_1_r. split.
      - rewrite Z.abs_mul, (Z.abs_eq S) by lia. nia.
      - rewrite inject_Z_mult. reflexivity. }
    assert (G8 : G 1 8 (8 * u)).
    { apply (G_compat S 1 8 (inject_Z 8 * u)); [|reflexivity].
      destruct B as (w & B1 & B2). exists (8 * w)%Z. split; [lia|]. rewrite inject_Z_mult, <- B2. ring. }
    assert (Gd := G_sub S S1 _ _ _ _ _ G0 G8).
    apply (G_compat S 2 64 (inject_Z z - 8 * u)); [|field].
    apply (G_up S S1). eapply (G_weak S S1); [exact Gd|lia]. }
  exists e. split; auto. split; [split|split].
  - apply (Rn (-(3))); [exact (repr_int (-3) ltac:(lia))|]. lra.
  - apply (Rn 3); [exact (repr_int 3 ltac:(lia))|]. lra.
  - intros Hf. apply (Rn ((11#8) - u)); [|lra]. exact (K 11%Z ltac:(lia)).
  - intros Hf. apply (Rn (- (3#8) - u)); [|lra]. exact (K (-3)%Z ltac:(lia)).
Qed.

(** A product with a grid difference keeps its sign and stays away from 0. *)
Lemma far_mul x e y w : rep x e -> -(3) <= e <= 3 -> gf 1 1 y w ->
  exists m, rep (fmul x y) m /\
    (forall t z, t = inject_Z z / 8 -> (Z.abs z <= 24)%Z -> (t * w <= e * w -> t * w <= m) /\ (e * w <= t * w -> m <= t * w)).
Proof.
  intros He L (A & B). pose proof (G_abs S S1 _ _ _ B) as Wb. simpl in Wb.
  apply Qabs_Qle_condition in Wb. change (inject_Z 1) with 1 in Wb.
  destruct (rp_mul _ _ _ _ R _ _ _ _ He A) as (m & Rm & Rn); [apply abs_big; nra|].
  exists m. split; auto. intros t z -> Hz. apply (Rn (inject_Z z / 8 * w)).
  apply repr2. apply (G_up S S1). apply (G_weak S S1 _ 24); [|lia].
  apply (G_compat S 1 24 (inject_Z z * w)); [|field].
  destruct B as (v & B1 & B2). exists (z * v)%Z. split.
  - rewrite Z.abs_mul. change (Z.of_nat 1) with 1%Z in *. change (Z.of_nat 24) with 24%Z. nia.
  - rewrite inject_Z_mult, <- B2. ring.
Qed.

(** ** Signs of orientations *)
Definition os (o : orientation) (s : Q) : Prop :=
  match o with Colinear => s == 0 | Clockwise => s < 0 | CounterClockwise => 0 < s end.

Lemma os_val v s w :
  rep v w -> (s == 0 -> w == 0) -> (s < 0 -> 0 < w) -> (0 < s -> w < 0) ->
  os (if feq v f0 then Colinear else if flt f0 v then Clockwise else CounterClockwise) s.
Proof.
  intros Hv H0 H1 H2. pose proof (rp_eq _ _ _ _ R _ _ _ _ Hv (rp_0 _ _ _ _ R)) as Ke.
  pose proof (rp_lt _ _ _ _ R _ _ _ _ (rp_0 _ _ _ _ R) Hv) as Kl.
  destruct (feq v f0); [|destruct (flt f0 v)]; cbn [os].
  - assert (w == 0) by tauto. destruct (Q_dec s 0) as [[A|A]|A]; auto; [specialize (H1 A)|specialize (H2 A)]; lra.
  - assert (0 < w) by tauto. destruct (Q_dec s 0) as [[A|A]|A]; auto; [specialize (H2 A)|specialize (H0 A)]; lra.
  - assert (N1 : ~ w == 0) by (intros A; apply Ke in A; discriminate).
    assert (N2 : ~ 0 < w) by (intros A; apply Kl in A; discriminate).
    destruct (Q_dec s 0) as [[A|A]|A]; auto; [specialize (H1 A)|specialize (H0 A)]; lra.
Qed.

Lemma os_fun o s o' s' : os o s -> os o' s' ->
  (o = o' <-> (s == 0 /\ s' == 0) \/ (s < 0 /\ s' < 0) \/ (0 < s /\ 0 < s')).
Proof.
  intros A B. destruct o, o'; cbn [os] in *; split; intros H; try discriminate; auto; try (exfalso; lra).
Qed.

(** Three vertices. *)
Lemma os_fin a b c va vb vc :
  nthN vs a = Some va -> nthN vs b = Some vb -> nthN vs c = Some vc ->
  os (triplet_orientation va vb vc) (D a b c).
Proof.
  intros A B C. destruct (Hvs _ _ A) as (A1 & A2). destruct (Hvs _ _ B) as (B1 & B2).
  destruct (Hvs _ _ C) as (C1 & C2). unfold triplet_orientation.
  pose proof (cross_gf rep repr pb ep R S S1 repr4 _ _ _ _ _ _ _ _ _ _ _ _ _ _ _ _ A2 B2 B1 C1 A1 B1 B2 C2) as (K1 & K2).
  rewrite (pos_index _ _ A), (pos_index _ _ B), (pos_index _ _ C).
  set (e := (uy b - uy a) * (ux c - ux b) - (ux b - ux a) * (uy c - uy b)) in *.
  assert (Q : e == - det (P3 (ux a) (uy a) 1) (P3 (ux b) (uy b) 1) (P3 (ux c) (uy c) 1)).
  { unfold e, det; simpl. ring. }
  eapply os_val; [exact K1| | |]; rewrite Q; lra.
Qed.

(** Products and differences with far coordinates. *)
Lemma mul_zero x y e : rep x 0 -> rep y e -> -(100) <= e <= 100 -> rep (fmul x y) 0.
Proof.
  intros A B L. eapply (rp_compat _ _ _ _ R).
  - apply (mul_exact _ _ _ _ R); [exact A|exact B| |].
    + apply abs_big; lra.
    + apply (rr_compat _ _ _ _ R (inject_Z 0)); [apply repr_int; lia|]. change (inject_Z 0) with 0. ring.
  - ring.
Qed.

Lemma mul_zero_r x y e : rep x 0 -> rep y e -> -(100) <= e <= 100 -> rep (fmul y x) 0.
Proof.
  intros A B L. eapply (rp_compat _ _ _ _ R).
  - apply (mul_exact _ _ _ _ R); [exact B|exact A| |].
    + apply abs_big; lra.
    + apply (rr_compat _ _ _ _ R (inject_Z 0)); [apply repr_int; lia|]. change (inject_Z 0) with 0. ring.
  - ring.
Qed.

(** Coordinates reachable from a far end: bounded. *)
Definition ext (x : F) (e : Q) : Prop := rep x e /\ -(2) <= e <= 3.

Lemma coord_ext x u : coord x u -> ext x u.
Proof. intros ((A & _) & P). split; auto. lra. Qed.

Lemma ext_sub x y e d : ext x e -> ext y d -> exists q, rep (fsub x y) q /\ -(8) <= q <= 8.
Proof.
  intros (A & P) (B & P').
  destruct (rp_sub _ _ _ _ R _ _ _ _ A B) as (q & Rq & Rn); [apply abs_big; lra|].
  exists q. split; auto. split.
  - apply (Rn (-(8))); [exact (repr_int (-8) ltac:(lia))|]. lra.
  - apply (Rn 8); [exact (repr_int 8 ltac:(lia))|]. lra.
Qed.

Lemma same_sub x y u : coord x u -> coord y u -> rep (fsub x y) 0.
Proof.
  intros A B. destruct (coord_sub rep repr pb ep R S S1 repr4 _ _ _ _ A B) as (K & _).
  eapply (rp_compat _ _ _ _ R); [exact K|ring].
Qed.

Lemma repr_38 y w z : gf 1 1 y w -> (Z.abs z <= 24)%Z -> repr (inject_Z z / 8 * w).
Proof.
  intros (A & B) Hz. apply repr2. apply (G_up S S1). apply (G_weak S S1 _ 24); [|lia].
  apply (G_compat S 1 24 (inject_Z z * w)); [|field].
  destruct B as (v & B1 & B2). exists (z * v)%Z. split.
  - rewrite Z.abs_mul. change (Z.of_nat 1) with 1%Z in *. change (Z.of_nat 24) with 24%Z. nia.
  - rewrite inject_Z_mult, <- B2. ring.
Qed.

(** [signed m w]: m has the sign of w, and is at least 3/8 of it. *)
Definition signed (m w : Q) : Prop :=
  (0 < w -> (3 # 8) * w <= m) /\ (w < 0 -> m <= (3 # 8) * w) /\ (w == 0 -> m == 0).

Lemma signed_mul x e y w : rep x e -> -(8) <= e <= 8 -> gf 1 1 y w ->
  exists m, rep (fmul y x) m /\ Qabs m <= 100 /\ (3 # 8 <= e -> signed m w) /\ (e <= - (3 # 8) -> signed m (- w)).
Proof.
  intros He L Hy. pose proof Hy as (A & B). pose proof (G_abs S S1 _ _ _ B) as Wb. simpl in Wb.
  apply Qabs_Qle_condition in Wb. change (inject_Z 1) with 1 in Wb.
  destruct (rp_mul _ _ _ _ R _ _ _ _ A He) as (m & Rm & Rn).
  { apply abs_big; nra. }
  pose proof (Rn ((3 # 8) * w) (repr_38 y w 3 Hy ltac:(lia))) as (P1 & P2).
  pose proof (Rn (- (3 # 8) * w) (repr_38 y w (-3) Hy ltac:(lia))) as (P3' & P4).
  pose proof (Rn 0 (repr_int 0 ltac:(lia))) as (P5 & P6).
  pose proof (Rn 8 (repr_int 8 ltac:(lia))) as (_ & P7).
  pose proof (Rn (-(8)) (repr_int (-8) ltac:(lia))) as (P8 & _).
  assert (B8 : Qabs m <= 100).
  { assert (m <= 8) by (apply P7; nra). assert (-(8) <= m) by (apply P8; nra).
    apply Qabs_Qle_condition. lra. }
  exists m. split; auto. split; auto. split; intros K; repeat split; intros W.
  - apply P1. nra.
  - apply P2. nra.
  - assert (0 <= m) by (apply P5; rewrite W; lra). assert (m <= 0) by (apply P6; rewrite W; lra). lra.
  - assert ((- (3#8)) * w <= m) by (apply P3'; nra). lra.
  - assert (m <= (- (3#8)) * w) by (apply P4; nra). lra.
  - assert (W' : w == 0) by lra.
    assert (0 <= m) by (apply P5; rewrite W'; lra). assert (m <= 0) by (apply P6; rewrite W'; lra). lra.
Qed.

Lemma signed_mul' x e y w : rep x e -> -(8) <= e <= 8 -> gf 1 1 y w ->
  exists m, rep (fmul x y) m /\ Qabs m <= 100 /\ (3 # 8 <= e -> signed m w) /\ (e <= - (3 # 8) -> signed m (- w)).
Proof.
  intros He L Hy. pose proof Hy as (A & B). pose proof (G_abs S S1 _ _ _ B) as Wb. simpl in Wb.
  apply Qabs_Qle_condition in Wb. change (inject_Z 1) with 1 in Wb.
  destruct (rp_mul _ _ _ _ R _ _ _ _ He A) as (m & Rm & Rn).
  { apply abs_big; nra. }
  pose proof (Rn ((3 # 8) * w) (repr_38 y w 3 Hy ltac:(lia))) as (P1 & P2).
  pose proof (Rn (- (3 # 8) * w) (repr_38 y w (-3) Hy ltac:(lia))) as (P3' & P4).
  pose proof (Rn 0 (repr_int 0 ltac:(lia))) as (P5 & P6).
  pose proof (Rn 8 (repr_int 8 ltac:(lia))) as (_ & P7).
  pose proof (Rn (-(8)) (repr_int (-8) ltac:(lia))) as (P8 & _).
  assert (B8 : Qabs m <= 100).
  { assert (m <= 8) by (apply P7; nra). assert (-(8) <= m) by (apply P8; nra).
    apply Qabs_Qle_condition. lra. }
  exists m. split; auto. split; auto. split; intros K; repeat split; intros W.
  - apply P1. nra.
  - apply P2. nra.
  - assert (0 <= m) by (apply P5; rewrite W; lra). assert (m <= 0) by (apply P6; rewrite W; lra). lra.
  - assert ((- (3#8)) * w <= m) by (apply P3'; nra). lra.
  - assert (m <= (- (3#8)) * w) by (apply P4; nra). lra.
  - assert (W' : w == 0) by lra.
    assert (0 <= m) by (apply P5; rewrite W'; lra). assert (m <= 0) by (apply P6; rewrite W'; lra). lra.
Qed.

(** x - 0 and 0 - x *)
Lemma signed_sub x m z y w : rep x m -> Qabs m <= 100 -> rep z 0 -> gf 1 1 y w -> signed m w ->
  (exists q, rep (fsub x z) q /\ signed q w) /\ (exists q, rep (fsub z x) q /\ signed q (- w)).
Proof.
  intros Hx L Hz Hy (C1 & C2 & C3). apply Qabs_Qle_condition in L. split.
  - destruct (rp_sub _ _ _ _ R _ _ _ _ Hx Hz) as (q & Rq & Rn); [apply abs_big; lra|].
    pose proof (Rn ((3 # 8) * w) (repr_38 y w 3 Hy ltac:(lia))) as (P1 & P2).
    pose proof (Rn 0 (repr_int 0 ltac:(lia))) as (P5 & P6).
    exists q. split; auto. repeat split; intros W.
    + apply P1. specialize (C1 W). lra.
    + apply P2. specialize (C2 W). lra.
    + specialize (C3 W). assert (0 <= q) by (apply P5; lra). assert (q <= 0) by (apply P6; lra). lra.
  - destruct (rp_sub _ _ _ _ R _ _ _ _ Hz Hx) as (q & Rq & Rn); [apply abs_big; lra|].
    pose proof (Rn (- (3 # 8) * w) (repr_38 y w (-3) Hy ltac:(lia))) as (P1 & P2).
    pose proof (Rn 0 (repr_int 0 ltac:(lia))) as (P5 & P6).
    exists q. split; auto. repeat split; intros W.
    + assert (Wn : w < 0) by lra. specialize (C2 Wn). assert (- (3#8) * w <= q) by (apply P1; lra). lra.
    + assert (Wn : 0 < w) by lra. specialize (C1 Wn). assert (q <= - (3#8) * w) by (apply P2; lra). lra.
    + assert (Wn : w == 0) by lra. specialize (C3 Wn).
      assert (0 <= q) by (apply P5; lra). assert (q <= 0) by (apply P6; lra). lra.
Qed.

(** ** The far end of a ray *)
Definition far (vf : vertex) (q : qidx) : vertex := snd (edge_from_semi_infinite_edge vf q).

Definition is_far (x : F) (pos : bool) : Prop :=
  exists e, rep x e /\ -(2) <= e <= 3 /\ (if pos then 11 # 8 <= e else e <= - (3 # 8)).

Lemma far_spec f vf q : nthN vs f = Some vf ->
  match q with
  | Q1 => is_far (vx (far vf q)) false /\ coord (vy (far vf q)) (uy f)
  | Q2 => coord (vx (far vf q)) (ux f) /\ is_far (vy (far vf q)) true
  | Q3 => is_far (vx (far vf q)) true /\ coord (vy (far vf q)) (uy f)
  | Q4 => coord (vx (far vf q)) (ux f) /\ is_far (vy (far vf q)) false
  end.
Proof.
  intros H. destruct (Hvs _ _ H) as (A & B).
  destruct q; unfold far, edge_from_semi_infinite_edge; cbn [snd inf_dx inf_dy vx vy fst].
  - split; [|now apply add0]. destruct (far_minus _ _ A) as (e & Re & L). exists e. split; auto. split; lra.
  - split; [now apply add0|]. destruct (far_plus _ _ B) as (e & Re & L). exists e. split; auto. split; lra.
  - split; [|now apply add0]. destruct (far_plus _ _ A) as (e & Re & L). exists e. split; auto. split; lra.
  - split; [now apply add0|]. destruct (far_minus _ _ B) as (e & Re & L). exists e. split; auto. split; lra.
Qed.

Lemma is_far_ext x b : is_far x b -> exists e, ext x e.
Proof. intros (e & A & B & _). exists e. split; auto. Qed.

Lemma is_far_sub x b y u : is_far x b -> coord y u ->
  exists e, rep (fsub x y) e /\ -(8) <= e <= 8 /\ (if b then 3 # 8 <= e else e <= - (3 # 8)).
Proof.
  intros (d & A & B & C) Hy. destruct (far_sub _ _ _ _ A B Hy) as (e & Re & L & P1 & P2).
  destruct Hy as (_ & Hu). exists e. split; auto. split; [lra|].
  destruct b; [specialize (P1 C)|specialize (P2 C)]; lra.
Qed.

(** The sign of [e * w] where e = (far - y): w or -w. *)
Definition sgn (b : bool) (w : Q) : Q := if b then w else - w.

Lemma far_prod x b y u g w : is_far x b -> coord y u -> gf 1 1 g w ->
  exists m, rep (fmul g (fsub x y)) m /\ Qabs m <= 100 /\ signed m (sgn b w).
Proof.
  intros Fx Hy Hg. destruct (is_far_sub _ _ _ _ Fx Hy) as (e & Re & L & K).
  destruct (signed_mul _ _ _ _ Re L Hg) as (m & Rm & Bm & P1 & P2). exists m. split; auto. split; auto.
  destruct b; auto.
Qed.

Lemma far_prod' x b y u g w : is_far x b -> coord y u -> gf 1 1 g w ->
  exists m, rep (fmul (fsub x y) g) m /\ Qabs m <= 100 /\ signed m (sgn b w).
Proof.
  intros Fx Hy Hg. destruct (is_far_sub _ _ _ _ Fx Hy) as (e & Re & L & K).
  destruct (signed_mul' _ _ _ _ Re L Hg) as (m & Rm & Bm & P1 & P2). exists m. split; auto. split; auto.
  destruct b; auto.
Qed.

Lemma gf_opp y w : gf 1 1 y w -> gf 1 1 (fneg y) (- w).
Proof. intros (A & B). split; [now apply (rp_neg _ _ _ _ R)|now apply (G_opp S S1)]. Qed.

Lemma gf_sgn (b : bool) y w : gf 1 1 y w -> gf 1 1 (if b then y else fneg y) (sgn b w).
Proof. destruct b; auto. apply gf_opp. Qed.

Lemma prod_sub x b y u g w z : is_far x b -> coord y u -> gf 1 1 g w -> rep z 0 ->
  (exists q, rep (fsub (fmul g (fsub x y)) z) q /\ signed q (sgn b w)) /\
  (exists q, rep (fsub z (fmul g (fsub x y))) q /\ signed q (- sgn b w)).
Proof.
  intros Fx Hy Hg Hz. destruct (far_prod _ _ _ _ _ _ Fx Hy Hg) as (m & Rm & Bm & Sm).
  exact (signed_sub _ _ _ _ _ Rm Bm Hz (gf_sgn b _ _ Hg) Sm).
Qed.

Lemma prod_sub' x b y u g w z : is_far x b -> coord y u -> gf 1 1 g w -> rep z 0 ->
  (exists q, rep (fsub (fmul (fsub x y) g) z) q /\ signed q (sgn b w)) /\
  (exists q, rep (fsub z (fmul (fsub x y) g)) q /\ signed q (- sgn b w)).
Proof.
  intros Fx Hy Hg Hz. destruct (far_prod' _ _ _ _ _ _ Fx Hy Hg) as (m & Rm & Bm & Sm).
  exact (signed_sub _ _ _ _ _ Rm Bm Hz (gf_sgn b _ _ Hg) Sm).
Qed.

(** A grid difference times zero. *)
Lemma grid_zero g w x : gf 1 1 g w -> rep x 0 -> rep (fmul g x) 0.
Proof.
  intros (A & B) Hx. pose proof (G_abs S S1 _ _ _ B) as Wb. apply Qabs_Qle_condition in Wb. change (inject_Z (Z.of_nat 1)) with 1 in Wb.
  apply (mul_zero_r x g w); auto. lra.
Qed.

(** ** The side of a semi infinite edge *)
Lemma semi_val a k q p va vp :
  nthN vs a = Some va -> infinite_vertex_local_quad_index k = Some q -> nthN vs p = Some vp ->
  exists m w y, rep (test_point_edge_side (edge_from_semi_infinite_edge va q) vp) m /\
    gf 1 1 y w /\ signed m w /\ w == D a k p.
Proof.
  intros A K P. destruct (Hvs _ _ A) as (A1 & A2). destruct (Hvs _ _ P) as (P1 & P2).
  destruct (inf_index _ _ K) as (_ & Ek). rewrite (pos_index _ _ A), (pos_index _ _ P), Ek.
  pose proof (far_spec _ _ q A) as Fs.
  change (edge_from_semi_infinite_edge va q) with (va, far va q). unfold test_point_edge_side.
  pose proof (coord_sub rep repr pb ep R S S1 repr4 _ _ _ _ P2 A2) as Gy.
  pose proof (coord_sub rep repr pb ep R S S1 repr4 _ _ _ _ P1 A1) as Gx.
  destruct q; destruct Fs as (F1 & F2).
  - pose proof (grid_zero _ _ _ Gx (same_sub _ _ _ F2 A2)) as Z.
    destruct (prod_sub _ _ _ _ _ _ _ F1 A1 Gy Z) as ((m & Rm & Sm) & _).
    exists m, (sgn false (uy p - uy a)), (fneg (fsub (vy vp) (vy va))).
    split; [exact Rm|]. split; [exact (gf_sgn false _ _ Gy)|]. split; [exact Sm|]. unfold sgn, det; simpl. ring.
  - pose proof (grid_zero _ _ _ Gy (same_sub _ _ _ F1 A1)) as Z.
    destruct (prod_sub _ _ _ _ _ _ _ F2 A2 Gx Z) as (_ & (m & Rm & Sm)).
    exists m, (- sgn true (ux p - ux a)), (fneg (fsub (vx vp) (vx va))).
    split; [exact Rm|]. split; [exact (gf_opp _ _ Gx)|]. split; [exact Sm|]. unfold sgn, det; simpl. ring.
  - pose proof (grid_zero _ _ _ Gx (same_sub _ _ _ F2 A2)) as Z.
    destruct (prod_sub _ _ _ _ _ _ _ F1 A1 Gy Z) as ((m & Rm & Sm) & _).
    exists m, (sgn true (uy p - uy a)), (fsub (vy vp) (vy va)).
    split; [exact Rm|]. split; [exact Gy|]. split; [exact Sm|]. unfold sgn, det; simpl. ring.
  - pose proof (grid_zero _ _ _ Gy (same_sub _ _ _ F1 A1)) as Z.
    destruct (prod_sub _ _ _ _ _ _ _ F2 A2 Gx Z) as (_ & (m & Rm & Sm)).
    exists m, (- sgn false (ux p - ux a)), (fneg (fneg (fsub (vx vp) (vx va)))).
    split; [exact Rm|]. split; [exact (gf_opp _ _ (gf_opp _ _ Gx))|]. split; [exact Sm|]. unfold sgn, det; simpl. ring.
Qed.

Lemma eps38 y w : gf 1 1 y w -> 0 < w -> ep <= (3 # 8) * w.
Proof.
  intros (_ & B) H. pose proof (G_gap S S1 _ _ _ B H) as L. change (Z.of_nat 1) with 1%Z in L. rewrite Z.pow_1_r in L.
  assert (PS : 1 <= inject_Z S) by (change 1 with (inject_Z 1); rewrite <- Zle_Qle; lia).
  assert (L2 : ep <= (3 # 8) * / inject_Z S).
  { destruct (Z.leb_spec 3 S) as [H3|H3].
    - assert (P3S : 3 <= inject_Z S) by (change 3 with (inject_Z 3); rewrite <- Zle_Qle; lia).
      eapply Qle_trans; [exact Seps|].
      assert (Q2 : / inject_Z (S ^ 2) == / inject_Z S * / inject_Z S).
      { rewrite Z.pow_2_r, inject_Z_mult. field. lra. }
      rewrite Q2.
      assert (P : 0 < / inject_Z S) by (apply Qinv_lt_0_compat; lra).
      assert (P' : / inject_Z S <= 3 # 8).
      { apply Qle_shift_inv_r; [lra|]. lra. }
      nra.
    - assert (HS : S = 1%Z \/ S = 2%Z) by lia. pose proof (rr_ep _ _ _ _ R) as (_ & L16).
      eapply Qle_trans; [exact L16|]. destruct HS as [-> | ->]; discriminate. }
  lra.
Qed.

Lemma signed_tests m x y w : rep x m -> gf 1 1 y w -> signed m w ->
  (is_on_left_side x = true <-> 0 < w) /\ (is_on_right_side x = true <-> w < 0) /\ (is_near_edge x = true <-> w == 0).
Proof.
  intros Hx Hy (S1' & S2' & S3'). unfold is_on_left_side, is_on_right_side, is_near_edge.
  rewrite (rp_lt _ _ _ _ R _ _ _ _ (rp_0 _ _ _ _ R) Hx), (rp_lt _ _ _ _ R _ _ _ _ Hx (rp_0 _ _ _ _ R)).
  rewrite (rp_lt _ _ _ _ R _ _ _ _ (rp_abs _ _ _ _ R _ _ Hx) (rp_eps _ _ _ _ R)).
  destruct (Q_dec w 0) as [[W|W]|W].
  - specialize (S2' W). split; [split; intros; lra|]. split; [split; intros; lra|].
    pose proof (eps38 _ _ (gf_opp _ _ Hy)) as Ke. assert (Wn : 0 < - w) by lra. specialize (Ke Wn).
    rewrite Qabs_neg by lra. split; intros; lra.
  - specialize (S1' W). split; [split; intros; lra|]. split; [split; intros; lra|].
    pose proof (eps38 _ _ Hy W) as Ke. rewrite Qabs_pos by lra. split; intros; lra.
  - specialize (S3' W). split; [split; intros; lra|]. split; [split; intros; lra|].
    rewrite S3'. split; [auto|]. intros _. apply (rr_ep _ _ _ _ R).
Qed.

(** ** The circumcircle test *)
Lemma circle_test a b c d va vb vc vd :
  nthN vs a = Some va -> nthN vs b = Some vb -> nthN vs c = Some vc -> nthN vs d = Some vd ->
  D d a b < 0 -> D b a c < 0 ->
  is_vertex_in_triangle_circumcircle va vb vc vd = true <->
  0 < incircle (ux a) (uy a) (ux b) (uy b) (ux c) (uy c) (ux d) (uy d).
Proof.
  intros A B C P. rewrite (pos_index _ _ A), (pos_index _ _ B), (pos_index _ _ C), (pos_index _ _ P).
  destruct (Hvs _ _ A) as (A1 & A2). destruct (Hvs _ _ B) as (B1 & B2).
  destruct (Hvs _ _ C) as (C1 & C2). destruct (Hvs _ _ P) as (P1 & P2).
  intros H1 H2. unfold is_vertex_in_triangle_circumcircle.
  pose proof (coord_sub rep repr pb ep R S S1 repr4 _ _ _ _ A1 C1) as X13.
  pose proof (coord_sub rep repr pb ep R S S1 repr4 _ _ _ _ B1 C1) as X23.
  pose proof (coord_sub rep repr pb ep R S S1 repr4 _ _ _ _ A2 C2) as Y13.
  pose proof (coord_sub rep repr pb ep R S S1 repr4 _ _ _ _ B2 C2) as Y23.
  pose proof (coord_sub rep repr pb ep R S S1 repr4 _ _ _ _ A1 P1) as X14.
  pose proof (coord_sub rep repr pb ep R S S1 repr4 _ _ _ _ B1 P1) as X24.
  pose proof (coord_sub rep repr pb ep R S S1 repr4 _ _ _ _ A2 P2) as Y14.
  pose proof (coord_sub rep repr pb ep R S S1 repr4 _ _ _ _ B2 P2) as Y24.
  set (fx13 := fsub (vx va) (vx vc)) in *. set (fx23 := fsub (vx vb) (vx vc)) in *.
  set (fy13 := fsub (vy va) (vy vc)) in *. set (fy23 := fsub (vy vb) (vy vc)) in *.
  set (fx14 := fsub (vx va) (vx vd)) in *. set (fx24 := fsub (vx vb) (vx vd)) in *.
  set (fy14 := fsub (vy va) (vy vd)) in *. set (fy24 := fsub (vy vb) (vy vd)) in *.
  assert (ML : forall x y p q, gf 1 1 x p -> gf 1 1 y q -> gf 2 1 (fmul x y) (p * q)).
  { intros x y p q Hx Hy. apply (gf_mul rep repr pb ep R S S1 repr4 1 1 1 1); auto; lia. }
  pose proof (gf_add rep repr pb ep R S S1 repr4 2 1 1 _ _ _ _ (ML _ _ _ _ X13 X23) (ML _ _ _ _ Y13 Y23) ltac:(lia) ltac:(lia)) as Ca.
  pose proof (gf_add rep repr pb ep R S S1 repr4 2 1 1 _ _ _ _ (ML _ _ _ _ X24 X14) (ML _ _ _ _ Y24 Y14) ltac:(lia) ltac:(lia)) as Cb.
  pose proof (gf_sub rep repr pb ep R S S1 repr4 2 1 1 _ _ _ _ (ML _ _ _ _ X13 Y23) (ML _ _ _ _ X23 Y13) ltac:(lia) ltac:(lia)) as Sa.
  pose proof (gf_sub rep repr pb ep R S S1 repr4 2 1 1 _ _ _ _ (ML _ _ _ _ X24 Y14) (ML _ _ _ _ X14 Y24) ltac:(lia) ltac:(lia)) as Sb.
  cbn [Nat.add] in Ca, Cb, Sa, Sb.
  pose proof (gf_mul rep repr pb ep R S S1 repr4 2 2 2 2 _ _ _ _ Sa Cb ltac:(lia) ltac:(lia)) as M1.
  pose proof (gf_mul rep repr pb ep R S S1 repr4 2 2 2 2 _ _ _ _ Sb Ca ltac:(lia) ltac:(lia)) as M2.
  pose proof (gf_add rep repr pb ep R S S1 repr4 4 4 4 _ _ _ _ M1 M2 ltac:(lia) ltac:(lia)) as Sab.
  set (fca := fadd (fmul fx13 fx23) (fmul fy13 fy23)) in *.
  set (fcb := fadd (fmul fx24 fx14) (fmul fy24 fy14)) in *.
  set (fsa := fsub (fmul fx13 fy23) (fmul fx23 fy13)) in *.
  set (fsb := fsub (fmul fx24 fy14) (fmul fx14 fy24)) in *.
  set (ca := (ux a - ux c) * (ux b - ux c) + (uy a - uy c) * (uy b - uy c)) in *.
  set (cb := (ux b - ux d) * (ux a - ux d) + (uy b - uy d) * (uy a - uy d)) in *.
  set (sa := (ux a - ux c) * (uy b - uy c) - (ux b - ux c) * (uy a - uy c)) in *.
  set (sb := (ux b - ux d) * (uy a - uy d) - (ux a - ux d) * (uy b - uy d)) in *.
  destruct Ca as (Ca & _). destruct Cb as (Cb & _). destruct Sab as (Sab & _).
  assert (Ea : sa == - det (P3 (ux b) (uy b) 1) (P3 (ux a) (uy a) 1) (P3 (ux c) (uy c) 1)).
  { unfold sa, det; simpl. ring. }
  assert (Eb : sb == - det (P3 (ux d) (uy d) 1) (P3 (ux a) (uy a) 1) (P3 (ux b) (uy b) 1)).
  { unfold sb, det; simpl. ring. }
  assert (Psa : 0 < sa) by (rewrite Ea; lra). assert (Psb : 0 < sb) by (rewrite Eb; lra).
  assert (Inc : incircle (ux a) (uy a) (ux b) (uy b) (ux c) (uy c) (ux d) (uy d) == - (sa * cb + sb * ca)).
  { unfold incircle, sa, sb, ca, cb. ring. }
  rewrite Inc. clear Inc Ea Eb H1 H2.
  pose proof (rp_0 _ _ _ _ R) as Z0.
  destruct (fle f0 fca) eqn:L1.
  - apply (rp_le _ _ _ _ R _ _ _ _ Z0 Ca) in L1.
    assert (N1 : flt fca f0 = false) by (apply (lt_false _ _ _ _ R _ _ _ _ Ca Z0); lra). rewrite N1.
    destruct (fle f0 fcb) eqn:L2; cbn [andb].
    + apply (rp_le _ _ _ _ R _ _ _ _ Z0 Cb) in L2. split; [discriminate|]. intros K. exfalso. nra.
    + rewrite (rp_lt _ _ _ _ R _ _ _ _ Sab Z0). split; intros; lra.
  - apply (le_false _ _ _ _ R _ _ _ _ Z0 Ca) in L1. cbn [andb].
    assert (N1 : flt fca f0 = true) by (apply (rp_lt _ _ _ _ R _ _ _ _ Ca Z0); lra). rewrite N1. cbn [andb].
    destruct (flt fcb f0) eqn:L2.
    + apply (rp_lt _ _ _ _ R _ _ _ _ Cb Z0) in L2. split; auto. intros _. nra.
    + rewrite (rp_lt _ _ _ _ R _ _ _ _ Sab Z0). split; intros; lra.
Qed.

(** ** All the predicates of the Delaunay triangulation *)
Theorem grid_exact : Exact vs ux uy.
Proof.
  constructor; auto.
  - intros a b p va vb vp A B P s d. pose proof (side_gf a b p va vb vp A B P) as K. split.
    + exact (left_side _ _ _ _ K).
    + apply (near_edge _ _ _ _ K). now right.
  - intros a k q p va vp A K P s d. destruct (semi_val a k q p va vp A K P) as (m & w & y & Rm & Gy & Sm & Ew).
    destruct (signed_tests _ _ _ _ Rm Gy Sm) as (T1 & T2 & T3). fold s in T1, T2, T3.
    rewrite Ew in T1, T2, T3. tauto.
  - intros a b p va vb vp A B P. pose proof (side_gf a b p va vb vp A B P) as K.
    unfold is_point_strictly_on_right_side_of_edge. apply (strict_right _ _ _ _ K). now right.
  - exact circle_test.
  - intros a p va vp A P. destruct (Hvs _ _ A) as (A1 & A2). destruct (Hvs _ _ P) as (P1 & P2).
    unfold is_vertex_pair_too_close. rewrite andb_true_iff.
    pose proof (near_edge _ _ _ _ (coord_sub rep repr pb ep R S S1 repr4 _ _ _ _ A1 P1) ltac:(left; reflexivity)) as K1.
    pose proof (near_edge _ _ _ _ (coord_sub rep repr pb ep R S S1 repr4 _ _ _ _ A2 P2) ltac:(left; reflexivity)) as K2.
    unfold is_near_edge in K1, K2. unfold samepos. rewrite K1, K2. split; intros (U & V); split; lra.
Qed.

(** ** Segment intersection *)

(** L2: the line of a ray and a vertex. *)
Lemma os_signed v m w s : rep v m -> signed m w -> s == - w ->
  os (if feq v f0 then Colinear else if flt f0 v then Clockwise else CounterClockwise) s.
Proof.
  intros Hv (C1 & C2 & C3) E0. apply (os_val v s m Hv); rewrite E0; intros H.
  - apply C3. lra.
  - assert (K : 0 < w) by lra. specialize (C1 K). lra.
  - assert (K : w < 0) by lra. specialize (C2 K). lra.
Qed.

Lemma sub_bounded x y e d : ext x e -> ext y d -> exists q, rep (fsub x y) q /\ -(100) <= q <= 100.
Proof. intros A B. destruct (ext_sub _ _ _ _ A B) as (q & Rq & L). exists q. split; auto. lra. Qed.

Lemma os_ray f k q r vf vr :
  nthN vs f = Some vf -> infinite_vertex_local_quad_index k = Some q -> nthN vs r = Some vr ->
  os (triplet_orientation vf (far vf q) vr) (D f k r).
Proof.
  intros A K P. destruct (Hvs _ _ A) as (A1 & A2). destruct (Hvs _ _ P) as (P1 & P2).
  destruct (inf_index _ _ K) as (_ & Ek). rewrite (pos_index _ _ A), (pos_index _ _ P), Ek.
  pose proof (far_spec _ _ q A) as Fs. unfold triplet_orientation.
  destruct q; destruct Fs as (F1 & F2).
  - destruct (is_far_ext _ _ F1) as (e & Ex). destruct (sub_bounded _ _ _ _ (coord_ext _ _ P1) Ex) as (b & Rb & Lb).
    pose proof (mul_zero _ _ _ (same_sub _ _ _ F2 A2) Rb Lb) as Z.
    pose proof (coord_sub rep repr pb ep R S S1 repr4 _ _ _ _ P2 F2) as Gy.
    destruct (prod_sub' _ _ _ _ _ _ _ F1 A1 Gy Z) as (_ & (m & Rm & Sm)).
    eapply os_signed; [exact Rm|exact Sm|]. unfold sgn, det; simpl. ring.
  - destruct (is_far_ext _ _ F2) as (e & Ex). destruct (sub_bounded _ _ _ _ (coord_ext _ _ P2) Ex) as (b & Rb & Lb).
    pose proof (mul_zero _ _ _ (same_sub _ _ _ F1 A1) Rb Lb) as Z.
    pose proof (coord_sub rep repr pb ep R S S1 repr4 _ _ _ _ P1 F1) as Gx.
    destruct (prod_sub' _ _ _ _ _ _ _ F2 A2 Gx Z) as ((m & Rm & Sm) & _).
    eapply os_signed; [exact Rm|exact Sm|]. unfold sgn, det; simpl. ring.
  - destruct (is_far_ext _ _ F1) as (e & Ex). destruct (sub_bounded _ _ _ _ (coord_ext _ _ P1) Ex) as (b & Rb & Lb).
    pose proof (mul_zero _ _ _ (same_sub _ _ _ F2 A2) Rb Lb) as Z.
    pose proof (coord_sub rep repr pb ep R S S1 repr4 _ _ _ _ P2 F2) as Gy.
    destruct (prod_sub' _ _ _ _ _ _ _ F1 A1 Gy Z) as (_ & (m & Rm & Sm)).
    eapply os_signed; [exact Rm|exact Sm|]. unfold sgn, det; simpl. ring.
  - destruct (is_far_ext _ _ F2) as (e & Ex). destruct (sub_bounded _ _ _ _ (coord_ext _ _ P2) Ex) as (b & Rb & Lb).
    pose proof (mul_zero _ _ _ (same_sub _ _ _ F1 A1) Rb Lb) as Z.
    pose proof (coord_sub rep repr pb ep R S S1 repr4 _ _ _ _ P1 F1) as Gx.
    destruct (prod_sub' _ _ _ _ _ _ _ F2 A2 Gx Z) as ((m & Rm & Sm) & _).
    eapply os_signed; [exact Rm|exact Sm|]. unfold sgn, det; simpl. ring.
Qed.

(** L3: a segment and the far end of a ray whose line it meets. *)
Definition bound1 (b : bool) (u : Q) : Q := if b then 1 - u else - u.

Lemma robust x b y u g w z v :
  is_far x b -> coord y u -> gf 1 1 g w -> gf 2 1 z v -> ~ w == 0 ->
  (0 < sgn b w -> v <= w * bound1 b u) -> (sgn b w < 0 -> w * bound1 b u <= v) ->
  (exists q, rep (fsub (fmul g (fsub x y)) z) q /\ signed q (sgn b w)) /\
  (exists q, rep (fsub z (fmul g (fsub x y))) q /\ signed q (- sgn b w)).
Proof.
  intros (d & Rd & Ld & Cd) Hy Hg (Rz & Gz) W0 H1 H2.
  destruct (far_sub _ _ _ _ Rd Ld Hy) as (e & Re & Le & E1 & E2).
  pose proof Hg as (Rg & Gg). pose proof Hy as ((Ry & Gy) & Hu).
  pose proof (G_abs S S1 _ _ _ Gg) as Wb. apply Qabs_Qle_condition in Wb. change (inject_Z (Z.of_nat 1)) with 1 in Wb.
  pose proof (G_abs S S1 _ _ _ Gz) as Vb. apply Qabs_Qle_condition in Vb. change (inject_Z (Z.of_nat 1)) with 1 in Vb.
  destruct (rp_mul _ _ _ _ R _ _ _ _ Rg Re) as (m & Rm & Mn); [apply abs_big; nra|].
  assert (Bm : -(8) <= m <= 8).
  { split; [apply (Mn (-(8)) (repr_int (-8) ltac:(lia))); nra|apply (Mn 8 (repr_int 8 ltac:(lia))); nra]. }
  set (far_u := if b then (11 # 8) - u else - (3 # 8) - u).
  assert (Rf : repr (w * far_u)).
  { apply repr2. unfold far_u.
    assert (K : forall zz, (Z.abs zz <= 16)%Z -> G 2 64 (w * (inject_Z zz - inject_Z 8 * u))).
    { intros zz Hz.
      assert (G0 : G 1 16 (inject_Z zz)).
      { exists (zz * S)%Z. change (Z.of_nat 1) with 1%Z. change (Z.of_nat 16) with 16%Z. rewrite Z.pow_1_r. split.
        - rewrite Z.abs_mul, (Z.abs_eq S) by lia. nia.
        - rewrite inject_Z_mult. reflexivity. }
      assert (G8 : G 1 8 (inject_Z 8 * u)).
      { destruct Gy as (k & B1 & B2). exists (8 * k)%Z. split; [lia|]. rewrite inject_Z_mult, <- B2. ring. }
      assert (Gd := G_sub S S1 _ _ _ _ _ G0 G8). assert (Gm := G_mul S S1 _ _ _ _ _ _ Gg Gd).
      eapply (G_weak S S1); [exact Gm|]. lia. }
    destruct b.
    - eapply (G_compat S); [exact (K 11%Z ltac:(lia))|]. change (inject_Z 11) with 11. change (inject_Z 8) with 8. ring.
    - eapply (G_compat S); [exact (K (-3)%Z ltac:(lia))|]. change (inject_Z (-3)) with (-(3)). change (inject_Z 8) with 8. ring. }
  pose proof (Mn _ Rf) as (M1 & M2).
  assert (Lo : 0 < sgn b w -> (3 # 8) * sgn b w <= m - v).
  { intros K. specialize (H1 K). destruct b; cbn [sgn bound1] in *; unfold far_u in *.
    - specialize (E1 Cd). assert (w * ((11 # 8) - u) <= m) by (apply M1; nra). nra.
    - specialize (E2 Cd). assert (w * (- (3 # 8) - u) <= m) by (apply M1; nra). nra. }
  assert (Hi : sgn b w < 0 -> m - v <= (3 # 8) * sgn b w).
  { intros K. specialize (H2 K). destruct b; cbn [sgn bound1] in *; unfold far_u in *.
    - specialize (E1 Cd). assert (m <= w * ((11 # 8) - u)) by (apply M2; nra). nra.
    - specialize (E2 Cd). assert (m <= w * (- (3 # 8) - u)) by (apply M2; nra). nra. }
  assert (Wn : ~ sgn b w == 0) by (destruct b; cbn [sgn]; lra).
  pose proof (gf_sgn b _ _ Hg) as Hs. split.
  - destruct (rp_sub _ _ _ _ R _ _ _ _ Rm Rz) as (q & Rq & Rn); [apply abs_big; lra|].
    pose proof (Rn _ (repr_38 _ _ 3 Hs ltac:(lia))) as (P1 & P2). change (inject_Z 3 / 8) with (3 # 8) in P1, P2.
    exists q. split; auto. split; [|split; [|tauto]]; intros K; [specialize (Lo K)|specialize (Hi K)]; auto.
  - destruct (rp_sub _ _ _ _ R _ _ _ _ Rz Rm) as (q & Rq & Rn); [apply abs_big; lra|].
    pose proof (Rn _ (repr_38 _ _ (-3) Hs ltac:(lia))) as (P1 & P2). change (inject_Z (-3) / 8) with (- (3 # 8)) in P1, P2.
    exists q. split; auto. split; [|split]; intros K.
    + assert (K' : sgn b w < 0) by lra. specialize (Hi K'). assert (- (3 # 8) * sgn b w <= q) by (apply P1; lra). lra.
    + assert (K' : 0 < sgn b w) by lra. specialize (Lo K'). assert (q <= - (3 # 8) * sgn b w) by (apply P2; lra). lra.
    + exfalso. lra.
Qed.

Lemma os_seg_far a b f k q va vb vf :
  nthN vs a = Some va -> nthN vs b = Some vb -> nthN vs f = Some vf ->
  infinite_vertex_local_quad_index k = Some q ->
  D f k a * D f k b <= 0 -> ~ (D f k a == 0 /\ D f k b == 0) ->
  os (triplet_orientation va vb (far vf q)) (D a b k) /\ ~ D a b k == 0.
Proof.
  intros A B Fv K. destruct (Hvs _ _ A) as (A1 & A2). destruct (Hvs _ _ B) as (B1 & B2). destruct (Hvs _ _ Fv) as (F1 & F2).
  destruct (inf_index _ _ K) as (_ & Ek). rewrite (pos_index _ _ A), (pos_index _ _ B), (pos_index _ _ Fv), Ek.
  pose proof (far_spec _ _ q Fv) as Fs. unfold triplet_orientation.
  pose proof (coord_sub rep repr pb ep R S S1 repr4 _ _ _ _ B2 A2) as Gy.
  pose proof (coord_sub rep repr pb ep R S S1 repr4 _ _ _ _ B1 A1) as Gx.
  pose proof A1 as (_ & a1). pose proof A2 as (_ & a2). pose proof B1 as (_ & b1). pose proof B2 as (_ & b2).
  pose proof F1 as (_ & f1). pose proof F2 as (_ & f2).
  destruct q; destruct Fs as (N1 & N2); intros Hs Hn; unfold det in Hs, Hn |- *; cbn [hx hy hw] in Hs, Hn |- *.
  - pose proof (coord_sub rep repr pb ep R S S1 repr4 _ _ _ _ N2 B2) as Gd.
    pose proof (gf_mul rep repr pb ep R S S1 repr4 1 1 1 1 _ _ _ _ Gx Gd ltac:(lia) ltac:(lia)) as Gz. cbn [Nat.add Nat.mul] in Gz.
    assert (W0 : ~ uy b - uy a == 0) by nra.
    destruct (robust _ _ _ _ _ _ _ _ N1 B1 Gy Gz W0) as ((m & Rm & Sm) & _); cbn [sgn bound1].
    { intros W. assert (uy b - uy a < 0) by lra. assert (0 <= uy a - uy f) by nra. assert (0 <= uy f - uy b) by nra. nra. }
    { intros W. assert (0 < uy b - uy a) by lra. assert (0 <= uy f - uy a) by nra. assert (0 <= uy b - uy f) by nra. nra. }
    split; [eapply os_signed; [exact Rm|exact Sm|]; cbn [sgn]; ring|]. intros Q. apply W0. lra.
  - pose proof (coord_sub rep repr pb ep R S S1 repr4 _ _ _ _ N1 B1) as Gd.
    pose proof (gf_mul rep repr pb ep R S S1 repr4 1 1 1 1 _ _ _ _ Gy Gd ltac:(lia) ltac:(lia)) as Gz. cbn [Nat.add Nat.mul] in Gz.
    assert (W0 : ~ ux b - ux a == 0) by nra.
    destruct (robust _ _ _ _ _ _ _ _ N2 B2 Gx Gz W0) as (_ & (m & Rm & Sm)); cbn [sgn bound1].
    { intros W. assert (0 <= ux f - ux a) by nra. assert (0 <= ux b - ux f) by nra. nra. }
    { intros W. assert (0 <= ux a - ux f) by nra. assert (0 <= ux f - ux b) by nra. nra. }
    split; [eapply os_signed; [exact Rm|exact Sm|]; cbn [sgn]; ring|]. intros Q. apply W0. lra.
  - pose proof (coord_sub rep repr pb ep R S S1 repr4 _ _ _ _ N2 B2) as Gd.
    pose proof (gf_mul rep repr pb ep R S S1 repr4 1 1 1 1 _ _ _ _ Gx Gd ltac:(lia) ltac:(lia)) as Gz. cbn [Nat.add Nat.mul] in Gz.
    assert (W0 : ~ uy b - uy a == 0) by nra.
    destruct (robust _ _ _ _ _ _ _ _ N1 B1 Gy Gz W0) as ((m & Rm & Sm) & _); cbn [sgn bound1].
    { intros W. assert (0 <= uy f - uy a) by nra. assert (0 <= uy b - uy f) by nra. nra. }
    { intros W. assert (0 <= uy a - uy f) by nra. assert (0 <= uy f - uy b) by nra. nra. }
    split; [eapply os_signed; [exact Rm|exact Sm|]; cbn [sgn]; ring|]. intros Q. apply W0. lra.
  - pose proof (coord_sub rep repr pb ep R S S1 repr4 _ _ _ _ N1 B1) as Gd.
    pose proof (gf_mul rep repr pb ep R S S1 repr4 1 1 1 1 _ _ _ _ Gy Gd ltac:(lia) ltac:(lia)) as Gz. cbn [Nat.add Nat.mul] in Gz.
    assert (W0 : ~ ux b - ux a == 0) by nra.
    destruct (robust _ _ _ _ _ _ _ _ N2 B2 Gx Gz W0) as (_ & (m & Rm & Sm)); cbn [sgn bound1].
    { intros W. assert (ux b - ux a < 0) by lra. assert (0 <= ux a - ux f) by nra. assert (0 <= ux f - ux b) by nra. nra. }
    { intros W. assert (0 < ux b - ux a) by lra. assert (0 <= ux f - ux a) by nra. assert (0 <= ux b - ux f) by nra. nra. }
    split; [eapply os_signed; [exact Rm|exact Sm|]; cbn [sgn]; ring|]. intros Q. apply W0. lra.
Qed.

(** L4: the line of a ray and the far end of another ray. *)
Definition horiz (q : qidx) : bool := match q with Q1 | Q3 => true | _ => false end.

Lemma repr_wide z : (Z.abs z <= 1000)%Z -> repr (inject_Z z / 8).
Proof.
  intros H. apply (rr_compat _ _ _ _ R (inject_Z (z * 16) / 128)).
  - apply (small_repr _ _ _ _ R). lia.
  - rewrite inject_Z_mult. change (inject_Z 16) with 16. field.
Qed.

Lemma rw8 z q : (Z.abs z <= 1000)%Z -> inject_Z z / 8 == q -> repr q.
Proof. intros H K. exact (rr_compat _ _ _ _ R _ _ (repr_wide z H) K). Qed.

Lemma far_far x b y u x' b' y' u' z : is_far x b -> coord y u -> is_far x' b' -> coord y' u' -> rep z 0 ->
  (exists q, rep (fsub (fmul (fsub x y) (fsub x' y')) z) q /\
     (if eqb b b' then 1 # 8 <= q else q <= - (1 # 8))) /\
  (exists q, rep (fsub z (fmul (fsub x y) (fsub x' y'))) q /\
     (if eqb b b' then q <= - (1 # 8) else 1 # 8 <= q)).
Proof.
  intros A B A' B' Hz.
  destruct (is_far_sub _ _ _ _ A B) as (e & Re & Le & Ce).
  destruct (is_far_sub _ _ _ _ A' B') as (e' & Re' & Le' & Ce').
  assert (Bp : -(64) <= e * e' <= 64).
  { split; [|nra]. nra. }
  destruct (rp_mul _ _ _ _ R _ _ _ _ Re Re') as (m & Rm & Mn); [apply abs_big; lra|].
  assert (Bm : -(64) <= m <= 64).
  { split; [apply (Mn (-(64)) (rw8 (-512) (-(64)) ltac:(lia) ltac:(reflexivity))); lra|apply (Mn 64 (rw8 512 64 ltac:(lia) ltac:(reflexivity))); lra]. }
  assert (Cm : if eqb b b' then 1 # 8 <= m else m <= - (1 # 8)).
  { pose proof (Mn (1 # 8) (rw8 1 (1 # 8) ltac:(lia) ltac:(reflexivity))) as (K1 & _).
    pose proof (Mn (- (1 # 8)) (rw8 (-1) (- (1 # 8)) ltac:(lia) ltac:(reflexivity))) as (_ & K2).
    destruct b, b'; cbn [eqb]; [apply K1|apply K2|apply K2|apply K1]; nra. }
  split.
  - destruct (rp_sub _ _ _ _ R _ _ _ _ Rm Hz) as (q & Rq & Rn); [apply abs_big; lra|].
    pose proof (Rn (1 # 8) (rw8 1 (1 # 8) ltac:(lia) ltac:(reflexivity))) as (K1 & _).
    pose proof (Rn (- (1 # 8)) (rw8 (-1) (- (1 # 8)) ltac:(lia) ltac:(reflexivity))) as (_ & K2).
    exists q. split; auto. destruct (eqb b b'); [apply K1|apply K2]; lra.
  - destruct (rp_sub _ _ _ _ R _ _ _ _ Hz Rm) as (q & Rq & Rn); [apply abs_big; lra|].
    pose proof (Rn (1 # 8) (rw8 1 (1 # 8) ltac:(lia) ltac:(reflexivity))) as (K1 & _).
    pose proof (Rn (- (1 # 8)) (rw8 (-1) (- (1 # 8)) ltac:(lia) ltac:(reflexivity))) as (_ & K2).
    exists q. split; auto. destruct (eqb b b'); [apply K2|apply K1]; lra.
Qed.

Lemma os_const v m s : rep v m -> (m <= - (1 # 8) /\ 0 < s) \/ (1 # 8 <= m /\ s < 0) ->
  os (if feq v f0 then Colinear else if flt f0 v then Clockwise else CounterClockwise) s.
Proof. intros Hv H. apply (os_val v s m Hv); intros K; lra. Qed.

Lemma os_ray_far f k q f' k' q' vf vf' :
  nthN vs f = Some vf -> nthN vs f' = Some vf' ->
  infinite_vertex_local_quad_index k = Some q -> infinite_vertex_local_quad_index k' = Some q' ->
  os (triplet_orientation vf (far vf q) (far vf' q')) (if eqb (horiz q) (horiz q') then D f k f' else D f k k').
Proof.
  intros A A' K K'. destruct (Hvs _ _ A) as (A1 & A2). destruct (Hvs _ _ A') as (A1' & A2').
  destruct (inf_index _ _ K) as (_ & Ek). destruct (inf_index _ _ K') as (_ & Ek').
  rewrite (pos_index _ _ A), (pos_index _ _ A'), Ek, Ek'.
  pose proof (far_spec _ _ q A) as Fs. pose proof (far_spec _ _ q' A') as Fs'. unfold triplet_orientation.
  assert (H1 : horiz q = true -> forall x e, ext x e ->
     rep (fmul (fsub (vy (far vf q)) (vy vf)) (fsub x (vx (far vf q)))) 0).
  { intros Hq x e Ex. destruct q; try discriminate; destruct Fs as (F1 & F2); destruct (is_far_ext _ _ F1) as (d & Ed);
      destruct (sub_bounded _ _ _ _ Ex Ed) as (b & Rb & Lb); exact (mul_zero _ _ _ (same_sub _ _ _ F2 A2) Rb Lb). }
  assert (H2 : horiz q = false -> forall x e, ext x e ->
     rep (fmul (fsub (vx (far vf q)) (vx vf)) (fsub x (vy (far vf q)))) 0).
  { intros Hq x e Ex. destruct q; try discriminate; destruct Fs as (F1 & F2); destruct (is_far_ext _ _ F2) as (d & Ed);
      destruct (sub_bounded _ _ _ _ Ex Ed) as (b & Rb & Lb); exact (mul_zero _ _ _ (same_sub _ _ _ F1 A1) Rb Lb). }
  destruct q, q'; destruct Fs as (F1 & F2); destruct Fs' as (F1' & F2'); cbn [horiz eqb] in *;
    first
    [ (* horizontal, horizontal *)
      destruct (is_far_ext _ _ F1') as (d & Ed); pose proof (H1 eq_refl _ _ Ed) as Z;
      pose proof (coord_sub rep repr pb ep R S S1 repr4 _ _ _ _ F2' F2) as Gd;
      destruct (prod_sub' _ _ _ _ _ _ _ F1 A1 Gd Z) as (_ & (m & Rm & Sm));
      (eapply os_signed; [exact Rm|exact Sm|]; unfold sgn, det; simpl; ring)
    | (* vertical, vertical *)
      destruct (is_far_ext _ _ F2') as (d & Ed); pose proof (H2 eq_refl _ _ Ed) as Z;
      pose proof (coord_sub rep repr pb ep R S S1 repr4 _ _ _ _ F1' F1) as Gd;
      destruct (prod_sub' _ _ _ _ _ _ _ F2 A2 Gd Z) as ((m & Rm & Sm) & _);
      (eapply os_signed; [exact Rm|exact Sm|]; unfold sgn, det; simpl; ring)
    | (* horizontal, vertical *)
      pose proof (H1 eq_refl _ _ (coord_ext _ _ F1')) as Z;
      destruct (far_far _ _ _ _ _ _ _ _ _ F1 A1 F2' F2 Z) as (_ & (m & Rm & Cm)); cbn [eqb] in Cm;
      apply (os_const _ _ _ Rm); unfold det; simpl; lra
    | (* vertical, horizontal *)
      pose proof (H2 eq_refl _ _ (coord_ext _ _ F2')) as Z;
      destruct (far_far _ _ _ _ _ _ _ _ _ F2 A2 F1' F1 Z) as ((m & Rm & Cm) & _); cbn [eqb] in Cm;
      apply (os_const _ _ _ Rm); unfold det; simpl; lra ].
Qed.

(** ** The intersection test *)

Definition between (a b c : Q) : Prop := (a <= b /\ b <= c) \/ (c <= b /\ b <= a).

Definition pt_rep (v : vertex) (p : Q * Q) : Prop := rep (vx v) (fst p) /\ rep (vy v) (snd p).

Lemma on_axis x y z a b c : rep x a -> rep y b -> rep z c ->
  (fle y (fmax x z) = true /\ fle (fmin x z) y = true) <-> between a b c.
Proof.
  intros A B C. destruct (rp_max _ _ _ _ R _ _ _ _ A C) as (M1 & M2). destruct (rp_min _ _ _ _ R _ _ _ _ A C) as (N1 & N2).
  unfold between. destruct (Qlt_le_dec a c) as [H|H].
  - assert (H' : a <= c) by lra. specialize (M2 H'). specialize (N1 H').
    rewrite (rp_le _ _ _ _ R _ _ _ _ B M2), (rp_le _ _ _ _ R _ _ _ _ N1 B). split; [lra|]. intros; split; lra.
  - specialize (M1 H). specialize (N2 H).
    rewrite (rp_le _ _ _ _ R _ _ _ _ B M1), (rp_le _ _ _ _ R _ _ _ _ N2 B). split; [lra|]. intros; split; lra.
Qed.

Lemma on_segment_iff p q r a b c : pt_rep p a -> pt_rep q b -> pt_rep r c ->
  on_segment p q r = true <-> between (fst a) (fst b) (fst c) /\ between (snd a) (snd b) (snd c).
Proof.
  intros (A1 & A2) (B1 & B2) (C1 & C2). unfold on_segment. rewrite !andb_true_iff.
  pose proof (on_axis _ _ _ _ _ _ A1 B1 C1). pose proof (on_axis _ _ _ _ _ _ A2 B2 C2). tauto.
Qed.

Lemma vertex_eqb_iff p q a b : pt_rep p a -> pt_rep q b ->
  vertex_eqb p q = true <-> fst a == fst b /\ snd a == snd b.
Proof.
  intros (A1 & A2) (B1 & B2). unfold vertex_eqb. rewrite andb_true_iff.
  now rewrite (rp_eq _ _ _ _ R _ _ _ _ A1 B1), (rp_eq _ _ _ _ R _ _ _ _ A2 B2).
Qed.

Definition same_pt (a b : Q * Q) : Prop := fst a == fst b /\ snd a == snd b.
Definition in_box (a b c : Q * Q) : Prop := between (fst a) (fst b) (fst c) /\ between (snd a) (snd b) (snd c).

Lemma orientation_eqb_iff a b : orientation_eqb a b = true <-> a = b.
Proof. destruct a, b; simpl; split; congruence. Qed.

Lemma crossing_iff va vb vc vd a b c d :
  pt_rep va a -> pt_rep vb b -> pt_rep vc c -> pt_rep vd d ->
  let o1 := triplet_orientation va vb vc in let o2 := triplet_orientation va vb vd in
  let o3 := triplet_orientation vc vd va in let o4 := triplet_orientation vc vd vb in
  is_crossing (egdes_intersect (va, vb) (vc, vd)) = true <->
  (~ same_pt a c /\ ~ same_pt a d /\ ~ same_pt b c /\ ~ same_pt b d) /\
  ~ (o1 = Colinear /\ in_box a c b) /\ ~ (o2 = Colinear /\ in_box a d b) /\
  ~ (o3 = Colinear /\ in_box c a d) /\ ~ (o4 = Colinear /\ in_box c b d) /\
  o1 <> o2 /\ o3 <> o4.
Proof.
  intros A B C P. cbv zeta. unfold egdes_intersect, same_pt, in_box.
  rewrite <- (vertex_eqb_iff _ _ _ _ A C), <- (vertex_eqb_iff _ _ _ _ A P), <- (vertex_eqb_iff _ _ _ _ B C), <- (vertex_eqb_iff _ _ _ _ B P).
  rewrite <- (on_segment_iff _ _ _ _ _ _ A C B), <- (on_segment_iff _ _ _ _ _ _ A P B),
    <- (on_segment_iff _ _ _ _ _ _ C A P), <- (on_segment_iff _ _ _ _ _ _ C B P).
  set (o1 := triplet_orientation va vb vc). set (o2 := triplet_orientation va vb vd).
  set (o3 := triplet_orientation vc vd va). set (o4 := triplet_orientation vc vd vb).
  rewrite <- (orientation_eqb_iff o1 Colinear), <- (orientation_eqb_iff o2 Colinear), <- (orientation_eqb_iff o3 Colinear), <- (orientation_eqb_iff o4 Colinear).
  rewrite <- (orientation_eqb_iff o1 o2), <- (orientation_eqb_iff o3 o4).
  destruct (vertex_eqb va vc), (vertex_eqb va vd), (vertex_eqb vb vc), (vertex_eqb vb vd); cbn [orb is_crossing];
    try (split; [discriminate|intros ((? & ? & ? & ?) & _); exfalso; auto]).
  destruct (orientation_eqb o1 Colinear && on_segment va vc vb) eqn:K1.
  { apply andb_true_iff in K1. split; [discriminate|]. tauto. }
  apply andb_false_iff in K1.
  destruct (orientation_eqb o2 Colinear && on_segment va vd vb) eqn:K2.
  { apply andb_true_iff in K2. split; [discriminate|]. tauto. }
  apply andb_false_iff in K2.
  destruct (orientation_eqb o3 Colinear && on_segment vc va vd) eqn:K3.
  { apply andb_true_iff in K3. split; [discriminate|]. tauto. }
  apply andb_false_iff in K3.
  destruct (orientation_eqb o4 Colinear && on_segment vc vb vd) eqn:K4.
  { apply andb_true_iff in K4. split; [discriminate|]. tauto. }
  apply andb_false_iff in K4.
  destruct (orientation_eqb o1 o2), (orientation_eqb o3 o4); cbn [negb andb is_crossing]; split; intros H; try discriminate;
    try (exfalso; tauto).
  - intuition congruence.
  - reflexivity.
Qed.

(** Pure geometry. *)
Definition ori (a b c : Q * Q) : Q :=
  (fst b - fst a) * (snd c - snd a) - (snd b - snd a) * (fst c - fst a).

Lemma not_between a b c : ~ between a b c -> (b < a /\ b < c) \/ (a < b /\ c < b).
Proof.
  unfold between. intros H. destruct (Qlt_le_dec b a), (Qlt_le_dec b c); auto; try (exfalso; apply H; lra).
  destruct (Qlt_le_dec a b), (Qlt_le_dec c b); auto; exfalso; apply H; lra.
Qed.

(** c on the line ab but not on the segment: a and b are on the same side of any line
    through c. *)
Lemma outside_same a b c d : ori a b c == 0 -> ~ in_box a c b ->
  (ori c d a == 0 /\ ori c d b == 0) \/ (ori c d a < 0 /\ ori c d b < 0) \/ (0 < ori c d a /\ 0 < ori c d b).
Proof.
  destruct a as (ax, ay), b as (bx, by_), c as (cx, cy), d as (dx, dy).
  unfold ori, in_box; cbn [fst snd]. intros H0 Hb.
  set (s3 := (dx - cx) * (ay - cy) - (dy - cy) * (ax - cx)).
  set (s4 := (dx - cx) * (by_ - cy) - (dy - cy) * (bx - cx)).
  assert (I1 : s3 * (bx - cx) == s4 * (ax - cx)).
  { assert (K : s3 * (bx - cx) - s4 * (ax - cx) == (dx - cx) * - ((bx - ax) * (cy - ay) - (by_ - ay) * (cx - ax))) by (unfold s3, s4; ring).
    rewrite H0 in K. lra. }
  assert (I2 : s3 * (by_ - cy) == s4 * (ay - cy)).
  { assert (K : s3 * (by_ - cy) - s4 * (ay - cy) == (dy - cy) * - ((bx - ax) * (cy - ay) - (by_ - ay) * (cx - ax))) by (unfold s3, s4; ring).
    rewrite H0 in K. lra. }
  clearbody s3 s4.
  assert (N : ~ between ax cx bx \/ ~ between ay cy by_).
  { unfold between in *. destruct (Qlt_le_dec cx ax), (Qlt_le_dec cx bx), (Qlt_le_dec ax cx), (Qlt_le_dec bx cx); try (exfalso; lra);
    try (left; intros; lra); right; intros K; apply Hb; split; auto; lra. }
  destruct N as [N|N]; apply not_between in N; destruct N as [N|N];
    (destruct (Q_dec s3 0) as [[K|K]|K]; [right; left|right; right|left]);
    split; auto; first [nra | destruct (Q_dec s4 0) as [[K'|K']|K']; nra].
Qed.

Lemma os_col o s : os o s -> (o = Colinear <-> s == 0).
Proof. destruct o; cbn [os]; intros H; split; intros K; auto; try discriminate; lra. Qed.

Lemma ori_same_l a b c : same_pt a c -> ori a b c == 0.
Proof. intros (A & B). unfold ori. rewrite A, B. ring. Qed.

Lemma ori_same_r a b c : same_pt b c -> ori a b c == 0.
Proof. intros (A & B). unfold ori. rewrite A, B. ring. Qed.

Lemma opposite s s' o o' : os o s -> os o' s' -> o <> o' -> ~ s == 0 -> ~ s' == 0 -> s * s' < 0.
Proof.
  intros A B C N1 N2. destruct o, o'; cbn [os] in *; try tauto; try (exfalso; congruence); nra.
Qed.

Lemma cross_fin_pure o1 o2 o3 o4 a b c d :
  os o1 (ori a b c) -> os o2 (ori a b d) -> os o3 (ori c d a) -> os o4 (ori c d b) ->
  ((~ same_pt a c /\ ~ same_pt a d /\ ~ same_pt b c /\ ~ same_pt b d) /\
  ~ (o1 = Colinear /\ in_box a c b) /\ ~ (o2 = Colinear /\ in_box a d b) /\
  ~ (o3 = Colinear /\ in_box c a d) /\ ~ (o4 = Colinear /\ in_box c b d) /\
  o1 <> o2 /\ o3 <> o4) <->
  (ori a b c * ori a b d < 0 /\ ori c d a * ori c d b < 0).
Proof.
  intros O1 O2 O3 O4. rewrite (os_col _ _ O1), (os_col _ _ O2), (os_col _ _ O3), (os_col _ _ O4).
  split.
  - intros (_ & B1 & B2 & B3 & B4 & N1 & N2).
    assert (Z1 : ~ ori a b c == 0).
    { intros Z. apply N2. apply (os_fun _ _ _ _ O3 O4). apply (outside_same a b c d); tauto. }
    assert (Z2 : ~ ori a b d == 0).
    { intros Z. apply N2. apply (os_fun _ _ _ _ O3 O4).
      assert (Q1 : ori d c a == - ori c d a) by (unfold ori; ring).
      assert (Q2 : ori d c b == - ori c d b) by (unfold ori; ring).
      pose proof (outside_same a b d c Z ltac:(tauto)) as K. rewrite Q1, Q2 in K.
      destruct K as [(?&?)|[(?&?)|(?&?)]]; [left|right; right|right; left]; split; lra. }
    assert (Z3 : ~ ori c d a == 0).
    { intros Z. apply N1. apply (os_fun _ _ _ _ O1 O2). apply (outside_same c d a b); tauto. }
    assert (Z4 : ~ ori c d b == 0).
    { intros Z. apply N1. apply (os_fun _ _ _ _ O1 O2).
      assert (Q1 : ori b a c == - ori a b c) by (unfold ori; ring).
      assert (Q2 : ori b a d == - ori a b d) by (unfold ori; ring).
      pose proof (outside_same c d b a Z ltac:(tauto)) as K. rewrite Q1, Q2 in K.
      destruct K as [(?&?)|[(?&?)|(?&?)]]; [left|right; right|right; left]; split; lra. }
    split; eapply opposite; eauto.
  - intros (P1 & P2).
    assert (Z1 : ~ ori a b c == 0) by (intros Z; rewrite Z in P1; lra).
    assert (Z2 : ~ ori a b d == 0) by (intros Z; rewrite Z in P1; lra).
    assert (Z3 : ~ ori c d a == 0) by (intros Z; rewrite Z in P2; lra).
    assert (Z4 : ~ ori c d b == 0) by (intros Z; rewrite Z in P2; lra).
    split; [|repeat split; try tauto].
    + repeat split; intros K.
      * apply Z1. now apply ori_same_l.
      * apply Z2. now apply ori_same_l.
      * apply Z1. now apply ori_same_r.
      * apply Z2. now apply ori_same_r.
    + intros K. apply (os_fun _ _ _ _ O1 O2) in K. destruct K as [(?&?)|[(?&?)|(?&?)]]; nra.
    + intros K. apply (os_fun _ _ _ _ O3 O4) in K. destruct K as [(?&?)|[(?&?)|(?&?)]]; nra.
Qed.

Definition upt (v : N) : Q * Q := (ux v, uy v).

Lemma pt_index v p : nthN vs v = Some p -> pt_rep p (upt v).
Proof. intros H. destruct (Hvs _ _ H) as (((A & _) & _) & ((B & _) & _)). now split. Qed.

Lemma D_ori a b c va vb vc : nthN vs a = Some va -> nthN vs b = Some vb -> nthN vs c = Some vc ->
  D a b c == ori (upt a) (upt b) (upt c).
Proof.
  intros A B C. rewrite (pos_index _ _ A), (pos_index _ _ B), (pos_index _ _ C).
  unfold det, ori, upt; simpl. ring.
Qed.

Lemma os_compat o s s' : os o s -> s == s' -> os o s'.
Proof. destruct o; cbn [os]; intros; lra. Qed.

(** Segment and ray, in coordinates (along, across) the ray. *)
Lemma cross_ray_pure o1 o2 o3 o4 a b f (e : Q * Q) :
  fst a < fst e -> fst b < fst e -> fst f < fst e -> snd e == snd f ->
  os o1 (ori a b f) -> os o3 (snd a - snd f) -> os o4 (snd b - snd f) ->
  ((snd a - snd f) * (snd b - snd f) <= 0 -> ~ (snd a - snd f == 0 /\ snd b - snd f == 0) ->
     os o2 (snd a - snd b) /\ ~ snd a - snd b == 0) ->
  ((~ same_pt a f /\ ~ same_pt a e /\ ~ same_pt b f /\ ~ same_pt b e) /\
  ~ (o1 = Colinear /\ in_box a f b) /\ ~ (o2 = Colinear /\ in_box a e b) /\
  ~ (o3 = Colinear /\ in_box f a e) /\ ~ (o4 = Colinear /\ in_box f b e) /\
  o1 <> o2 /\ o3 <> o4) <->
  (ori a b f * (snd a - snd b) < 0 /\ (snd a - snd f) * (snd b - snd f) < 0).
Proof.
  destruct a as (a1, a2), b as (b1, b2), f as (f1, f2), e as (e1, e2). cbn [fst snd].
  intros Ha Hb Hf He O1 O3 O4 O2'.
  rewrite (os_col _ _ O1), (os_col _ _ O3), (os_col _ _ O4). split.
  - intros (_ & B1 & B2 & B3 & B4 & N1 & N2).
    assert (Nz : ~ (a2 - f2 == 0 /\ b2 - f2 == 0)).
    { intros K. apply N2, (os_fun _ _ _ _ O3 O4). now left. }
    assert (Le : (a2 - f2) * (b2 - f2) <= 0).
    { destruct (Qlt_le_dec 0 ((a2 - f2) * (b2 - f2))) as [K|K]; auto. exfalso. apply N2, (os_fun _ _ _ _ O3 O4). right.
      destruct (Q_dec (a2 - f2) 0) as [[K1|K1]|K1]; [left|right|exfalso; rewrite K1 in K; lra];
      (split; [auto|]; nra). }
    destruct (O2' Le Nz) as (O2 & Z2). unfold ori in *; cbn [fst snd] in *. unfold in_box, between in *; cbn [fst snd] in *.
    assert (Z3 : ~ a2 - f2 == 0).
    { intros Z. assert (L1 : a1 < f1).
      { destruct (Qlt_le_dec a1 f1) as [|K]; auto. exfalso. apply B3. split; auto. split; left; lra. }
      apply N1, (os_fun _ _ _ _ O1 O2). right.
      assert (I : (b1 - a1) * (f2 - a2) - (b2 - a2) * (f1 - a1) == (a2 - b2) * (f1 - a1)).
      { setoid_replace (f2 - a2) with 0 by lra. ring. }
      rewrite I. clear - L1 Z2. destruct (Q_dec (a2 - b2) 0) as [[K1|K1]|K1]; [left|right|exfalso; auto]; (split; [nra|auto]). }
    assert (Z4 : ~ b2 - f2 == 0).
    { intros Z. assert (L1 : b1 < f1).
      { destruct (Qlt_le_dec b1 f1) as [|K]; auto. exfalso. apply B4. split; auto. split; left; lra. }
      apply N1, (os_fun _ _ _ _ O1 O2). right.
      assert (I : (b1 - a1) * (f2 - a2) - (b2 - a2) * (f1 - a1) == (a2 - b2) * (f1 - b1)).
      { setoid_replace (f2 - a2) with (b2 - a2) by lra. ring. }
      rewrite I. clear - L1 Z2. destruct (Q_dec (a2 - b2) 0) as [[K1|K1]|K1]; [left|right|exfalso; auto]; (split; [nra|auto]). }
    assert (Lt : (a2 - f2) * (b2 - f2) < 0).
    { clear - Le Z3 Z4. destruct (Q_dec (a2 - f2) 0) as [[K1|K1]|K1]; destruct (Q_dec (b2 - f2) 0) as [[K2|K2]|K2]; try tauto; nra. }
    split; auto.
    apply (opposite _ _ _ _ O1 O2); auto.
    intros Z. apply B1. split; auto.
    assert (I : (f1 - a1) * (b2 - a2) == (b1 - a1) * (f2 - a2)) by (clear - Z; lra).
    clear - I Lt Z3 Z4.
    destruct (Q_dec (a2 - f2) 0) as [[K1|K1]|K1]; destruct (Q_dec (b2 - f2) 0) as [[K2|K2]|K2]; try tauto; try (exfalso; nra).
    + split; [|left; lra]. destruct (Qlt_le_dec a1 b1); [left|right]; split; nra.
    + split; [|right; lra]. destruct (Qlt_le_dec a1 b1); [left|right]; split; nra.
  - intros (P1 & P2).
    assert (Z3 : ~ a2 - f2 == 0) by (intros Z; rewrite Z in P2; lra).
    assert (Z4 : ~ b2 - f2 == 0) by (intros Z; rewrite Z in P2; lra).
    assert (Z1 : ~ ori (a1, a2) (b1, b2) (f1, f2) == 0) by (intros Z; rewrite Z in P1; lra).
    destruct O2' as (O2 & Z2); [lra|tauto|]. rewrite (os_col _ _ O2).
    split; [|repeat split; try tauto].
    + repeat split; intros K.
      * apply Z1. now apply ori_same_l.
      * destruct K as (K & _). cbn [fst] in K. lra.
      * apply Z1. now apply ori_same_r.
      * destruct K as (K & _). cbn [fst] in K. lra.
    + intros K. apply (os_fun _ _ _ _ O1 O2) in K. destruct K as [(?&?)|[(?&?)|(?&?)]]; nra.
    + intros K. apply (os_fun _ _ _ _ O3 O4) in K. destruct K as [(?&?)|[(?&?)|(?&?)]]; nra.
Qed.

(** The rotation that takes the direction of the infinite vertex q to (1, 0). *)
Definition rot (q : qidx) (p : Q * Q) : Q * Q :=
  match q with
  | Q1 => (- fst p, - snd p) | Q2 => (snd p, - fst p) | Q3 => (fst p, snd p) | Q4 => (- snd p, fst p)
  end.

Lemma ori_rot q a b c : ori (rot q a) (rot q b) (rot q c) == ori a b c.
Proof. destruct q; unfold ori, rot; cbn [fst snd]; ring. Qed.

Lemma same_rot q a b : same_pt (rot q a) (rot q b) <-> same_pt a b.
Proof. destruct q; unfold same_pt, rot; cbn [fst snd]; split; intros (A & B); split; lra. Qed.

Lemma between_opp a b c : between (- a) (- b) (- c) <-> between a b c.
Proof. unfold between; split; intros [(A & B)|(A & B)]; [right|left|right|left]; split; lra. Qed.

Lemma box_rot q a b c : in_box (rot q a) (rot q b) (rot q c) <-> in_box a b c.
Proof. destruct q; unfold in_box, rot; cbn [fst snd]; rewrite ?between_opp; tauto. Qed.

(** The far end of a ray, seen in the rotated frame. *)
Lemma far_pt f vf q : nthN vs f = Some vf -> exists e : Q * Q,
  pt_rep (far vf q) e /\ snd (rot q e) == snd (rot q (upt f)) /\
  (forall g vg, nthN vs g = Some vg -> fst (rot q (upt g)) < fst (rot q e)).
Proof.
  intros A. pose proof (far_spec _ _ q A) as Fs.
  destruct q; destruct Fs as (F1 & F2).
  - destruct F1 as (e & Re & L & C). pose proof F2 as ((Ry & _) & _). exists (e, uy f). split; [now split|].
    unfold rot, upt; cbn [fst snd]. split; [lra|]. intros g vg Hg. destruct (Hvs _ _ Hg) as ((_ & B) & (_ & B')). lra.
  - destruct F2 as (e & Re & L & C). pose proof F1 as ((Ry & _) & _). exists (ux f, e). split; [now split|].
    unfold rot, upt; cbn [fst snd]. split; [lra|]. intros g vg Hg. destruct (Hvs _ _ Hg) as ((_ & B) & (_ & B')). lra.
  - destruct F1 as (e & Re & L & C). pose proof F2 as ((Ry & _) & _). exists (e, uy f). split; [now split|].
    unfold rot, upt; cbn [fst snd]. split; [lra|]. intros g vg Hg. destruct (Hvs _ _ Hg) as ((_ & B) & (_ & B')). lra.
  - destruct F2 as (e & Re & L & C). pose proof F1 as ((Ry & _) & _). exists (ux f, e). split; [now split|].
    unfold rot, upt; cbn [fst snd]. split; [lra|]. intros g vg Hg. destruct (Hvs _ _ Hg) as ((_ & B) & (_ & B')). lra.
Qed.

Lemma D_ray f k q r vf vr : nthN vs f = Some vf -> nthN vs r = Some vr -> infinite_vertex_local_quad_index k = Some q ->
  D f k r == snd (rot q (upt r)) - snd (rot q (upt f)).
Proof.
  intros A B K. destruct (inf_index _ _ K) as (_ & Ek). rewrite (pos_index _ _ A), (pos_index _ _ B), Ek.
  destruct q; unfold det, rot, upt; simpl; ring.
Qed.

Lemma D_seg_inf a b k q va vb : nthN vs a = Some va -> nthN vs b = Some vb -> infinite_vertex_local_quad_index k = Some q ->
  D a b k == snd (rot q (upt a)) - snd (rot q (upt b)).
Proof.
  intros A B K. destruct (inf_index _ _ K) as (_ & Ek). rewrite (pos_index _ _ A), (pos_index _ _ B), Ek.
  destruct q; unfold det, rot, upt; simpl; ring.
Qed.

Lemma far_edge vf q : edge_from_semi_infinite_edge vf q = (vf, far vf q).
Proof. reflexivity. Qed.

Lemma cross_rays_pure o1 o2 o3 o4 (f e g h : Q * Q) (sg : Q) :
  fst f < fst e -> fst g < fst e -> snd e == snd f -> fst h == fst g ->
  (sg == 1 /\ snd f < snd h /\ snd g < snd h) \/ (sg == - (1) /\ snd h < snd f /\ snd h < snd g) ->
  os o1 (snd g - snd f) -> os o2 sg -> os o3 (- sg * (fst f - fst g)) -> os o4 (- sg) ->
  ((~ same_pt f g /\ ~ same_pt f h /\ ~ same_pt e g /\ ~ same_pt e h) /\
  ~ (o1 = Colinear /\ in_box f g e) /\ ~ (o2 = Colinear /\ in_box f h e) /\
  ~ (o3 = Colinear /\ in_box g f h) /\ ~ (o4 = Colinear /\ in_box g e h) /\
  o1 <> o2 /\ o3 <> o4) <->
  ((snd g - snd f) * sg < 0 /\ (- sg * (fst f - fst g)) * - sg < 0).
Proof.
  destruct f as (f1, f2), e as (e1, e2), g as (g1, g2), h as (h1, h2). cbn [fst snd].
  intros Hf Hg He Hh Hs O1 O2 O3 O4.
  rewrite (os_col _ _ O1), (os_col _ _ O2), (os_col _ _ O3), (os_col _ _ O4).
  unfold in_box, same_pt, between; cbn [fst snd].
  assert (X : (- sg * (f1 - g1)) * - sg == f1 - g1) by (destruct Hs as [(-> & _)|(-> & _)]; ring).
  rewrite X. split.
  - intros (_ & B1 & _ & B3 & _ & N1 & N2).
    assert (L : f1 < g1).
    { destruct (Q_dec (f1 - g1) 0) as [[K|K]|K]; [lra| |].
      - exfalso. apply N2, (os_fun _ _ _ _ O3 O4). right. destruct Hs as [(Q & _)|(Q & _)]; rewrite Q; [left|right]; split; lra.
      - exfalso. destruct Hs as [(Q & K1 & K2)|(Q & K1 & K2)].
        + assert (f2 < g2).
          { destruct (Qlt_le_dec f2 g2); auto. exfalso. apply B3. split; [rewrite Q; lra|]. split; [left; lra|left; lra]. }
          apply N1, (os_fun _ _ _ _ O1 O2). right. right. split; lra.
        + assert (g2 < f2).
          { destruct (Qlt_le_dec g2 f2); auto. exfalso. apply B3. split; [rewrite Q; lra|]. split; [left; lra|right; lra]. }
          apply N1, (os_fun _ _ _ _ O1 O2). right. left. split; lra. }
    split; [|lra].
    destruct (Q_dec (g2 - f2) 0) as [[K|K]|K].
    + destruct Hs as [(Q & _)|(Q & _)]; rewrite Q; [lra|]. exfalso. apply N1, (os_fun _ _ _ _ O1 O2). right; left. split; lra.
    + destruct Hs as [(Q & _)|(Q & _)]; rewrite Q; [|lra]. exfalso. apply N1, (os_fun _ _ _ _ O1 O2). right; right. split; lra.
    + exfalso. apply B1. split; auto. split; left; lra.
  - intros (P1 & P2). destruct Hs as [(Q & K1 & K2)|(Q & K1 & K2)]; rewrite Q in P1.
    + repeat split; try (intros K; lra).
      * intros K. apply (os_fun _ _ _ _ O1 O2) in K. rewrite Q in K. clear - K P1 P2. lra.
      * intros K. apply (os_fun _ _ _ _ O3 O4) in K. rewrite Q in K. clear - K P1 P2. lra.
    + repeat split; try (intros K; lra).
      * intros K. apply (os_fun _ _ _ _ O1 O2) in K. rewrite Q in K. clear - K P1 P2. lra.
      * intros K. apply (os_fun _ _ _ _ O3 O4) in K. rewrite Q in K. clear - K P1 P2. lra.
Qed.

End Grid.
