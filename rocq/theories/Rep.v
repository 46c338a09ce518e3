(** * Rep: arithmetics that round monotonically, and vertices on a grid.

    [Rep rep repr pb ep]: [rep x q] says that the float [x] is the rational [q]; [repr q] that [q]
    is representable, [pb] how many bits are, [ep] the value of EPSILON.  Every operation returns a number that is on the same side of every
    representable number as the exact result.  The exact rationals and IEEE binary64 are
    instances ([QExact.v], [Grid64.v]). *)

From Coq Require Import ZArith NArith List Bool Lia QArith Qabs Qround Lqa.
From Verif Require Import Base BaseFacts Arith Types Utils Infinite Triangulation Geom Mesh Exact.
Import ListNotations.
Local Open Scope Q_scope.

Definition big : Q := inject_Z (2 ^ 60).

(** [q] is a monotone rounding of [e]. *)
Definition rounds (repr : Q -> Prop) (e q : Q) : Prop :=
  forall l, repr l -> (l <= e -> l <= q) /\ (e <= l -> q <= l).

Record Rep {E : Env} (rep : F -> Q -> Prop) (repr : Q -> Prop) (pb : Z) (ep : Q) : Prop := {
  rr_bits : (20 <= pb <= 50)%Z;
  rr_ep : 0 < ep <= 1 # 16;
  rp_compat : forall x a b, rep x a -> a == b -> rep x b;
  rr_compat : forall a b, repr a -> a == b -> repr b;
  rp_add : forall x y a b, rep x a -> rep y b -> Qabs (a + b) <= big ->
    exists q, rep (fadd x y) q /\ rounds repr (a + b) q;
  rp_sub : forall x y a b, rep x a -> rep y b -> Qabs (a - b) <= big ->
    exists q, rep (fsub x y) q /\ rounds repr (a - b) q;
  rp_mul : forall x y a b, rep x a -> rep y b -> Qabs (a * b) <= big ->
    exists q, rep (fmul x y) q /\ rounds repr (a * b) q;
  rp_div : forall x y a b, rep x a -> rep y b -> 0 < b -> Qabs (a / b) <= big ->
    exists q, rep (fdiv x y) q /\ rounds repr (a / b) q;
  rp_neg : forall x a, rep x a -> rep (fneg x) (- a);
  rp_abs : forall x a, rep x a -> rep (fabs x) (Qabs a);
  rp_lt : forall x y a b, rep x a -> rep y b -> (flt x y = true <-> a < b);
  rp_le : forall x y a b, rep x a -> rep y b -> (fle x y = true <-> a <= b);
  rp_eq : forall x y a b, rep x a -> rep y b -> (feq x y = true <-> a == b);
  rp_max : forall x y a b, rep x a -> rep y b ->
    (b <= a -> rep (fmax x y) a) /\ (a <= b -> rep (fmax x y) b);
  rp_min : forall x y a b, rep x a -> rep y b ->
    (a <= b -> rep (fmin x y) a) /\ (b <= a -> rep (fmin x y) b);
  rp_0 : rep f0 0;
  rp_eps : rep feps ep;
  rp_delta : exists d, rep fdelta d /\ 141 # 100 <= d <= 143 # 100;
  rp_099 : exists d, rep f099 d /\ 98 # 100 <= d <= 127 # 128;
  rp_MAX : exists d, rep fMAX d /\ big <= d;
  rp_MIN : exists d, rep fMIN d /\ d <= - big;
  rp_of_N : forall n, (Z.of_N n <= 2 ^ (pb - 10))%Z -> rep (f_of_N n) (inject_Z (Z.of_N n));
  rp_to_N : forall x a, rep x a -> 0 <= a -> a <= inject_Z (2 ^ (pb - 10)) -> f_to_N x = Z.to_N (Qfloor a);
  rr_small : forall z, (Z.abs z <= 2 ^ pb)%Z -> repr (inject_Z z / 128);
  (** rounding of differences is monotone, and keeps distinct numbers apart *)
  rp_sub_mono : forall x y x' y' a b a' b', rep x a -> rep y b -> rep x' a' -> rep y' b' ->
    Qabs (a - b) <= big -> Qabs (a' - b') <= big -> a - b <= a' - b' ->
    fle (fsub x y) (fsub x' y') = true;
  rr_gap : forall x y a b, rep x a -> rep y b -> b < a -> exists l, repr l /\ 0 < l /\ l <= a - b;
  rp_nan : forall x a, rep x a -> fis_nan x = false /\ fis_finite x = true
}.

Section Facts.
Context {E : Env}.
Variable rep : F -> Q -> Prop.
Variable repr : Q -> Prop.
Variable pb : Z.
Variable ep : Q.
Hypothesis R : Rep rep repr pb ep.

Lemma pb_pow : (2 ^ pb = 1024 * 2 ^ (pb - 10) /\ 2 ^ 10 <= 2 ^ (pb - 10) <= 2 ^ 40)%Z.
Proof.
  pose proof (rr_bits _ _ _ _ R) as B. split.
  - change 1024%Z with (2 ^ 10)%Z. rewrite <- Z.pow_add_r by lia. f_equal. lia.
  - split; apply Z.pow_le_mono_r; lia.
Qed.

Lemma small_repr z : (Z.abs z <= 2 ^ 20)%Z -> repr (inject_Z z / 128).
Proof.
  intros H. apply (rr_small _ _ _ _ R). destruct pb_pow as (A & B). rewrite A. lia.
Qed.

Lemma rounds_exact e q : repr e -> rounds repr e q -> q == e.
Proof. intros H K. destruct (K e H) as (A & B). specialize (A (Qle_refl _)). specialize (B (Qle_refl _)). lra. Qed.

Lemma add_exact x y a b : rep x a -> rep y b -> Qabs (a + b) <= big -> repr (a + b) -> rep (fadd x y) (a + b).
Proof.
  intros A B H K. destruct (rp_add _ _ _ _ R x y a b A B H) as (q & Hq & Hr).
  eapply (rp_compat _ _ _ _ R); eauto. now apply rounds_exact.
Qed.

Lemma sub_exact x y a b : rep x a -> rep y b -> Qabs (a - b) <= big -> repr (a - b) -> rep (fsub x y) (a - b).
Proof.
  intros A B H K. destruct (rp_sub _ _ _ _ R x y a b A B H) as (q & Hq & Hr).
  eapply (rp_compat _ _ _ _ R); eauto. now apply rounds_exact.
Qed.

Lemma mul_exact x y a b : rep x a -> rep y b -> Qabs (a * b) <= big -> repr (a * b) -> rep (fmul x y) (a * b).
Proof.
  intros A B H K. destruct (rp_mul _ _ _ _ R x y a b A B H) as (q & Hq & Hr).
  eapply (rp_compat _ _ _ _ R); eauto. now apply rounds_exact.
Qed.

Lemma div_exact x y a b : rep x a -> rep y b -> 0 < b -> Qabs (a / b) <= big -> repr (a / b) -> rep (fdiv x y) (a / b).
Proof.
  intros A B P H K. destruct (rp_div _ _ _ _ R x y a b A B P H) as (q & Hq & Hr).
  eapply (rp_compat _ _ _ _ R); eauto. now apply rounds_exact.
Qed.

Lemma lt_false x y a b : rep x a -> rep y b -> (flt x y = false <-> b <= a).
Proof.
  intros A B. pose proof (rp_lt _ _ _ _ R x y a b A B) as H. destruct (flt x y).
  - split; [discriminate|]. intros K. assert (a < b) by tauto. lra.
  - split; auto. intros _. destruct (Qlt_le_dec a b) as [K|K]; auto. apply H in K. discriminate.
Qed.

Lemma le_false x y a b : rep x a -> rep y b -> (fle x y = false <-> b < a).
Proof.
  intros A B. pose proof (rp_le _ _ _ _ R x y a b A B) as H. destruct (fle x y).
  - split; [discriminate|]. intros K. assert (a <= b) by tauto. lra.
  - split; auto. intros _. destruct (Qlt_le_dec b a) as [K|K]; auto. apply H in K. discriminate.
Qed.

(** ** Grid numbers: multiples of 1/S^n, bounded by b *)
Variable S : Z.
Hypothesis S1 : (1 <= S)%Z.

Definition G (n b : nat) (q : Q) : Prop :=
  exists z, (Z.abs z <= Z.of_nat b * S ^ Z.of_nat n)%Z /\ q * inject_Z (S ^ Z.of_nat n) == inject_Z z.

Lemma Spos n : (0 < S ^ Z.of_nat n)%Z.
Proof. apply Z.pow_pos_nonneg; lia. Qed.

Lemma SposQ n : 0 < inject_Z (S ^ Z.of_nat n).
Proof. pose proof (Spos n). change 0 with (inject_Z 0). now rewrite <- Zlt_Qlt. Qed.

Lemma G_compat n b p q : G n b p -> p == q -> G n b q.
Proof. intros (z & A & B) H. exists z. split; auto. now rewrite <- H. Qed.

Lemma G_add n b c p q : G n b p -> G n c q -> G n (b + c) (p + q).
Proof.
  intros (z & A & B) (w & C & D). exists (z + w)%Z. split; [lia|].
  rewrite Qmult_plus_distr_l, B, D, inject_Z_plus. reflexivity.
Qed.

Lemma G_opp n b p : G n b p -> G n b (- p).
Proof.
  intros (z & A & B). exists (- z)%Z. split; [lia|]. rewrite inject_Z_opp, <- B. ring.
Qed.

Lemma G_sub n b c p q : G n b p -> G n c q -> G n (b + c) (p - q).
Proof. intros A B. apply (G_compat n (b + c) (p + - q)); [|ring]. now apply G_add, G_opp. Qed.

Lemma G_mul n m b c p q : G n b p -> G m c q -> G (n + m) (b * c) (p * q).
Proof.
  intros (z & A & B) (w & C & D). exists (z * w)%Z.
  assert (P : (S ^ Z.of_nat (n + m) = S ^ Z.of_nat n * S ^ Z.of_nat m)%Z).
  { rewrite Nat2Z.inj_add, Z.pow_add_r; lia. }
  split.
  - rewrite P, Z.abs_mul, Nat2Z.inj_mul.
    apply Z.le_trans with ((Z.of_nat b * S ^ Z.of_nat n) * (Z.of_nat c * S ^ Z.of_nat m))%Z; [|lia].
    apply Z.mul_le_mono_nonneg; lia.
  - rewrite P, inject_Z_mult, inject_Z_mult, <- B, <- D. ring.
Qed.

Lemma G_abs n b p : G n b p -> Qabs p <= inject_Z (Z.of_nat b).
Proof.
  intros (z & A & B). pose proof (SposQ n) as P.
  apply Qabs_Qle_condition.
  assert (H1 : inject_Z z <= inject_Z (Z.of_nat b * S ^ Z.of_nat n)) by (rewrite <- Zle_Qle; lia).
  assert (H2 : inject_Z (- (Z.of_nat b * S ^ Z.of_nat n)) <= inject_Z z) by (rewrite <- Zle_Qle; lia).
  rewrite inject_Z_opp in H2. rewrite inject_Z_mult in H1, H2. rewrite <- B in H1, H2.
  split.
  - apply (Qmult_le_r _ _ _ P). lra.
  - apply (Qmult_le_r _ _ _ P). lra.
Qed.

Lemma G_gap n b p : G n b p -> 0 < p -> / inject_Z (S ^ Z.of_nat n) <= p.
Proof.
  intros (z & A & B) H. pose proof (SposQ n) as P.
  assert (Hz : 0 < inject_Z z).
  { rewrite <- B. now apply Qmult_lt_0_compat. }
  assert (Hz' : (1 <= z)%Z). { change 0 with (inject_Z 0) in Hz. rewrite <- Zlt_Qlt in Hz. lia. }
  apply (Qmult_le_r _ _ _ P). rewrite B, Qmult_comm, Qmult_inv_r by lra.
  change 1 with (inject_Z 1). rewrite <- Zle_Qle. lia.
Qed.

Lemma big_nat b : (b <= 1000)%nat -> inject_Z (Z.of_nat b) <= big.
Proof. intros H. unfold big. rewrite <- Zle_Qle. lia. Qed.

Lemma G_big n b p : G n b p -> (b <= 1000)%nat -> Qabs p <= big.
Proof. intros H K. eapply Qle_trans; [eapply G_abs; eauto|now apply big_nat]. Qed.

(** Which grid numbers are representable. *)
Hypothesis repr4 : forall q, G 4 8 q -> repr q.
Hypothesis repr2 : forall q, G 2 64 (8 * q) -> repr q.

Lemma G_up n b p : G n b p -> G (Datatypes.S n) b p.
Proof.
  intros (z & A & B). exists (z * S)%Z. rewrite Nat2Z.inj_succ, Z.pow_succ_r by lia. split.
  - rewrite Z.abs_mul, (Z.abs_eq S) by lia. nia.
  - rewrite inject_Z_mult, (inject_Z_mult z S), <- B. ring.
Qed.

Lemma G_weak n b c p : G n b p -> (b <= c)%nat -> G n c p.
Proof. intros (z & A & B) H. exists z. split; auto. pose proof (Spos n). nia. Qed.

Lemma repr_G n b q : G n b q -> (n <= 4)%nat -> (b <= 8)%nat -> repr q.
Proof.
  intros H Hn Hb. apply repr4. apply (G_weak _ b 8); auto.
  assert (K : forall k, G (k + n) b q) by (induction k; simpl; auto using G_up).
  specialize (K (4 - n)%nat). now replace (4 - n + n)%nat with 4%nat in K by lia.
Qed.

Lemma repr_G2 n b q : G n b q -> (n <= 2)%nat -> (b <= 8)%nat -> repr q.
Proof. intros H Hn Hb. eapply repr_G; eauto; lia. Qed.

(** A float whose value is a grid number. *)
Definition gf (n b : nat) (x : F) (q : Q) : Prop := rep x q /\ G n b q.

Lemma gf_sub n b c x y p q : gf n b x p -> gf n c y q -> (n <= 4)%nat -> (b + c <= 8)%nat ->
  gf n (b + c) (fsub x y) (p - q).
Proof.
  intros (A & B) (C & D) H K. pose proof (G_sub _ _ _ _ _ B D) as Gs. split; auto.
  apply sub_exact; auto; [eapply G_big; eauto; lia|eapply repr_G; eauto].
Qed.

Lemma gf_add n b c x y p q : gf n b x p -> gf n c y q -> (n <= 4)%nat -> (b + c <= 8)%nat ->
  gf n (b + c) (fadd x y) (p + q).
Proof.
  intros (A & B) (C & D) H K. pose proof (G_add _ _ _ _ _ B D) as Gs. split; auto.
  apply add_exact; auto; [eapply G_big; eauto; lia|eapply repr_G; eauto].
Qed.

Lemma gf_mul n m b c x y p q : gf n b x p -> gf m c y q -> (n + m <= 4)%nat -> (b * c <= 8)%nat ->
  gf (n + m) (b * c) (fmul x y) (p * q).
Proof.
  intros (A & B) (C & D) H K. pose proof (G_mul _ _ _ _ _ _ B D) as Gs. split; auto.
  apply mul_exact; auto; [eapply G_big; eauto; lia|eapply repr_G; eauto].
Qed.

(** A coordinate: a grid number of [0, 1]. *)
Definition coord (x : F) (q : Q) : Prop := gf 1 1 x q /\ 0 <= q /\ q <= 1.

Lemma G1_diff p q : G 1 1 p -> G 1 1 q -> 0 <= p <= 1 -> 0 <= q <= 1 -> G 1 1 (p - q).
Proof.
  intros (z & A & B) (w & C & D) Hp Hq. exists (z - w)%Z. pose proof (SposQ 1) as P.
  assert (Q1 : 0 <= inject_Z z <= inject_Z (S ^ Z.of_nat 1)) by (rewrite <- B; nra).
  assert (Q2 : 0 <= inject_Z w <= inject_Z (S ^ Z.of_nat 1)) by (rewrite <- D; nra).
  change 0 with (inject_Z 0) in Q1, Q2. rewrite <- !Zle_Qle in Q1, Q2. split; [lia|].
  unfold Zminus. rewrite inject_Z_plus, inject_Z_opp, <- B, <- D. ring.
Qed.

Lemma coord_sub x y p q : coord x p -> coord y q -> gf 1 1 (fsub x y) (p - q).
Proof.
  intros ((A & B) & P) ((C & D) & P'). pose proof (G1_diff _ _ B D P P') as Gs. split; auto.
  apply sub_exact; auto; [eapply G_big; eauto; lia|eapply repr_G; eauto; lia].
Qed.

(** (p2 - p1)(p4 - p3) - (p6 - p5)(p8 - p7), as computed by the code *)
Lemma cross_gf x1 x2 x3 x4 x5 x6 x7 x8 p1 p2 p3 p4 p5 p6 p7 p8 :
  coord x1 p1 -> coord x2 p2 -> coord x3 p3 -> coord x4 p4 ->
  coord x5 p5 -> coord x6 p6 -> coord x7 p7 -> coord x8 p8 ->
  gf 2 2 (fsub (fmul (fsub x2 x1) (fsub x4 x3)) (fmul (fsub x6 x5) (fsub x8 x7)))
     ((p2 - p1) * (p4 - p3) - (p6 - p5) * (p8 - p7)).
Proof.
  intros. apply (gf_sub 2 1 1); try lia; apply (gf_mul 1 1 1 1); try lia; now apply coord_sub.
Qed.

End Facts.
