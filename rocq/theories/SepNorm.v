(** * SepNorm: the exactness of the predicates on the normalised vertices of a well separated
    input. *)

From Coq Require Import ZArith NArith List Bool Lia QArith Qabs Lqa.
From Verif Require Import Base BaseFacts Arith Types Utils Infinite Triangulation Geom Mesh Exact
  ExactC Rep GridExact Cross Near SepExact AnyDT DTOut Norm.
Import ListNotations.
Local Open Scope Q_scope.

(** ** Positions with the same signs have the same exactness *)

(** Two numbers of the same sign. *)
Definition sim (x y : Q) : Prop := (0 < x <-> 0 < y) /\ (x < 0 <-> y < 0).

Lemma sim_zero x y : sim x y -> (x == 0 <-> y == 0).
Proof. intros (A & B). split; intros H; lra. Qed.

Lemma sim_eq x y x' y' : sim x y -> x == x' -> y == y' -> sim x' y'.
Proof. unfold sim. intros H A B. rewrite <- A, <- B. exact H. Qed.

Lemma sim_opp x y : sim x y -> sim (- x) (- y).
Proof. intros (A & B). split; split; intros; lra. Qed.

Lemma sim_refl x : sim x x.
Proof. split; reflexivity. Qed.

Lemma sim_mul x y x' y' : sim x y -> sim x' y' -> (x * x' < 0 <-> y * y' < 0).
Proof.
  intros H H'. assert (K : forall a b, a * b < 0 <-> (0 < a /\ b < 0) \/ (a < 0 /\ 0 < b)).
  { intros a b. split.
    - intros P. destruct (Q_dec a 0) as [[A|A]|A]; [right|left|exfalso; rewrite A in P; lra]; split; auto; nra.
    - intros [(A & B)|(A & B)]; nra. }
  rewrite !K. destruct H as (A & B), H' as (A' & B'). rewrite A, B, A', B'. reflexivity.
Qed.

Section Transfer.
Context {E : Env}.
Variable vs : list vertex.
Variables ux uy px py : N -> Q.
Hypothesis Hlen : (lenN vs <= INF0)%N.
Definition here' (v : N) : Prop := exists p, nthN vs v = Some p.
Notation U := (hpos ux uy).
Notation P := (hpos px py).
Hypothesis Tx : forall a b, here' a -> here' b -> sim (ux a - ux b) (px a - px b).
Hypothesis Ty : forall a b, here' a -> here' b -> sim (uy a - uy b) (py a - py b).
Hypothesis To : forall a b c, here' a -> here' b -> here' c -> sim (det (U a) (U b) (U c)) (det (P a) (P b) (P c)).
Hypothesis Tc : forall a b c d, here' a -> here' b -> here' c -> here' d ->
  det (P d) (P a) (P b) < 0 -> det (P b) (P a) (P c) < 0 ->
  sim (incircle (ux a) (uy a) (ux b) (uy b) (ux c) (uy c) (ux d) (uy d))
      (incircle (px a) (py a) (px b) (py b) (px c) (py c) (px d) (py d)).

Notation posU := (pos_index vs ux uy Hlen).
Notation posP := (pos_index vs px py Hlen).

Lemma sim1 a k q c va vc : nthN vs a = Some va -> infinite_vertex_local_quad_index k = Some q -> nthN vs c = Some vc ->
  sim (det (U a) (U k) (U c)) (det (P a) (P k) (P c)).
Proof.
  intros A K C. assert (Ha : here' a) by (eexists; eauto). assert (Hc : here' c) by (eexists; eauto).
  destruct (inf_index ux uy _ _ K) as (_ & Ek). destruct (inf_index px py _ _ K) as (_ & Ek').
  rewrite (posU _ _ A), (posU _ _ C), (posP _ _ A), (posP _ _ C), Ek, Ek'.
  destruct q; unfold det; simpl.
  - eapply sim_eq; [exact (Ty a c Ha Hc)| |]; ring.
  - eapply sim_eq; [exact (Tx a c Ha Hc)| |]; ring.
  - eapply sim_eq; [exact (Ty c a Hc Ha)| |]; ring.
  - eapply sim_eq; [exact (Tx c a Hc Ha)| |]; ring.
Qed.

Lemma sim1' a b k q va vb : nthN vs a = Some va -> nthN vs b = Some vb -> infinite_vertex_local_quad_index k = Some q ->
  sim (det (U a) (U b) (U k)) (det (P a) (P b) (P k)).
Proof.
  intros A B K. eapply sim_eq; [exact (sim1 _ _ _ _ _ _ B K A)| |]; unfold det; ring.
Qed.

Lemma sim2 a k q k' q' va : nthN vs a = Some va ->
  infinite_vertex_local_quad_index k = Some q -> infinite_vertex_local_quad_index k' = Some q' ->
  sim (det (U a) (U k) (U k')) (det (P a) (P k) (P k')).
Proof.
  intros A K K'. pose proof (D_inf_inf vs ux uy Hlen _ _ _ _ _ _ A K K') as E1.
  pose proof (D_inf_inf vs px py Hlen _ _ _ _ _ _ A K K') as E2.
  eapply sim_eq; [apply sim_refl|symmetry; exact E1|symmetry; exact E2].
Qed.

Theorem Exact_sim : Exact vs ux uy -> Exact vs px py.
Proof.
  intros X. destruct X as [L I S1 S2 S3 S4 S5].
  assert (To' : forall a b c va vb vc, nthN vs a = Some va -> nthN vs b = Some vb -> nthN vs c = Some vc ->
    sim (det (U a) (U b) (U c)) (det (P a) (P b) (P c))).
  { intros. apply To; eexists; eauto. }
  constructor; auto.
  - intros a b p va vb vp A B C s1 d1. destruct (S1 a b p va vb vp A B C) as (T1 & T2).
    pose proof (To' _ _ _ _ _ _ A B C) as Sm. pose proof (sim_zero _ _ Sm) as Z. destruct Sm as (M1 & M2).
    unfold s1, d1. now rewrite T1, T2, M1, Z.
  - intros a k q p va vp A K C s1 d1. destruct (S2 a k q p va vp A K C) as (T1 & T2 & T3).
    pose proof (sim1 _ _ _ _ _ _ A K C) as Sm. pose proof (sim_zero _ _ Sm) as Z. destruct Sm as (M1 & M2).
    unfold s1, d1. now rewrite T1, T2, T3, M1, M2, Z.
  - intros a b p va vb vp A B C. rewrite (S3 a b p va vb vp A B C). apply (To' _ _ _ _ _ _ A B C).
  - intros a b c d va vb vc vd A B C D H1 H2.
    rewrite (S4 a b c d va vb vc vd A B C D (proj2 (proj2 (To' _ _ _ _ _ _ D A B)) H1) (proj2 (proj2 (To' _ _ _ _ _ _ B A C)) H2)).
    apply Tc; auto; eexists; eauto.
  - intros a p va vp A C. rewrite (S5 a p va vp A C). unfold samepos.
    assert (Ha : here' a) by (eexists; eauto). assert (Hc : here' p) by (eexists; eauto).
    pose proof (sim_zero _ _ (Tx a p Ha Hc)). pose proof (sim_zero _ _ (Ty a p Ha Hc)). split; intros (Y1 & Y2); split; lra.
Qed.

Theorem ExactC_sim : ExactC vs ux uy -> ExactC vs px py.
Proof.
  intros X. destruct X as [S1 S2 S3].
  assert (To' : forall a b c va vb vc, nthN vs a = Some va -> nthN vs b = Some vb -> nthN vs c = Some vc ->
    sim (det (U a) (U b) (U c)) (det (P a) (P b) (P c))).
  { intros. apply To; eexists; eauto. }
  constructor.
  - intros a b c d va vb vc vd A B C D. rewrite (S1 a b c d va vb vc vd A B C D). unfold crosses.
    rewrite (sim_mul _ _ _ _ (To' _ _ _ _ _ _ A B C) (To' _ _ _ _ _ _ A B D)).
    rewrite (sim_mul _ _ _ _ (To' _ _ _ _ _ _ C D A) (To' _ _ _ _ _ _ C D B)). reflexivity.
  - intros a b f k q va vb vf A B F0 K. rewrite (S2 a b f k q va vb vf A B F0 K). unfold crosses.
    rewrite (sim_mul _ _ _ _ (To' _ _ _ _ _ _ A B F0) (sim1' _ _ _ _ _ _ A B K)).
    rewrite (sim_mul _ _ _ _ (sim1 _ _ _ _ _ _ F0 K A) (sim1 _ _ _ _ _ _ F0 K B)). reflexivity.
  - intros f k q f' k' q' vf vf' A B K L. rewrite (S3 f k q f' k' q' vf vf' A B K L). unfold crosses.
    rewrite (sim_mul _ _ _ _ (sim1 _ _ _ _ _ _ A K B) (sim2 _ _ _ _ _ _ A K L)).
    rewrite (sim_mul _ _ _ _ (sim1 _ _ _ _ _ _ B L A) (sim2 _ _ _ _ _ _ B L K)). reflexivity.
Qed.
End Transfer.

(** ** Normalisation moves every coordinate by at most 4 u *)
Lemma F2_nth {A B} (T : A -> B -> Prop) l l' v p : Forall2 T l l' -> nthN l v = Some p ->
  exists z, nth_error l' (N.to_nat v) = Some z /\ T p z.
Proof.
  rewrite nthN_nth_error. intros H. generalize (N.to_nat v). induction H as [|a b l l' Hab H IH]; intros [|n] K; try discriminate.
  - injection K as <-. exists b. split; [reflexivity|auto].
  - exact (IH _ K).
Qed.

Section Norm.
Context {E : Env}.
Variable rep : F -> Q -> Prop.
Variable repr : Q -> Prop.
Variable pb : Z.
Variable ep : Q.
Hypothesis R : Rep rep repr pb ep.
Variable rnd : Q -> Q -> Prop.
Variable u : Q.
Hypothesis Nr : Near rep rnd u.
Hypothesis Eu : ep == 2 * u.

(** The larger side of the bounding box. *)
Definition spread_of (ps : list (Q * Q)) (mx my s : Q) : Prop :=
  0 < s /\ (forall p, In p ps -> mx <= fst p <= mx + s /\ my <= snd p <= my + s) /\
  (exists p, In p ps /\ fst p == mx) /\ (exists p, In p ps /\ snd p == my) /\
  (exists p, In p ps /\ (fst p == mx + s \/ snd p == my + s)).

(** [w] is the normalised [x]. *)
Definition scaled (m s1 x w : Q) : Prop := exists q, rnd (x - m) q /\ rnd (q / s1) w.

Lemma scaled_same m s1 x x' w w' : scaled m s1 x w -> scaled m s1 x' w' -> x == x' -> w == w'.
Proof.
  intros (q & A & B) (q' & A' & B') H.
  assert (Hq : q == q') by (apply (rnd_same _ _ _ Nr (x - m) (x' - m)); auto; lra).
  apply (rnd_same _ _ _ Nr (q / s1) (q' / s1)); auto. now rewrite Hq.
Qed.

Lemma close s s1 d q w : 0 < s -> 0 <= d <= s -> 0 < s1 -> 0 <= q <= s1 -> Qabs (s1 - s) <= u * s -> Qabs (q - d) <= u * d ->
  Qabs (w - q / s1) <= u * 1 -> Qabs (w - d / s) <= 4 * u.
Proof.
  intros S0 D0 S1 Q0 Hs Hq Hw. pose proof (nr_u _ _ _ Nr) as (U0 & U1).
  apply le_abs in Hs, Hq, Hw.
  assert (Us : u * s <= (1 # 16777216) * s) by (apply Qmult_le_compat_r; lra).
  assert (K : - (3 * u) * s1 <= q - d * (s1 / s) <= 3 * u * s1).
  { assert (Ed : d * (s1 / s) == d + d * ((s1 - s) / s)) by (field; lra).
    assert (Er : - u <= (s1 - s) / s <= u).
    { split; [apply Qle_shift_div_l; auto; lra|apply Qle_shift_div_r; auto; lra]. }
    assert (Ep : Qabs (d * ((s1 - s) / s)) <= d * u).
    { rewrite Qabs_Qmult. rewrite (Qabs_pos d) by lra. rewrite !(Qmult_comm d). apply Qmult_le_compat_r; [|lra]. apply abs_le; lra. }
    apply le_abs in Ep.
    assert (Du : u * d <= u * s) by (rewrite !(Qmult_comm u); apply Qmult_le_compat_r; lra).
    assert (Su : 2 * (u * s) <= 3 * u * s1).
    { assert (u * (2 * s) <= u * (3 * s1)) by (rewrite !(Qmult_comm u); apply Qmult_le_compat_r; lra). lra. }
    rewrite Ed. lra. }
  assert (Eq : q / s1 - d / s == (q - d * (s1 / s)) / s1) by (field; lra).
  assert (B : - (3 * u) <= (q - d * (s1 / s)) / s1 <= 3 * u).
  { split; [apply Qle_shift_div_l; auto; lra|apply Qle_shift_div_r; auto; lra]. }
  apply abs_le; lra.
Qed.

Lemma normalized_near vs ps mx my s : Forall2 (repv rep) vs ps -> bounded half ps -> spread_of ps mx my s ->
  exists s1 ws, Forall2 (repv rep) (normalized vs) ws /\
    Forall2 (fun p w => scaled mx s1 (fst p) (fst w) /\ scaled my s1 (snd p) (snd w) /\
      0 <= fst w <= 1 /\ 0 <= snd w <= 1 /\
      Qabs (fst w - (fst p - mx) / s) <= 4 * u /\ Qabs (snd w - (snd p - my) / s) <= 4 * u) ps ws.
Proof.
  intros H Hb (S0 & He & (pa & Pa & Ea) & (pb' & Pb & Eb) & (pc & Pc & Ec)). pose proof (nr_u _ _ _ Nr) as (U0 & U1).
  assert (Hb' : bounded big ps).
  { intros p Hp. specialize (Hb p Hp). pose proof half_big. unfold half, big in *. lra. }
  assert (Hn : ps <> []) by (destruct ps; [contradiction|discriminate]).
  destruct (bounds_spec rep repr pb ep R vs ps H Hn Hb') as (a & b & c & d & qx & qy & Qx & Qy & E0 & A & B & C & D & La & Lb & Gc & Gd).
  destruct La as (La1 & La2), Lb as (Lb1 & Lb2), Gc as (Gc1 & Gc2), Gd as (Gd1 & Gd2).
  assert (Ix : forall p, In p ps -> In (fst p) (map fst ps)) by (intros; now apply in_map).
  assert (Iy : forall p, In p ps -> In (snd p) (map snd ps)) by (intros; now apply in_map).
  assert (Jx : forall q, In q (map fst ps) -> (- half < q < half) /\ mx <= q <= mx + s).
  { intros q Hq. apply in_map_iff in Hq. destruct Hq as (z & <- & Hz). split; [apply (Hb z Hz)|apply (He z Hz)]. }
  assert (Jy : forall q, In q (map snd ps) -> (- half < q < half) /\ my <= q <= my + s).
  { intros q Hq. apply in_map_iff in Hq. destruct Hq as (z & <- & Hz). split; [apply (Hb z Hz)|apply (He z Hz)]. }
  assert (Fx : qx == mx) by (pose proof (La2 _ (Ix _ Pa)); pose proof (Jx _ La1); lra).
  assert (Fy : qy == my) by (pose proof (Lb2 _ (Iy _ Pb)); pose proof (Jy _ Lb1); lra).
  assert (Sub : forall x m qq qm, rep x qq -> rep m qm -> - half < qq < half -> - half < qm < half ->
    exists r, rep (fsub x m) r /\ rnd (qq - qm) r /\ Qabs (r - (qq - qm)) <= u * Qabs (qq - qm)).
  { intros x m qq qm X M L1 L2. apply (nr_sub _ _ _ Nr); auto. apply big_abs; lra. }
  destruct (Sub _ _ _ _ C A (proj1 (Jx _ Gc1)) (proj1 (Jx _ La1))) as (w1 & W1 & Nw & Ew).
  destruct (Sub _ _ _ _ D B (proj1 (Jy _ Gd1)) (proj1 (Jy _ Lb1))) as (h1 & H1 & Nh & Eh).
  pose proof (Jx _ Gc1) as (_ & Bc). pose proof (Jy _ Gd1) as (_ & Bd).
  assert (Wx : 0 <= Qx - qx) by lra. assert (Wy : 0 <= Qy - qy) by lra.
  assert (Ax : Qabs (Qx - qx) == Qx - qx) by (now apply Qabs_pos). assert (Ay : Qabs (Qy - qy) == Qy - qy) by (now apply Qabs_pos).
  rewrite Ax in Ew. rewrite Ay in Eh. apply le_abs in Ew, Eh.
  assert (Ms : (Qx - qx == s /\ Qy - qy <= s) \/ (Qy - qy == s /\ Qx - qx <= s)).
  { destruct Ec as [Ec|Ec].
    - left. pose proof (Gc2 _ (Ix _ Pc)). split; lra.
    - right. pose proof (Gd2 _ (Iy _ Pc)). split; lra. }
  assert (Us : u * s <= (1 # 16777216) * s) by (apply Qmult_le_compat_r; lra).
  assert (sc : exists s1, rep (fmax (fsub c a) (fsub d b)) s1 /\ 0 < s1 /\ w1 <= s1 /\ h1 <= s1 /\ Qabs (s1 - s) <= u * s).
  { destruct (rp_max _ _ _ _ R _ _ _ _ W1 H1) as (K1 & K2).
    assert (Mono : forall x y, 0 <= x -> x <= s -> y == u * x -> y <= u * s).
    { intros x y X0 X1 ->. rewrite !(Qmult_comm u). apply Qmult_le_compat_r; lra. }
    pose proof (Mono _ _ Wx ltac:(lra) ltac:(reflexivity)) as M1. pose proof (Mono _ _ Wy ltac:(lra) ltac:(reflexivity)) as M2.
    destruct (Qlt_le_dec w1 h1) as [K|K].
    - exists h1. split; [apply K2; lra|].
      assert (Hm : Qy - qy <= Qx - qx -> h1 <= w1) by (intros L; apply (nr_mono _ _ _ Nr (Qy - qy) (Qx - qx)); auto).
      assert (Ey : Qy - qy == s) by (destruct Ms as [(M & L)|(M & L)]; [exfalso; specialize (Hm ltac:(lra)); lra|auto]).
      rewrite Ey in Eh. repeat split; try lra. apply abs_le; lra.
    - exists w1. split; [apply K1; lra|].
      destruct Ms as [(M & L)|(M & L)].
      + rewrite M in Ew. repeat split; try lra. apply abs_le; lra.
      + (* the height is s; its rounding is at most that of the width, which is at most s *)
        rewrite M in Eh. repeat split; try lra. apply abs_le; lra. }
  destruct sc as (s1 & Sr & S10 & Sw & Sh & Ss).
  assert (Rn0 : rnd 0 0) by (apply (nr_fix _ _ _ Nr f0); apply (rp_0 _ _ _ _ R)).
  (* one coordinate *)
  assert (One : forall x m qq qm l t, rep x qq -> rep m qm -> (- half < qq < half) -> (- half < qm < half) ->
    qm <= qq -> qq <= l -> rnd (l - qm) t -> t <= s1 -> qq - qm <= s ->
    exists w, rep (fdiv (fsub x m) (fmax (fsub c a) (fsub d b))) w /\ scaled qm s1 qq w /\ 0 <= w <= 1 /\ Qabs (w - (qq - qm) / s) <= 4 * u).
  { intros x m qq qm l t X M B1 B2 L1 L2 Nt Ht Hs. destruct (Sub _ _ _ _ X M B1 B2) as (q & Rq & Nq & Eq).
    assert (Q0 : 0 <= q) by (apply (nr_mono _ _ _ Nr 0 (qq - qm)); auto; lra).
    assert (Q1 : q <= s1) by (apply Qle_trans with t; auto; apply (nr_mono _ _ _ Nr (qq - qm) (l - qm)); auto; lra).
    assert (Dq : 0 <= q / s1 <= 1) by (split; [apply Qle_shift_div_l|apply Qle_shift_div_r]; auto; lra).
    destruct (nr_div _ _ _ Nr _ _ _ _ Rq Sr S10) as (w & Rw & Nw').
    { rewrite Qabs_pos by lra. apply Qle_trans with 1; [lra|discriminate]. }
    destruct (rp_div _ _ _ _ R _ _ _ _ Rq Sr S10) as (w' & Rw' & Ru).
    { rewrite Qabs_pos by lra. apply Qle_trans with 1; [lra|discriminate]. }
    assert (Ww : w == w').
    { pose proof (rp_eq _ _ _ _ R _ _ _ _ Rw Rw') as K. pose proof (rp_eq _ _ _ _ R _ _ _ _ Rw Rw) as K'. apply K, K'. reflexivity. }
    pose proof (Ru _ (repr_0 rep repr pb ep R)) as (R0 & _). pose proof (Ru _ (repr_1 rep repr pb ep R)) as (_ & R1).
    exists w. split; auto. split; [exists q; auto|]. split; [rewrite Ww; split; [apply R0|apply R1]; lra|].
    assert (Ad : Qabs (qq - qm) == qq - qm) by (apply Qabs_pos; lra). rewrite Ad in Eq.
    apply (close s s1 (qq - qm) q w); auto; try lra.
    apply (nr_err _ _ _ Nr); auto; [lra|]. rewrite Qabs_pos by lra. lra. }
  exists s1. unfold normalized, normalize_vertices_coordinates. rewrite E0. cbn [fst].
  assert (Step : forall v p, In p ps -> repv rep v p ->
    exists w, repv rep (fdiv (fsub (vx v) a) (fmax (fsub c a) (fsub d b)), fdiv (fsub (vy v) b) (fmax (fsub c a) (fsub d b))) w /\
      scaled mx s1 (fst p) (fst w) /\ scaled my s1 (snd p) (snd w) /\
      0 <= fst w <= 1 /\ 0 <= snd w <= 1 /\
      Qabs (fst w - (fst p - mx) / s) <= 4 * u /\ Qabs (snd w - (snd p - my) / s) <= 4 * u).
  { intros v p Hp (X & Y). pose proof (He _ Hp) as (K1 & K2).
    assert (Am : rep a mx) by (now apply (rp_compat _ _ _ _ R _ qx)). assert (Bm : rep b my) by (now apply (rp_compat _ _ _ _ R _ qy)).
    pose proof (Jx _ La1) as (Hx & _). pose proof (Jy _ Lb1) as (Hy & _).
    assert (Nw2 : exists t, rnd (Qx - mx) t /\ t <= s1).
    { destruct (Sub _ _ _ _ C Am (proj1 (Jx _ Gc1)) ltac:(lra)) as (t & _ & Nt & _). exists t. split; auto.
      assert (t == w1) by (apply (rnd_same _ _ _ Nr (Qx - mx) (Qx - qx)); auto; lra). lra. }
    assert (Nh2 : exists t, rnd (Qy - my) t /\ t <= s1).
    { destruct (Sub _ _ _ _ D Bm (proj1 (Jy _ Gd1)) ltac:(lra)) as (t & _ & Nt & _). exists t. split; auto.
      assert (t == h1) by (apply (rnd_same _ _ _ Nr (Qy - my) (Qy - qy)); auto; lra). lra. }
    destruct Nw2 as (t1 & T1 & T1'). destruct Nh2 as (t2 & T2 & T2').
    destruct (One _ _ _ _ Qx t1 X Am (proj1 (Hb _ Hp)) ltac:(lra) ltac:(lra) (Gc2 _ (Ix _ Hp)) T1 T1' ltac:(lra)) as (x & Rx & Nx & Ux & Cx).
    destruct (One _ _ _ _ Qy t2 Y Bm (proj2 (Hb _ Hp)) ltac:(lra) ltac:(lra) (Gd2 _ (Iy _ Hp)) T2 T2' ltac:(lra)) as (y & Ry & Ny & Uy & Cy).
    exists (x, y). cbn [fst snd]. split; [split; auto|]. auto 10. }
  clear - H Step.
  assert (W : forall vs' ps', Forall2 (repv rep) vs' ps' -> incl ps' ps -> exists ws,
    Forall2 (repv rep) (map (fun v => (fdiv (fsub (vx v) a) (fmax (fsub c a) (fsub d b)), fdiv (fsub (vy v) b) (fmax (fsub c a) (fsub d b)))) vs') ws /\
    Forall2 (fun p w => scaled mx s1 (fst p) (fst w) /\ scaled my s1 (snd p) (snd w) /\
      0 <= fst w <= 1 /\ 0 <= snd w <= 1 /\
      Qabs (fst w - (fst p - mx) / s) <= 4 * u /\ Qabs (snd w - (snd p - my) / s) <= 4 * u) ps' ws).
  { induction 1 as [|v p vs' ps' Hvp F2 IH]; intros I.
    - exists []. split; constructor.
    - destruct IH as (ws & A1 & A2); [intros z Hz; apply I; now right|].
      destruct (Step v p (I _ (or_introl eq_refl)) Hvp) as (w & B1 & B2). exists (w :: ws). split; constructor; auto. }
  exact (W vs ps H (fun _ K => K)).
Qed.

(** ** The margins of the input give the margins of the normalised vertices *)
Definition qpx (l : list (Q * Q)) (v : N) : Q := fst (nth (N.to_nat v) l (0, 0)).
Definition qpy (l : list (Q * Q)) (v : N) : Q := snd (nth (N.to_nat v) l (0, 0)).

Definition ori (a b c : Q * Q) : Q :=
  (fst b - fst a) * (snd c - snd a) - (snd b - snd a) * (fst c - fst a).
Definition inc (a b c d : Q * Q) : Q :=
  incircle (fst a) (snd a) (fst b) (snd b) (fst c) (snd c) (fst d) (snd d).
Definition sameq (a b : Q * Q) : Prop := fst a == fst b /\ snd a == snd b.
Definition plainq (a b c : Q * Q) : Prop :=
  sameq a b \/ sameq b c \/ sameq a c \/
  (fst a == fst b /\ fst b == fst c) \/ (snd a == snd b /\ snd b == snd c).
Definition cornerq (a b c : Q * Q) : Prop :=
  (fst c == fst a /\ snd c == snd b) \/ (fst c == fst b /\ snd c == snd a).

Record separate (l : list (Q * Q)) (s : Q) : Prop := {
  sp_x : forall a b, In a l -> In b l -> fst a == fst b \/ 80 * u * s <= Qabs (fst a - fst b);
  sp_y : forall a b, In a l -> In b l -> snd a == snd b \/ 80 * u * s <= Qabs (snd a - snd b);
  sp_o : forall a b c, In a l -> In b l -> In c l -> plainq a b c \/ 48 * u * (s * s) <= Qabs (ori a b c);
  sp_c : forall a b c d, In a l -> In b l -> In c l -> In d l -> ori d a b < 0 -> ori b a c < 0 ->
    (cornerq a b c /\ cornerq a b d) \/ 384 * u * (s * s * (s * s)) <= Qabs (inc a b c d)
}.

(** Perturbation of a product, of a determinant, of the incircle determinant. *)
Lemma pert2 a b a' b' A B e f : Qabs (a' - a) <= e -> Qabs (b' - b) <= f -> Qabs a' <= A -> Qabs b <= B ->
  Qabs (a' * b' - a * b) <= e * B + A * f.
Proof.
  intros H1 H2 HA HB. assert (Id : a' * b' - a * b == (a' - a) * b + a' * (b' - b)) by ring.
  pose proof (mul_abs _ _ _ _ H1 HB) as P1. pose proof (mul_abs _ _ _ _ HA H2) as P2.
  apply le_abs in P1, P2. apply abs_le; lra.
Qed.

Definition nearu (k x y : Q) : Prop := Qabs (x - y) <= k * u.
Definition unitp (p : Q * Q) : Prop := 0 <= fst p <= 1 /\ 0 <= snd p <= 1.
Definition near_pt (w p : Q * Q) : Prop := unitp w /\ unitp p /\ nearu 4 (fst w) (fst p) /\ nearu 4 (snd w) (snd p).

Lemma prod_near x y z t x' y' z' t' :
  0 <= x <= 1 -> 0 <= y <= 1 -> 0 <= z <= 1 -> 0 <= t <= 1 -> 0 <= x' <= 1 -> 0 <= y' <= 1 -> 0 <= z' <= 1 -> 0 <= t' <= 1 ->
  nearu 4 x x' -> nearu 4 y y' -> nearu 4 z z' -> nearu 4 t t' ->
  Qabs ((x - y) * (z - t) - (x' - y') * (z' - t')) <= 16 * u /\ Qabs ((x - y) * (z - t)) <= 1 /\ Qabs ((x' - y') * (z' - t')) <= 1.
Proof.
  intros X Y Z T X' Y' Z' T' H1 H2 H3 H4. unfold nearu in *. apply le_abs in H1, H2, H3, H4. split.
  - apply Qle_trans with ((8 * u) * 1 + 1 * (8 * u)); [|lra]. apply pert2; apply abs_le; lra.
  - split; (apply Qle_trans with (1 * 1); [apply mul_abs; apply abs_le; lra|lra]).
Qed.

Definition orv (a b c : Q * Q) := (fst a - fst c) * (snd b - snd c) - (fst b - fst c) * (snd a - snd c).
Definition dtv (a b c : Q * Q) := (fst a - fst c) * (fst b - fst c) + (snd a - snd c) * (snd b - snd c).

Lemma orv_near a b c a' b' c' : near_pt a a' -> near_pt b b' -> near_pt c c' ->
  Qabs (orv a b c - orv a' b' c') <= 32 * u /\ Qabs (orv a b c) <= 2 /\ Qabs (orv a' b' c') <= 2 /\
  Qabs (dtv a b c - dtv a' b' c') <= 32 * u /\ Qabs (dtv a b c) <= 2 /\ Qabs (dtv a' b' c') <= 2.
Proof.
  intros ((A1 & A2) & (A1' & A2') & A3 & A4) ((B1 & B2) & (B1' & B2') & B3 & B4) ((C1 & C2) & (C1' & C2') & C3 & C4).
  destruct (prod_near _ _ _ _ _ _ _ _ A1 C1 B2 C2 A1' C1' B2' C2' A3 C3 B4 C4) as (P1 & P2 & P3).
  destruct (prod_near _ _ _ _ _ _ _ _ B1 C1 A2 C2 B1' C1' A2' C2' B3 C3 A4 C4) as (P4 & P5 & P6).
  destruct (prod_near _ _ _ _ _ _ _ _ A1 C1 B1 C1 A1' C1' B1' C1' A3 C3 B3 C3) as (R1 & R2 & R3).
  destruct (prod_near _ _ _ _ _ _ _ _ A2 C2 B2 C2 A2' C2' B2' C2' A4 C4 B4 C4) as (R4 & R5 & R6).
  unfold orv, dtv. apply le_abs in P1, P2, P3, P4, P5, P6, R1, R2, R3, R4, R5, R6.
  repeat split; apply abs_le; lra.
Qed.

Lemma ori_orv a b c : ori a b c == orv a b c.
Proof. unfold ori, orv. ring. Qed.

Lemma inc_orv a b c d : inc a b c d == - (orv a b c * dtv b a d + orv b a d * dtv a b c).
Proof. unfold inc, incircle, orv, dtv. ring. Qed.

Lemma inc_near a b c d a' b' c' d' : near_pt a a' -> near_pt b b' -> near_pt c c' -> near_pt d d' ->
  Qabs (inc a b c d - inc a' b' c' d') <= 256 * u.
Proof.
  intros A B C D.
  destruct (orv_near _ _ _ _ _ _ A B C) as (S1 & S2 & S3 & T1 & T2 & T3).
  destruct (orv_near _ _ _ _ _ _ B A D) as (S4 & S5 & S6 & T4 & T5 & T6).
  pose proof (pert2 _ _ _ _ _ _ _ _ S1 T4 S2 T6) as P1. pose proof (pert2 _ _ _ _ _ _ _ _ S4 T1 S5 T3) as P2.
  rewrite !inc_orv. apply le_abs in P1, P2. apply abs_le; lra.
Qed.

Lemma sim_margin x y m k : Qabs (x - y) <= k -> m <= Qabs y -> k < m -> sim x y /\ m - k <= Qabs x.
Proof.
  intros H1 H2 H3. apply le_abs in H1. destruct (Qlt_le_dec 0 y) as [P|P].
  - rewrite Qabs_pos in H2 by lra. split; [split; split; intros; lra|]. rewrite Qabs_pos; lra.
  - rewrite Qabs_neg in H2 by lra. split; [split; split; intros; lra|]. rewrite Qabs_neg; lra.
Qed.

Lemma sim_zz x y : x == 0 -> y == 0 -> sim x y.
Proof. intros. split; split; intros; lra. Qed.

Lemma plain_ori a b c : plainq a b c -> ori a b c == 0.
Proof.
  unfold ori. intros [(X & Y)|[(X & Y)|[(X & Y)|[(X & Y)|(X & Y)]]]].
  - rewrite X, Y. ring.
  - rewrite X, Y. ring.
  - rewrite X, Y. ring.
  - setoid_replace (fst b - fst a) with 0 by lra. setoid_replace (fst c - fst a) with 0 by lra. ring.
  - setoid_replace (snd b - snd a) with 0 by lra. setoid_replace (snd c - snd a) with 0 by lra. ring.
Qed.

Lemma corner_inc a b c d : cornerq a b c -> cornerq a b d -> inc a b c d == 0.
Proof.
  intros C D. rewrite inc_orv.
  assert (Z1 : dtv a b c == 0) by (unfold dtv; destruct C as [(X & Y)|(X & Y)]; rewrite X, Y; ring).
  assert (Z2 : dtv b a d == 0) by (unfold dtv; destruct D as [(X & Y)|(X & Y)]; rewrite X, Y; ring).
  rewrite Z1, Z2. ring.
Qed.

Lemma nth_err_nth {A} (l : list A) n x d : nth_error l n = Some x -> nth n l d = x.
Proof. apply nth_error_nth. Qed.

Lemma det_ori (ux uy : N -> Q) a b c : is_finite a = true -> is_finite b = true -> is_finite c = true ->
  det (hpos ux uy a) (hpos ux uy b) (hpos ux uy c) == ori (ux a, uy a) (ux b, uy b) (ux c, uy c).
Proof. intros A B C. unfold hpos. rewrite A, B, C. unfold det, ori; simpl. ring. Qed.

Theorem separate_exact vs l mx my s : Forall2 (repv rep) vs l -> bounded half l -> spread_of l mx my s -> separate l s ->
  (lenN vs <= INF0)%N -> (3 <= idmax)%N ->
  Exact (normalized vs) (qpx l) (qpy l) /\ ExactC (normalized vs) (qpx l) (qpy l) /\
  (forall v, In v (normalized vs) -> in_unit rep v).
Proof.
  intros H Hb Hs Sp Hl Hi. pose proof (nr_u _ _ _ Nr) as (U0 & U1).
  destruct (normalized_near vs l mx my s H Hb Hs) as (s1 & ws & Rw & Nw).
  destruct Hs as (S0 & He & _).
  assert (Ln : lenN (normalized vs) = lenN vs).
  { unfold normalized. pose proof (normalize_length vs) as K.
    destruct (normalize_vertices_coordinates vs) as (((nvs, c1), c2), c3). specialize (K _ _ _ _ eq_refl). unfold lenN. cbn [fst]. now rewrite K. }
  rewrite <- Ln in Hl.
  set (nvs := normalized vs) in *. clearbody nvs.
  pose (X v := ((qpx l v - mx) / s)). pose (Y v := ((qpy l v - my) / s)).
  assert (Wv : forall v p, nthN nvs v = Some p ->
    exists z w, In z l /\ nth (N.to_nat v) l (0, 0) = z /\ nth (N.to_nat v) ws (0, 0) = w /\ repv rep p w /\
      scaled mx s1 (fst z) (fst w) /\ scaled my s1 (snd z) (snd w) /\ near_pt w (X v, Y v)).
  { intros v p Hv. destruct (F2_nth _ _ _ _ _ Rw Hv) as (w & Hw & Rp).
    assert (Hz : exists z, nth_error l (N.to_nat v) = Some z /\ scaled mx s1 (fst z) (fst w) /\ scaled my s1 (snd z) (snd w) /\
      0 <= fst w <= 1 /\ 0 <= snd w <= 1 /\ Qabs (fst w - (fst z - mx) / s) <= 4 * u /\ Qabs (snd w - (snd z - my) / s) <= 4 * u).
    { clear - Nw Hw. revert Hw. generalize (N.to_nat v). induction Nw as [|z w' l ws Hzw F IH]; intros [|n] K; try discriminate.
      - injection K as <-. exists z. split; [reflexivity|auto].
      - exact (IH _ K). }
    destruct Hz as (z & Hz & C1 & C2 & C3 & C4 & C5 & C6). exists z, w.
    pose proof (nth_error_In _ _ Hz) as Iz. pose proof (nth_err_nth _ _ _ (0, 0) Hz) as Ez.
    split; auto. split; auto. split; [now apply nth_err_nth|]. split; auto. split; auto. split; auto.
    unfold X, Y, qpx, qpy. rewrite Ez. destruct (He _ Iz) as (E1 & E2).
    split; [split; auto|]. split; [|split; auto].
    split; cbn [fst snd]; (split; [apply Qle_shift_div_l|apply Qle_shift_div_r]); auto; lra. }
  pose (ux v := qpx ws v). pose (uy v := qpy ws v).
  assert (Fin : forall v, here' nvs v -> is_finite v = true).
  { intros v (p & Hv). apply nthN_lt in Hv. unfold is_finite. apply N.ltb_lt. lia. }
  (* the facts about one vertex *)
  assert (V1 : forall v, here' nvs v -> near_pt (ux v, uy v) (X v, Y v) /\ In (qpx l v, qpy l v) l /\
     scaled mx s1 (qpx l v) (ux v) /\ scaled my s1 (qpy l v) (uy v)).
  { intros v (p & Hv). destruct (Wv _ _ Hv) as (z & w & Iz & Ez & Ew & _ & C1 & C2 & C3).
    unfold ux, uy, qpx, qpy. rewrite Ez, Ew. rewrite <- !surjective_pairing. auto. }
  assert (SX : forall v, qpx l v == s * X v + mx) by (intros v; unfold X; field; lra).
  assert (SY : forall v, qpy l v == s * Y v + my) by (intros v; unfold Y; field; lra).
  assert (Gap : forall p q m, p == s * q -> m * s <= Qabs p -> m <= Qabs q).
  { intros p q m Ep Hm. rewrite Ep, Qabs_Qmult, (Qabs_pos s) in Hm by lra.
    apply (Qmult_lt_0_le_reg_r _ _ s); auto. lra. }
  (* coordinates *)
  assert (Gx : forall a b, here' nvs a -> here' nvs b -> (X a == X b /\ ux a == ux b) \/
     (sim (ux a - ux b) (X a - X b) /\ 64 * u <= Qabs (ux a - ux b) /\ 80 * u <= Qabs (X a - X b))).
  { intros a b Ha Hb'. destruct (V1 _ Ha) as ((_ & _ & N1 & _) & I1 & C1 & _). destruct (V1 _ Hb') as ((_ & _ & N2 & _) & I2 & C2 & _).
    destruct (sp_x _ _ Sp _ _ I1 I2) as [K|K]; cbn [fst snd] in *.
    - left. split; [unfold X; now rewrite K|]. exact (scaled_same _ _ _ _ _ _ C1 C2 K).
    - right. apply (Gap _ (X a - X b)) in K; [|rewrite (SX a), (SX b); ring]. unfold nearu in N1, N2. apply le_abs in N1, N2.
      destruct (sim_margin (ux a - ux b) (X a - X b) (80 * u) (8 * u)) as (M1 & M2); auto; [apply abs_le; lra|lra|].
      split; auto. split; auto. lra. }
  assert (Gy : forall a b, here' nvs a -> here' nvs b -> (Y a == Y b /\ uy a == uy b) \/
     (sim (uy a - uy b) (Y a - Y b) /\ 64 * u <= Qabs (uy a - uy b) /\ 80 * u <= Qabs (Y a - Y b))).
  { intros a b Ha Hb'. destruct (V1 _ Ha) as ((_ & _ & _ & N1) & I1 & _ & C1). destruct (V1 _ Hb') as ((_ & _ & _ & N2) & I2 & _ & C2).
    destruct (sp_y _ _ Sp _ _ I1 I2) as [K|K]; cbn [fst snd] in *.
    - left. split; [unfold Y; now rewrite K|]. exact (scaled_same _ _ _ _ _ _ C1 C2 K).
    - right. apply (Gap _ (Y a - Y b)) in K; [|rewrite (SY a), (SY b); ring]. unfold nearu in N1, N2. apply le_abs in N1, N2.
      destruct (sim_margin (uy a - uy b) (Y a - Y b) (80 * u) (8 * u)) as (M1 & M2); auto; [apply abs_le; lra|lra|].
      split; auto. split; auto. lra. }
  assert (Ex : forall a b, here' nvs a -> here' nvs b -> qpx l a == qpx l b -> ux a == ux b).
  { intros a b Ha Hb' K. destruct (V1 _ Ha) as (_ & _ & C1 & _). destruct (V1 _ Hb') as (_ & _ & C2 & _). exact (scaled_same _ _ _ _ _ _ C1 C2 K). }
  assert (Ey : forall a b, here' nvs a -> here' nvs b -> qpy l a == qpy l b -> uy a == uy b).
  { intros a b Ha Hb' K. destruct (V1 _ Ha) as (_ & _ & _ & C1). destruct (V1 _ Hb') as (_ & _ & _ & C2). exact (scaled_same _ _ _ _ _ _ C1 C2 K). }
  assert (ss : 0 < s * s) by nra. assert (ssss : 0 < s * s * (s * s)) by nra.
  (* orientations *)
  assert (Go : forall a b c, here' nvs a -> here' nvs b -> here' nvs c ->
    (plain ux uy a b c /\ ori (X a, Y a) (X b, Y b) (X c, Y c) == 0) \/
    (sim (ori (ux a, uy a) (ux b, uy b) (ux c, uy c)) (ori (X a, Y a) (X b, Y b) (X c, Y c)) /\
     11 * u <= Qabs (ori (ux a, uy a) (ux b, uy b) (ux c, uy c)))).
  { intros a b c Ha Hb' Hc. destruct (V1 _ Ha) as (N1 & I1 & _). destruct (V1 _ Hb') as (N2 & I2 & _). destruct (V1 _ Hc) as (N3 & I3 & _).
    assert (Sc : ori (qpx l a, qpy l a) (qpx l b, qpy l b) (qpx l c, qpy l c) == (s * s) * ori (X a, Y a) (X b, Y b) (X c, Y c)).
    { unfold ori; cbn [fst snd]. rewrite (SX a), (SX b), (SX c), (SY a), (SY b), (SY c). ring. }
    destruct (sp_o _ _ Sp _ _ _ I1 I2 I3) as [K|K].
    - left. split.
      + unfold plainq, sameq in K; cbn [fst snd] in K. unfold plain, samepos.
        destruct K as [(P1 & P2)|[(P1 & P2)|[(P1 & P2)|[(P1 & P2)|(P1 & P2)]]]]; auto 10.
      + apply plain_ori in K. rewrite Sc in K. apply Qmult_integral in K. destruct K; [lra|auto].
    - right. rewrite Sc, Qabs_Qmult, (Qabs_pos (s * s)) in K by lra.
      assert (K' : 48 * u <= Qabs (ori (X a, Y a) (X b, Y b) (X c, Y c))) by (apply (Qmult_lt_0_le_reg_r _ _ (s * s)); auto; lra).
      destruct (orv_near _ _ _ _ _ _ N1 N2 N3) as (D1 & _). rewrite <- !ori_orv in D1.
      destruct (sim_margin _ _ _ _ D1 K' ltac:(lra)) as (M1 & M2). split; auto. lra. }
  assert (So : forall a b c, here' nvs a -> here' nvs b -> here' nvs c ->
    sim (ori (ux a, uy a) (ux b, uy b) (ux c, uy c)) (ori (X a, Y a) (X b, Y b) (X c, Y c))).
  { intros a b c Ha Hb' Hc. destruct (Go a b c Ha Hb' Hc) as [(K & Z)|(K & _)]; auto. apply sim_zz; auto. apply plain_ori.
    unfold plainq, sameq; cbn [fst snd]. exact K. }
  (* circles *)
  assert (Gc : forall a b c d, here' nvs a -> here' nvs b -> here' nvs c -> here' nvs d ->
    ori (X d, Y d) (X a, Y a) (X b, Y b) < 0 -> ori (X b, Y b) (X a, Y a) (X c, Y c) < 0 ->
    (box_corner ux uy a b c /\ box_corner ux uy a b d /\ inc (X a, Y a) (X b, Y b) (X c, Y c) (X d, Y d) == 0 /\
       inc (ux a, uy a) (ux b, uy b) (ux c, uy c) (ux d, uy d) == 0) \/
    (sim (inc (ux a, uy a) (ux b, uy b) (ux c, uy c) (ux d, uy d)) (inc (X a, Y a) (X b, Y b) (X c, Y c) (X d, Y d)) /\
     96 * u <= Qabs (inc (ux a, uy a) (ux b, uy b) (ux c, uy c) (ux d, uy d)))).
  { intros a b c d Ha Hb' Hc Hd L1 L2.
    destruct (V1 _ Ha) as (N1 & I1 & _). destruct (V1 _ Hb') as (N2 & I2 & _). destruct (V1 _ Hc) as (N3 & I3 & _). destruct (V1 _ Hd) as (N4 & I4 & _).
    assert (Sc : forall p q r, ori (qpx l p, qpy l p) (qpx l q, qpy l q) (qpx l r, qpy l r) == (s * s) * ori (X p, Y p) (X q, Y q) (X r, Y r)).
    { intros p q r. unfold ori; cbn [fst snd]. rewrite (SX p), (SX q), (SX r), (SY p), (SY q), (SY r). ring. }
    assert (Si : inc (qpx l a, qpy l a) (qpx l b, qpy l b) (qpx l c, qpy l c) (qpx l d, qpy l d) ==
      (s * s * (s * s)) * inc (X a, Y a) (X b, Y b) (X c, Y c) (X d, Y d)).
    { unfold inc, incircle; cbn [fst snd]. rewrite (SX a), (SX b), (SX c), (SX d), (SY a), (SY b), (SY c), (SY d). ring. }
    destruct (sp_c _ _ Sp _ _ _ _ I1 I2 I3 I4) as [(K1 & K2)|K].
    { rewrite Sc. nra. } { rewrite Sc. nra. }
    - left. assert (B1 : box_corner ux uy a b c).
      { unfold box_corner. unfold cornerq in K1; cbn [fst snd] in K1. destruct K1 as [(P1 & P2)|(P1 & P2)]; auto 10. }
      assert (B2 : box_corner ux uy a b d).
      { unfold box_corner. unfold cornerq in K2; cbn [fst snd] in K2. destruct K2 as [(P1 & P2)|(P1 & P2)]; auto 10. }
      split; auto. split; auto. split.
      + pose proof (corner_inc _ _ _ _ K1 K2) as Z. rewrite Si in Z. apply Qmult_integral in Z. destruct Z; [lra|auto].
      + apply corner_inc; auto.
    - right. rewrite Si, Qabs_Qmult, (Qabs_pos (s * s * (s * s))) in K by lra.
      assert (K' : 384 * u <= Qabs (inc (X a, Y a) (X b, Y b) (X c, Y c) (X d, Y d))) by (apply (Qmult_lt_0_le_reg_r _ _ (s * s * (s * s))); auto; lra).
      destruct (sim_margin _ _ _ _ (inc_near _ _ _ _ _ _ _ _ N1 N2 N3 N4) K' ltac:(lra)) as (M1 & M2). split; auto. lra. }
  (* the normalised vertices *)
  assert (Hvs : forall v p, nthN nvs v = Some p -> ucoord rep (vx p) (ux v) /\ ucoord rep (vy p) (uy v)).
  { intros v p Hv. destruct (Wv _ _ Hv) as (z & w & _ & _ & Ew & (R1 & R2) & _ & _ & ((C1 & C2) & _)).
    unfold ux, uy, qpx, qpy. rewrite Ew. split; split; auto. }
  assert (Wx : forall a b, here nvs a -> here nvs b -> ux a == ux b \/ 64 * u <= Qabs (ux a - ux b)).
  { intros a b Ha Hb'. destruct (Gx a b Ha Hb') as [(_ & K)|(_ & K & _)]; auto. }
  assert (Wy : forall a b, here nvs a -> here nvs b -> uy a == uy b \/ 64 * u <= Qabs (uy a - uy b)).
  { intros a b Ha Hb'. destruct (Gy a b Ha Hb') as [(_ & K)|(_ & K & _)]; auto. }
  assert (Wo : forall a b c, here nvs a -> here nvs b -> here nvs c ->
    plain ux uy a b c \/ 11 * u <= Qabs (det (hpos ux uy a) (hpos ux uy b) (hpos ux uy c))).
  { intros a b c Ha Hb' Hc. rewrite (det_ori ux uy a b c (Fin _ Ha) (Fin _ Hb') (Fin _ Hc)).
    destruct (Go a b c Ha Hb' Hc) as [(K & _)|(_ & K)]; auto. }
  assert (Wc : forall a b c d, here nvs a -> here nvs b -> here nvs c -> here nvs d ->
    det (hpos ux uy d) (hpos ux uy a) (hpos ux uy b) < 0 -> det (hpos ux uy b) (hpos ux uy a) (hpos ux uy c) < 0 ->
    (box_corner ux uy a b c /\ box_corner ux uy a b d) \/
    96 * u <= Qabs (incircle (ux a) (uy a) (ux b) (uy b) (ux c) (uy c) (ux d) (uy d))).
  { intros a b c d Ha Hb' Hc Hd L1 L2.
    rewrite (det_ori ux uy d a b (Fin _ Hd) (Fin _ Ha) (Fin _ Hb')) in L1. rewrite (det_ori ux uy b a c (Fin _ Hb') (Fin _ Ha) (Fin _ Hc)) in L2.
    apply (So d a b Hd Ha Hb') in L1. apply (So b a c Hb' Ha Hc) in L2.
    destruct (Gc a b c d Ha Hb' Hc Hd L1 L2) as [(K1 & K2 & _)|(_ & K)]; auto. }
  pose proof (sep_exact rep repr pb ep R rnd u Nr Eu nvs ux uy Hl Hi Hvs Wx Wy Wo Wc) as Xe.
  assert (Xc : ExactC nvs ux uy) by (eapply (sep_exactC rep repr pb ep R rnd u Nr); eauto).
  assert (T1 : forall a b, here' nvs a -> here' nvs b -> sim (ux a - ux b) (X a - X b)).
  { intros a b Ha Hb'. destruct (Gx a b Ha Hb') as [(K1 & K2)|(K & _)]; auto. apply sim_zz; lra. }
  assert (T2 : forall a b, here' nvs a -> here' nvs b -> sim (uy a - uy b) (Y a - Y b)).
  { intros a b Ha Hb'. destruct (Gy a b Ha Hb') as [(K1 & K2)|(K & _)]; auto. apply sim_zz; lra. }
  assert (T3 : forall a b c, here' nvs a -> here' nvs b -> here' nvs c ->
    sim (det (hpos ux uy a) (hpos ux uy b) (hpos ux uy c)) (det (hpos X Y a) (hpos X Y b) (hpos X Y c))).
  { intros a b c Ha Hb' Hc. eapply sim_eq; [exact (So a b c Ha Hb' Hc)| |]; symmetry; apply det_ori; auto. }
  assert (T4 : forall a b c d, here' nvs a -> here' nvs b -> here' nvs c -> here' nvs d ->
    det (hpos X Y d) (hpos X Y a) (hpos X Y b) < 0 -> det (hpos X Y b) (hpos X Y a) (hpos X Y c) < 0 ->
    sim (incircle (ux a) (uy a) (ux b) (uy b) (ux c) (uy c) (ux d) (uy d))
        (incircle (X a) (Y a) (X b) (Y b) (X c) (Y c) (X d) (Y d))).
  { intros a b c d Ha Hb' Hc Hd L1 L2.
    rewrite (det_ori X Y d a b (Fin _ Hd) (Fin _ Ha) (Fin _ Hb')) in L1. rewrite (det_ori X Y b a c (Fin _ Hb') (Fin _ Ha) (Fin _ Hc)) in L2.
    destruct (Gc a b c d Ha Hb' Hc Hd L1 L2) as [(_ & _ & K1 & K2)|(K & _)]; [|exact K]. apply sim_zz; auto. }
  pose proof (Exact_sim nvs ux uy X Y Hl T1 T2 T3 T4 Xe) as Xe'.
  pose proof (ExactC_sim nvs ux uy X Y Hl T1 T2 T3 Xc) as Xc'.
  split; [|split].
  - eapply (Exact_scale _ _ _ _ _ s); [exact S0|exact Hl| | |exact Xe']; intros; [apply SX|apply SY].
  - eapply (ExactC_scale _ _ _ _ _ s); [exact S0|exact Hl| | |exact Xc']; intros; [apply SX|apply SY].
  - intros v Hv. apply In_nthN in Hv. destruct Hv as (i & Hi'). destruct (Hvs _ _ Hi') as ((A1 & A2) & (B1 & B2)).
    exists (ux i), (uy i). auto.
Qed.
End Norm.
