(** * Witness: a concrete binary64 input that meets the hypotheses of the theorems. *)

From Coq Require Lqa.
From Coq Require Import ZArith NArith List Bool QArith SpecFloat Lia.
From Verif Require Import Base Arith Types Utils Infinite Triangulation Constrained F64 Spec QEnv GridSpec GridCdt Refuted.
Import ListNotations.

(** Seven vertices, the last one a duplicate of the fifth. *)
Definition lw : list (Z * Z) := [(0,0); (4,0); (0,4); (4,4); (1,2); (3,1); (1,2)]%Z.

Lemma f2_map {A B} (P : B -> A -> Prop) (f : A -> B) l : (forall a, In a l -> P (f a) a) -> Forall2 P (map f l) l.
Proof.
  induction l as [|a l IH]; intros H; simpl; constructor; [apply H; now left|]. apply IH. intros b Hb. apply H. now right.
Qed.

Lemma lw_fits : fits 4 lw 0 0.
Proof.
  unfold fits, lw. repeat split.
  1-4: simpl in H; intuition (subst; simpl; lia).
  - exists (0, 0)%Z. simpl. auto.
  - exists (0, 0)%Z. simpl. auto.
  - exists (4, 0)%Z. simpl. auto.
Qed.

Lemma lw_grid64 : on_grid (E := env64) (pts lw) lw (2 ^ 40).
Proof.
  exists (sf_is 53 1024), (2 ^ 2)%Z, 0%Z, 0%Z.
  split; [apply (Grid_f64 u32_max 2); lia|]. split; [|split; [exact lw_fits|]].
  - apply f2_map. intros p Hp. simpl in Hp.
    decompose [or] Hp; try contradiction; subst; vm_compute; repeat split; reflexivity.
  - intros p Hp. simpl in Hp. decompose [or] Hp; try contradiction; subst; vm_compute; split; discriminate.
Qed.

Lemma lw_grid32 : on_grid (E := env32) (map (fun p => (sf_of_Z 24 128 (fst p), sf_of_Z 24 128 (snd p))) lw) lw (2 ^ 13).
Proof.
  exists (sf_is 24 128), (2 ^ 2)%Z, 0%Z, 0%Z.
  split; [apply (Grid_f32 u32_max 2); lia|]. split; [|split; [exact lw_fits|]].
  - apply f2_map. intros p Hp. simpl in Hp.
    decompose [or] Hp; try contradiction; subst; vm_compute; repeat split; reflexivity.
  - intros p Hp. simpl in Hp. decompose [or] Hp; try contradiction; subst; vm_compute; split; discriminate.
Qed.

Lemma lw_gridQ : on_grid (E := envQ u32_max) (map ptQ lw) lw (2 ^ 40).
Proof.
  exists Qeq, 4%Z, 0%Z, 0%Z. split; [apply (Grid_exact u32_max 4); lia|]. split; [|split; [exact lw_fits|]].
  - apply f2_map. intros p Hp. split; reflexivity.
  - intros p Hp. simpl in Hp. decompose [or] Hp; try contradiction; subst; vm_compute; split; discriminate.
Qed.


Definition out_w : list (N * N * N) :=
  [(1, 0, 5); (5, 0, 6); (3, 5, 6); (3, 1, 5); (2, 3, 6); (2, 6, 0)]%N.
Definition order_w : list N := [6; 4; 0; 5; 1; 3; 2]%N.

Lemma lw_dt : dt64 100 2 lw = Ret out_w.
Proof. vm_compute. reflexivity. Qed.

Lemma lw_ids : (2 * lenN (pts lw) + 2 <= @idmax env64)%N.
Proof. vm_compute. discriminate. Qed.

(** Constraints for the same vertices. *)
Definition cs_w : list edge := [Edge 0 3; Edge 4 2; Edge 3 5; Edge 2 3]%N.
Definition cdt_w : list (N * N * N) :=
  [(3, 5, 0); (1, 0, 5); (3, 1, 5); (2, 3, 6); (3, 0, 6); (2, 6, 0)]%N.

Lemma lw_cdt : constrained_triangulation_from_2d_vertices (E := env64) 1000 2 (pts lw) cs_w = Ret cdt_w.
Proof. vm_compute. reflexivity. Qed.

(** Deciding [segments_cross]. *)
Definition crossb (a b c d : point) : bool :=
  negb (Qle_bool 0 (orient a b c * orient a b d)) && negb (Qle_bool 0 (orient c d a * orient c d b)).

Lemma crossb_iff a b c d : crossb a b c d = true <-> segments_cross a b c d.
Proof.
  unfold crossb, segments_cross. rewrite andb_true_iff, !negb_true_iff.
  assert (K : forall x, Qle_bool 0 x = false <-> (x < 0)%Q).
  { intros x. split; intros H.
    - apply Qnot_le_lt. intros Q. apply Qle_bool_iff in Q. congruence.
    - destruct (Qle_bool 0 x) eqn:Q; auto. apply Qle_bool_iff in Q. apply Qle_not_lt in Q. contradiction. }
  rewrite !K. reflexivity.
Qed.

Lemma noncrossing_b at_ cs :
  forallb (fun r => forallb (fun r' => negb (crossb (at_ (efrom r)) (at_ (eto r)) (at_ (efrom r')) (at_ (eto r')))) cs) cs = true ->
  noncrossing at_ cs.
Proof.
  intros H r r' Hr Hr' Q. rewrite forallb_forall in H. specialize (H r Hr). rewrite forallb_forall in H.
  specialize (H r' Hr'). apply negb_true_iff in H. apply crossb_iff in Q. congruence.
Qed.

Lemma lw_cdt_facts : on_grid (E := env64) (pts lw) lw (2 ^ 40) /\ noncrossing (zpoint lw) cs_w /\
  In (Edge 0 3) cs_w /\ ~ same_place (zpoint lw 0) (zpoint lw 3) /\
  constrained_triangulation_from_2d_vertices (E := env64) 1000 2 (pts lw) cs_w = Ret cdt_w /\ cdt_w <> [] /\
  segments_cross (zpoint lw 0) (zpoint lw 3) (zpoint lw 5) (zpoint lw 6) /\ In (5, 0, 6)%N out_w.
Proof.
  split; [exact lw_grid64|]. split; [apply noncrossing_b; vm_compute; reflexivity|].
  split; [now left|]. split; [intros (Q & _); vm_compute in Q; discriminate|].
  split; [exact lw_cdt|]. split; [discriminate|]. split; [apply crossb_iff; vm_compute; reflexivity|].
  right. now left.
Qed.

Lemma lw_cdt_survives :
  segments_cross (zpoint lw 4) (zpoint lw 5) (zpoint lw 0) (zpoint lw 3) /\
  ~ segments_cross (zpoint lw 2) (zpoint lw 4) (zpoint lw 0) (zpoint lw 3) /\
  exists out, cdt64 1000 2 lw ([(4, 5)] ++ (0, 3) :: [(2, 4)])%N = Ret out /\ out <> [].
Proof.
  split; [apply crossb_iff; vm_compute; reflexivity|].
  split; [intros Q; apply crossb_iff in Q; vm_compute in Q; discriminate|].
  eexists. split; [vm_compute; reflexivity|discriminate].
Qed.

Lemma lw_cdt_crossing : exists out, cdt64 1000 2 lw [(0, 3); (4, 5); (6, 5); (3, 0); (2, 5)]%N = Ret out /\ out <> [].
Proof. eexists. split; [vm_compute; reflexivity|discriminate]. Qed.

Lemma lw_cdt_repeat :
  segments_cross (zpoint lw 4) (zpoint lw 5) (zpoint lw 0) (zpoint lw 3) /\
  cdt64 1000 2 lw [(0, 3); (4, 5); (0, 3); (2, 2)]%N = cdt64 1000 2 lw [(0, 3); (4, 5)]%N /\
  exists out, cdt64 1000 2 lw [(0, 3); (4, 5)]%N = Ret out /\ out <> [] /\
    forall a b c, In (a, b, c) out -> ~ (In 0%N [a; b; c] /\ In 3%N [a; b; c]).
Proof.
  split; [apply crossb_iff; vm_compute; reflexivity|]. split; [vm_compute; reflexivity|].
  eexists. split; [vm_compute; reflexivity|]. split; [discriminate|].
  intros a b c H (H0 & H3). simpl in H, H0, H3.
  repeat match goal with H : _ \/ _ |- _ => destruct H end; try contradiction; congruence.
Qed.

(** The constraints of [cs_w] are clear and covered by the triangles of [out_w]. *)
Lemma lw_dt1000 : dt64 1000 2 lw = Ret out_w.
Proof. vm_compute. reflexivity. Qed.

Lemma lw_points :
  zpoint lw 0 = (0, 0)%Q /\ zpoint lw 1 = (4, 0)%Q /\ zpoint lw 2 = (0, 4)%Q /\ zpoint lw 3 = (4, 4)%Q /\
  zpoint lw 4 = (1, 2)%Q /\ zpoint lw 5 = (3, 1)%Q /\ zpoint lw 6 = (1, 2)%Q.
Proof. repeat split. Qed.

Lemma lw_clear c : In c cs_w -> clear_between (zpoint lw) 7 (efrom c) (eto c).
Proof.
  destruct lw_points as (P0 & P1 & P2 & P3 & P4 & P5 & P6).
  intros Hc v s Hv Hs.
  assert (Hv' : (v = 0 \/ v = 1 \/ v = 2 \/ v = 3 \/ v = 4 \/ v = 5 \/ v = 6)%N) by lia.
  simpl in Hc.
  decompose [or] Hc; try contradiction; subst c; cbn [efrom eto];
    decompose [or] Hv'; try contradiction; subst v;
    rewrite ?P0, ?P1, ?P2, ?P3, ?P4, ?P5, ?P6; intros (Q1 & Q2); unfold along in Q1, Q2; cbn [fst snd] in Q1, Q2; Lqa.lra.
Qed.

Lemma lw_covered c : In c cs_w -> covers_between (zpoint lw) out_w (efrom c) (eto c).
Proof.
  destruct lw_points as (P0 & P1 & P2 & P3 & P4 & P5 & P6).
  assert (K : forall a b c f g s, (orient (zpoint lw a) (zpoint lw b) (along (zpoint lw f) (zpoint lw g) s) <= 0)%Q ->
    (orient (zpoint lw b) (zpoint lw c) (along (zpoint lw f) (zpoint lw g) s) <= 0)%Q ->
    (orient (zpoint lw c) (zpoint lw a) (along (zpoint lw f) (zpoint lw g) s) <= 0)%Q ->
    tri_inside_or_on (zpoint lw) (a, b, c) (along (zpoint lw f) (zpoint lw g) s)) by (repeat split; auto).
  intros Hc s Hs. simpl in Hc. decompose [or] Hc; try contradiction; subst c; cbn [efrom eto].
  - destruct (Qlt_le_dec (12 * s) 5).
    + exists (5, 0, 6)%N. split; [simpl; auto 10|]. apply K; rewrite ?P0, ?P3, ?P5, ?P6; unfold orient, along; cbn [fst snd]; Lqa.lra.
    + exists (3, 5, 6)%N. split; [simpl; auto 10|]. apply K; rewrite ?P0, ?P3, ?P5, ?P6; unfold orient, along; cbn [fst snd]; Lqa.lra.
  - exists (2, 6, 0)%N. split; [simpl; auto 10|].
    apply K; rewrite ?P0, ?P2, ?P4, ?P6; unfold orient, along; cbn [fst snd]; Lqa.lra.
  - exists (3, 1, 5)%N. split; [simpl; auto 10|].
    apply K; rewrite ?P1, ?P3, ?P5; unfold orient, along; cbn [fst snd]; Lqa.lra.
  - exists (2, 3, 6)%N. split; [simpl; auto 10|].
    apply K; rewrite ?P2, ?P3, ?P6; unfold orient, along; cbn [fst snd]; Lqa.lra.
Qed.

(** A vertex in the middle of the constraint, and a constraint which leaves the triangles. *)
Definition l_mid : list (Z * Z) := [(0,0); (4,4); (2,2); (4,0); (0,4)]%Z.
Definition l_out : list (Z * Z) := [(221,220); (0,0); (21,20); (208,207); (256,256)]%Z.

Lemma l_mid_grid : on_grid (E := env64) (pts l_mid) l_mid (2 ^ 40).
Proof.
  exists (sf_is 53 1024), (2 ^ 2)%Z, 0%Z, 0%Z.
  split; [apply (Grid_f64 u32_max 2); lia|]. split; [|split].
  - apply f2_map. intros p Hp. simpl in Hp.
    decompose [or] Hp; try contradiction; subst; vm_compute; repeat split; reflexivity.
  - unfold fits, l_mid. repeat split.
    1-4: simpl in H; intuition (subst; simpl; lia).
    + exists (0, 0)%Z. simpl. auto.
    + exists (0, 0)%Z. simpl. auto.
    + exists (4, 4)%Z. simpl. auto 10.
  - intros p Hp. simpl in Hp. decompose [or] Hp; try contradiction; subst; vm_compute; split; discriminate.
Qed.

Lemma l_out_grid : on_grid (E := env64) (pts l_out) l_out (2 ^ 40).
Proof.
  exists (sf_is 53 1024), (2 ^ 8)%Z, 0%Z, 0%Z.
  split; [apply (Grid_f64 u32_max 8); lia|]. split; [|split].
  - apply f2_map. intros p Hp. simpl in Hp.
    decompose [or] Hp; try contradiction; subst; vm_compute; repeat split; reflexivity.
  - unfold fits, l_out. repeat split.
    1-4: simpl in H; intuition (subst; simpl; lia).
    + exists (0, 0)%Z. simpl. auto.
    + exists (0, 0)%Z. simpl. auto.
    + exists (256, 256)%Z. simpl. auto 10.
  - intros p Hp. simpl in Hp. decompose [or] Hp; try contradiction; subst; vm_compute; split; discriminate.
Qed.

Lemma l_mid_between : ~ clear_between (zpoint l_mid) 5 0 1.
Proof. intros H. apply (H 2%N (1 # 2)%Q); [reflexivity|split; reflexivity|split; reflexivity]. Qed.

Lemma l_mid_fails : cdt64 1000 1 l_mid [(0, 1)]%N = Fail ErrSearchCycle.
Proof. vm_compute. reflexivity. Qed.

Lemma l_out_panics : cdt64 1000 3 l_out [(0, 1)]%N = Panic.
Proof. vm_compute. reflexivity. Qed.
