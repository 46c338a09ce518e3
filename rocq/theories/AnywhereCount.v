(** * AnywhereCount: the number of triangles of simple loops without a box, by comparison with an exact
    run in the bounding box of the vertices. *)

From Coq Require Import ZArith NArith List Bool QArith Qminmax Lqa Lia Permutation.
From Verif Require Import Base BaseFacts Arith Types QEnv Spec SpecBox SpecDomain SpecTally SpecFilling Triangulation Constrained GridSpec InputSpec GridApi GridCdt LawsonGrid DomainGrid
  SpecWinding Winding Inside InsideGrid TallyGrid GermCount Tube Polygon Jordan Ring Rays FillingGrid RaysGrid Outside Anywhere.
Import ListNotations.
Local Open Scope N_scope.

(** ** The bounding box *)
Lemma bounds (h : Z * Z -> Z) l x : In x l -> exists lo hi, (forall p, In p l -> (lo <= h p <= hi)%Z) /\
  (exists p, In p l /\ h p = lo) /\ (exists p, In p l /\ h p = hi).
Proof.
  revert x. induction l as [|q l IH]; intros x I; [destruct I|]. destruct l as [|q' l].
  - exists (h q), (h q). split; [intros p [<- |[]]; lia|]. split; exists q; split; auto; now left.
  - destruct (IH q' ltac:(now left)) as (lo & hi & K & (p1 & J1 & H1) & (p2 & J2 & H2)). exists (Z.min lo (h q)), (Z.max hi (h q)). split; [|split].
    + intros p [<- |J]; [lia|]. specialize (K p J). lia.
    + destruct (Z.le_ge_cases lo (h q)); [exists p1; split; [now right|lia]|exists q; split; [now left|lia]].
    + destruct (Z.le_ge_cases hi (h q)); [exists q; split; [now left|lia]|exists p2; split; [now right|lia]].
Qed.

Lemma zpoint_app l l' v : v < lenN l -> zpoint (l ++ l') v = zpoint l v.
Proof. intros H. unfold zpoint. rewrite app_nth1; [reflexivity|]. unfold lenN in H. lia. Qed.

Lemma zpoint_in l v : v < lenN l -> exists p, In p l /\ zpoint l v = (inject_Z (fst p), inject_Z (snd p)).
Proof. intros H. exists (nth (N.to_nat v) l (0, 0)%Z). split; [apply nth_In; unfold lenN in H; lia|reflexivity]. Qed.

Section Boxed.
Context {E : Env}.
Variables (vs : list vertex) (l : list (Z * Z)) (bound : Z).
Hypothesis G : on_grid vs l bound.
Variables (x0 x1 y0 y1 : Z).
Hypothesis Bd : forall p, In p l -> (x0 <= fst p <= x1)%Z /\ (y0 <= snd p <= y1)%Z.
Hypothesis A1 : exists p, In p l /\ fst p = x0.
Hypothesis A2 : exists p, In p l /\ fst p = x1.
Hypothesis A3 : exists p, In p l /\ snd p = y0.
Hypothesis A4 : exists p, In p l /\ snd p = y1.

Definition corners : list (Z * Z) := [(x0, y0); (x1, y0); (x1, y1); (x0, y1)].
Definition exact_env : Env := envQ (2 * (lenN vs + 4) + 2).
Definition exact_vs : list (@vertex exact_env) := map (fun p : Z * Z => (inject_Z (fst p), inject_Z (snd p))) (l ++ corners).

Lemma grid_length : length vs = length l.
Proof. destruct G as (val & side & mx & my & _ & F & _). exact (forall2_len _ _ _ F). Qed.

Lemma exact_length : lenN exact_vs = lenN vs + 4.
Proof. unfold exact_vs, lenN. rewrite map_length, app_length, grid_length. cbn [corners length]. lia. Qed.

Lemma exact_ids : 2 * lenN exact_vs + 2 <= @idmax exact_env.
Proof. rewrite exact_length. cbn. lia. Qed.

Lemma exact_grid : exact_input (E := exact_env) exact_vs (zpoint (l ++ corners)) (2 ^ 40).
Proof.
  apply Input_grid. destruct G as (val & side & mx & my & Gr & F & (Fi & F1 & F2 & F3) & Ab).
  assert (S : (1 <= side <= 2 ^ 26)%Z /\ (bound <= 2 ^ 40)%Z).
  { destruct Gr as [m s H|m k H|m k H]; [lia| |].
    - pose proof (Z.pow_le_mono_r 2 k 12 ltac:(lia) ltac:(lia)). pose proof (Z.pow_pos_nonneg 2 k ltac:(lia) ltac:(lia)). change (2 ^ 12)%Z with 4096%Z in *. lia.
    - pose proof (Z.pow_le_mono_r 2 k 5 ltac:(lia) ltac:(lia)). pose proof (Z.pow_pos_nonneg 2 k ltac:(lia) ltac:(lia)). change (2 ^ 5)%Z with 32%Z in *. lia. }
  assert (C : forall p, In p (l ++ corners) -> exists p1 p2, In p1 l /\ In p2 l /\ fst p = fst p1 /\ snd p = snd p2).
  { intros p I. apply in_app_or in I. destruct I as [I|I]; [exists p, p; auto|].
    destruct A1 as (q1 & J1 & H1), A2 as (q2 & J2 & H2), A3 as (q3 & J3 & H3), A4 as (q4 & J4 & H4).
    unfold corners in I. cbn [In] in I. destruct I as [<- |[<- |[<- |[<- |[]]]]]; cbn [fst snd]; eauto 10. }
  exists Qeq, side, mx, my. split; [apply Grid_exact; lia|]. split; [|split].
  - unfold exact_vs. clear. induction (l ++ corners) as [|p r IH]; constructor; [split; reflexivity|exact IH].
  - split; [|split; [|split]].
    + intros p I. destruct (C p I) as (p1 & p2 & I1 & I2 & -> & ->). split; [apply (Fi p1 I1)|apply (Fi p2 I2)].
    + destruct F1 as (p & I & H). exists p. split; [apply in_or_app; now left|exact H].
    + destruct F2 as (p & I & H). exists p. split; [apply in_or_app; now left|exact H].
    + destruct F3 as (p & I & H). exists p. split; [apply in_or_app; now left|exact H].
  - intros p I. destruct (C p I) as (p1 & p2 & I1 & I2 & -> & ->). destruct (Ab p1 I1), (Ab p2 I2). lia.
Qed.

Hypothesis Wide : (x0 < x1)%Z.
Hypothesis High : (y0 < y1)%Z.

Local Notation at_ := (zpoint l).
Local Notation at1 := (zpoint (l ++ corners)).
Local Notation n := (lenN vs).

Lemma old_point v : v < n -> at1 v = at_ v.
Proof. intros H. apply zpoint_app. unfold lenN in *. rewrite <- grid_length. exact H. Qed.

Lemma corner_point k p : nth_error corners k = Some p -> at1 (n + N.of_nat k) = (inject_Z (fst p), inject_Z (snd p)).
Proof.
  intros H. unfold zpoint. rewrite app_nth2; [|unfold lenN; rewrite grid_length; lia].
  replace (N.to_nat (n + N.of_nat k) - length l)%nat with k by (unfold lenN; rewrite grid_length; lia).
  rewrite (nth_error_nth corners k (0, 0)%Z H). reflexivity.
Qed.

Lemma corner_points : at1 n = (inject_Z x0, inject_Z y0) /\ at1 (n + 1) = (inject_Z x1, inject_Z y0) /\
  at1 (n + 2) = (inject_Z x1, inject_Z y1) /\ at1 (n + 3) = (inject_Z x0, inject_Z y1).
Proof.
  pose proof (corner_point 0 (x0, y0) eq_refl) as H0. pose proof (corner_point 1 (x1, y0) eq_refl) as H1.
  pose proof (corner_point 2 (x1, y1) eq_refl) as H2. pose proof (corner_point 3 (x0, y1) eq_refl) as H3.
  cbn in H0. rewrite N.add_0_r in H0. cbn in H1, H2, H3. auto.
Qed.

Lemma box_ok : box_corners (at1 n) (at1 (n + 1)) (at1 (n + 2)) (at1 (n + 3)).
Proof.
  destruct corner_points as (-> & -> & -> & ->). unfold box_corners. cbn [fst snd]. rewrite <- !Zlt_Qlt. repeat split; try reflexivity; assumption.
Qed.

Lemma in_ok v : v < n -> in_box (at1 n) (at1 (n + 2)) (at1 v).
Proof.
  intros H. rewrite (old_point v H). destruct corner_points as (-> & _ & -> & _).
  destruct (zpoint_in l v) as (p & I & ->); [unfold lenN in *; rewrite <- grid_length; exact H|].
  destruct (Bd p I) as ((? & ?) & ? & ?). unfold in_box. cbn [fst snd]. rewrite <- !Zle_Qle. lia.
Qed.

Lemma corner_id v : v < n + 4 -> v < n \/ v = n \/ v = n + 1 \/ v = n + 2 \/ v = n + 3.
Proof. lia. Qed.

Variable cs : list edge.
Hypothesis Hcs : forall e, In e cs -> efrom e < n /\ eto e < n /\ clear_between at_ n (efrom e) (eto e).

Lemma same_ends e : In e cs -> at1 (efrom e) = at_ (efrom e) /\ at1 (eto e) = at_ (eto e).
Proof. intros I. destruct (Hcs e I) as (A & B & _). split; now apply old_point. Qed.

(** A point between two others is no corner of their bounding box, unless it is at one of them. *)
Lemma between_corner (f g : point) (xa xb ya yb : Q) (r : point) s : (in_box (xa, ya) (xb, yb) f -> in_box (xa, ya) (xb, yb) g ->
  0 < s < 1 -> (fst r == xa \/ fst r == xb) -> (snd r == ya \/ snd r == yb) -> same_place r (along f g s) -> same_place f g)%Q.
Proof.
  intros ((F1 & F2) & F3 & F4) ((G1 & G2) & G3 & G4) S X Y (R1 & R2). unfold along in *. cbn [fst snd] in *.
  split; [destruct X as [X|X]|destruct Y as [Y|Y]]; nra.
Qed.

Lemma exact_clear (SL : simple_loops at_ cs) e : In e cs -> efrom e < lenN exact_vs /\ eto e < lenN exact_vs /\ clear_between at1 (lenN exact_vs) (efrom e) (eto e).
Proof.
  intros I. destruct (Hcs e I) as (A & B & C). rewrite exact_length. split; [lia|]. split; [lia|].
  intros v s V S K. destruct (same_ends e I) as (Q1 & Q2). rewrite Q1, Q2 in K.
  pose proof (in_ok _ A) as Ba. pose proof (in_ok _ B) as Bb. rewrite Q1 in Ba. rewrite Q2 in Bb.
  destruct corner_points as (P0 & P1 & P2 & P3). rewrite P0, P2 in Ba, Bb.
  destruct (corner_id v V) as [H|H].
  - rewrite (old_point v H) in K. exact (C v s H S K).
  - apply (sl_proper _ _ SL e I).
    apply (between_corner _ _ _ _ _ _ (at1 v) s Ba Bb S); [| |exact K];
      destruct H as [-> |[-> |[-> | ->]]]; rewrite ?P0, ?P1, ?P2, ?P3; cbn [fst snd]; first [left; reflexivity|right; reflexivity].
Qed.

(** The corners of the box are outside of the loops, or on them. *)
Lemma corner_out (SL : simple_loops at_ cs) v : v = n \/ v = n + 1 \/ v = n + 2 \/ v = n + 3 -> ~ on_constraint at_ cs (at1 v) -> winding at_ cs (at1 v) = 0%Z.
Proof.
  intros H Nc. pose proof (simple_closed at_ cs SL) as CL. destruct (clear_around at_ cs (at1 v) Nc) as (r & R & K).
  assert (Out : exists q, square (at1 v) r q /\ ~ in_box (at1 n) (at1 (n + 2)) q).
  { destruct corner_points as (P0 & P1 & P2 & P3). rewrite P0, P2. unfold in_box, square.
    destruct H as [-> |[-> |[-> | ->]]]; rewrite ?P0, ?P1, ?P2, ?P3.
    1: exists (inject_Z x0 - r, inject_Z y0)%Q. 2: exists (inject_Z x1 + r, inject_Z y0)%Q.
    3: exists (inject_Z x1 + r, inject_Z y1)%Q. 4: exists (inject_Z x0 - r, inject_Z y1)%Q.
    all: cbn [fst snd]; (split; [repeat split; lra|]); intros ((? & ?) & _); lra. }
  destruct Out as (q & Sq & Nb).
  rewrite (winding_step at_ cs CL (at1 v) q); [|intros s S; apply K; now apply square_along].
  apply (winding_outside at_ cs CL (at1 n) (at1 (n + 2))); [|exact Nb].
  intros e I. destruct (Hcs e I) as (A & B & _). rewrite <- (old_point _ A), <- (old_point _ B). split; now apply in_ok.
Qed.

Lemma exact_inner (SL : simple_loops at_ cs) inner : inside_vertices at_ n cs inner -> inside_vertices at1 (lenN exact_vs) cs inner.
Proof.
  intros [I1 I2 I3]. pose proof (same_on at1 at_ cs same_ends) as So. pose proof (same_winding at1 at_ cs same_ends) as Sw. constructor.
  - intros u U. destruct (I1 u U) as (L & Nc & W). rewrite exact_length. split; [lia|]. rewrite (old_point u L), So, Sw. auto.
  - clear - I1 I2 G. revert I1. induction I2 as [|u r F I IH]; intros I1; constructor.
    + rewrite Forall_forall in *. intros v V. rewrite !old_point; [exact (F v V)| |]; apply I1; [now right|now left].
    + apply IH. intros v V. apply I1. now right.
  - intros v V Nc W. rewrite exact_length in V. destruct (corner_id v V) as [H|H].
    + rewrite (old_point v H), So in Nc. rewrite (old_point v H), Sw in W. destruct (I3 v H Nc W) as (u & U & P). exists u. split; [exact U|].
      rewrite !old_point; [exact P|exact H|exact (proj1 (I1 u U))].
    + exfalso. rewrite So in Nc. rewrite Sw in W. rewrite (corner_out SL v H Nc) in W. lia.
Qed.
End Boxed.

(** ** The same number of triangles *)
Lemma off_inside {E : Env} (vs : list vertex) at_ bound fuel bins cs out :
  exact_input vs at_ bound -> 2 * lenN vs + 2 <= idmax -> (4 * length vs + 12 <= fuel)%nat ->
  (forall e, In e cs -> efrom e < lenN vs /\ eto e < lenN vs) -> noncrossing at_ cs ->
  constrained_triangulation_from_2d_vertices fuel bins vs cs = Ret out ->
  forall t p, In t out -> tri_inside at_ t p -> ~ on_constraint at_ cs p.
Proof.
  intros G Hid Hf Hcs Hx R t p T I (e & s & Ie & P & (S1 & S2) & Q).
  assert (H3 : 3 <= lenN vs).
  { destruct (N.lt_ge_cases (lenN vs) 3) as [H|H]; [exfalso|exact H]. revert R. unfold constrained_triangulation_from_2d_vertices.
    rewrite (proj2 (N.ltb_lt _ _) H). intros K. injection K as <-. destruct T. }
  assert (Rs : respects at_ (lenN vs) out (efrom e) (eto e)).
  { pair_input G. exact (proj1 (grid_cdt_edges vs px py bound G Hid fuel bins Hf cs e out H3 Hx Ie P R)). }
  destruct (returned_valid vs at_ bound fuel bins out G Hid Hf (or_intror (ex_intro _ cs R))) as (VM & Rg).
  assert (Ends : forall v, v < lenN vs -> ~ same_place p (at_ v)).
  { intros v V K. destruct (vm_empty _ _ _ VM t v T V (inside_on _ _ _ (tri_inside_place _ _ _ _ K I))) as (k & Kc & Kp).
    apply (inside_no_corner at_ t p k (vm_clockwise _ _ _ VM t T) I Kc). apply (place_trans _ _ _ Kp). now apply place_sym. }
  destruct (Hcs e Ie) as (L1 & L2).
  destruct (Qeq_dec s 0) as [Z|NZ].
  { apply (Ends _ L1). apply (place_trans _ _ _ Q). unfold same_place, along. cbn [fst snd]. rewrite Z. split; ring. }
  destruct (Qeq_dec s 1) as [O|NO].
  { apply (Ends _ L2). apply (place_trans _ _ _ Q). unfold same_place, along. cbn [fst snd]. rewrite O. split; ring. }
  assert (S : (0 < s < 1)%Q).
  { split; apply Qnot_le_lt; intros K; [apply NZ|apply NO]; lra. }
  destruct (rs_edge _ _ _ _ _ Rs t s T S (inside_on _ _ _ (tri_inside_place _ _ _ _ Q I))) as (u & v & U & V & N & PU & PV).
  apply (inside_no_edge at_ t p u v s I U V N). apply (place_trans _ _ _ Q). apply along_same; now apply place_sym.
Qed.

Section Same.
Variables (at1 at2 : N -> point) (cs : list edge).
Hypothesis Eq : forall e, In e cs -> at1 (efrom e) = at2 (efrom e) /\ at1 (eto e) = at2 (eto e).

Lemma same_loops : simple_loops at2 cs -> simple_loops at1 cs.
Proof.
  intros [A1 A2 A3 A4 A5 A6 A7]. constructor.
  - exact A1.
  - intros e I. unfold proper. destruct (Eq e I) as (-> & ->). exact (A2 e I).
  - intros e I. destruct (A3 e I) as (f & J & K). exists f. split; [exact J|]. destruct (Eq e I) as (_ & ->). destruct (Eq f J) as (-> & _). exact K.
  - intros f J. destruct (A4 f J) as (e & I & K). exists e. split; [exact I|]. destruct (Eq e I) as (_ & ->). destruct (Eq f J) as (-> & _). exact K.
  - intros e f I J. destruct (Eq e I) as (-> & _). destruct (Eq f J) as (-> & _). exact (A5 e f I J).
  - intros e f I J. destruct (Eq e I) as (_ & ->). destruct (Eq f J) as (_ & ->). exact (A6 e f I J).
  - intros e f s r I J. destruct (Eq e I) as (-> & ->). destruct (Eq f J) as (-> & ->). exact (A7 e f s r I J).
Qed.

Lemma same_near e z : In e cs -> near at2 cs e (1#2) z -> near at1 cs e (1#2) z.
Proof.
  intros I (r & R & K). destruct (Eq e I) as (Q1 & Q2). exists r. split; [exact R|]. intros q. rewrite Q1, Q2, (same_winding at1 at2 cs Eq). exact (K q).
Qed.
End Same.

Section Count.
Context {E : Env}.
Variables (vs : list vertex) (l : list (Z * Z)) (bound : Z).
Hypothesis G : on_grid vs l bound.
Hypothesis Hid : 2 * lenN vs + 2 <= idmax.
Variables (fuel : nat) (bins : N) (dt : list (N * N * N)) (cs : list edge).
Hypothesis Hf : ((2 * length vs + 4) * (2 * length vs + 4) <= fuel)%nat.
Hypothesis B1 : 1 <= bins.
Hypothesis B2 : (Z.of_N bins <= bound)%Z.
Hypothesis Hd : triangulation_from_2d_vertices fuel bins vs = Ret dt.
Local Notation at_ := (zpoint l).
Hypothesis Hcs : forall e, In e cs -> efrom e < lenN vs /\ eto e < lenN vs /\
  clear_between at_ (lenN vs) (efrom e) (eto e) /\ covers_between at_ dt (efrom e) (eto e).
Hypothesis SL : simple_loops at_ cs.
Hypothesis Ne : forall e, In e cs -> near at_ cs e (1#2) 1.
Hypothesis NE : cs <> [].

Lemma Hcs' e : In e cs -> efrom e < lenN vs /\ eto e < lenN vs /\ clear_between at_ (lenN vs) (efrom e) (eto e).
Proof. intros I. destruct (Hcs e I) as (A & B & C & _). auto. Qed.

Lemma bounding_box : exists x0 x1 y0 y1, (forall p, In p l -> (x0 <= fst p <= x1)%Z /\ (y0 <= snd p <= y1)%Z) /\
  (exists p, In p l /\ fst p = x0) /\ (exists p, In p l /\ fst p = x1) /\ (exists p, In p l /\ snd p = y0) /\ (exists p, In p l /\ snd p = y1) /\
  (x0 < x1)%Z /\ (y0 < y1)%Z.
Proof.
  assert (I0 : exists e0, In e0 cs) by (destruct cs as [|e0 r]; [destruct (NE eq_refl)|exists e0; now left]). destruct I0 as (e0 & I0).
  pose proof (grid_length vs l bound G) as Len.
  assert (X0 : exists x, In x l).
  { destruct (Hcs' e0 I0) as (A & _). destruct (zpoint_in l (efrom e0)) as (p & I & _); [unfold lenN in *; rewrite <- Len; exact A|exists p; exact I]. }
  destruct X0 as (x & Ix).
  destruct (bounds fst l x Ix) as (x0 & x1 & Bx & H1 & H2). destruct (bounds snd l x Ix) as (y0 & y1 & By & H3 & H4).
  exists x0, x1, y0, y1. split; [intros p I; split; [exact (Bx p I)|exact (By p I)]|]. split; [exact H1|]. split; [exact H2|]. split; [exact H3|]. split; [exact H4|].
  destruct (some_turn at_ cs SL e0 I0) as (p & Nc & W). pose proof (simple_closed at_ cs SL) as CL.
  assert (Bs : forall e, In e cs -> in_box (inject_Z x0, inject_Z y0) (inject_Z x1, inject_Z y1) (at_ (efrom e)) /\ in_box (inject_Z x0, inject_Z y0) (inject_Z x1, inject_Z y1) (at_ (eto e))).
  { intros e I. destruct (Hcs' e I) as (A & B & _). unfold lenN in A, B. rewrite Len in A, B.
    assert (K : forall v, v < lenN l -> in_box (inject_Z x0, inject_Z y0) (inject_Z x1, inject_Z y1) (at_ v)).
    { intros v V. destruct (zpoint_in l v V) as (q & J & ->). unfold in_box. cbn [fst snd]. rewrite <- !Zle_Qle. exact (conj (Bx q J) (By q J)). }
    split; apply K; assumption. }
  destruct (clear_around at_ cs p Nc) as (r & R & K).
  assert (In_ : forall q, square p r q -> in_box (inject_Z x0, inject_Z y0) (inject_Z x1, inject_Z y1) q).
  { intros q Sq. assert (Wq : winding at_ cs q <> 0%Z).
    { rewrite <- (winding_step at_ cs CL p q); [exact W|]. intros s S. apply K. now apply square_along. }
    assert (Dec : in_box (inject_Z x0, inject_Z y0) (inject_Z x1, inject_Z y1) q \/ ~ in_box (inject_Z x0, inject_Z y0) (inject_Z x1, inject_Z y1) q).
    { unfold in_box. cbn [fst snd]. destruct (Qlt_le_dec (fst q) (inject_Z x0)); [right; lra|]. destruct (Qlt_le_dec (inject_Z x1) (fst q)); [right; lra|].
      destruct (Qlt_le_dec (snd q) (inject_Z y0)); [right; lra|]. destruct (Qlt_le_dec (inject_Z y1) (snd q)); [right; lra|]. left. repeat split; assumption. }
    destruct Dec as [D|D]; [exact D|]. destruct (Wq (winding_outside at_ cs CL _ _ Bs q D)). }
  destruct (In_ (fst p - r, snd p - r)%Q) as ((U1 & _) & U2 & _); [unfold square; cbn [fst snd]; repeat split; lra|].
  destruct (In_ (fst p + r, snd p + r)%Q) as ((_ & V1) & _ & V2); [unfold square; cbn [fst snd]; repeat split; lra|].
  cbn [fst snd] in *. rewrite !Zlt_Qlt. split; lra.
Qed.

(** The exact run in the bounding box has as many triangles. *)
Lemma twin x0 x1 y0 y1 :
  (forall p, In p l -> (x0 <= fst p <= x1)%Z /\ (y0 <= snd p <= y1)%Z) ->
  (exists p, In p l /\ fst p = x0) -> (exists p, In p l /\ fst p = x1) -> (exists p, In p l /\ snd p = y0) -> (exists p, In p l /\ snd p = y1) ->
  (x0 < x1)%Z -> (y0 < y1)%Z -> forall fuel2 out2,
  ((2 * length (exact_vs vs l x0 x1 y0 y1) + 4) * (2 * length (exact_vs vs l x0 x1 y0 y1) + 4) <= fuel2)%nat ->
  constrained_triangulation_from_2d_vertices (E := exact_env vs) fuel2 1 (exact_vs vs l x0 x1 y0 y1) cs = Ret out2 ->
  exists out, constrained_triangulation_from_2d_vertices fuel bins vs cs = Ret out /\ lenN out = lenN out2.
Proof.
  intros Bd A1 A2 A3 A4 Wide High fuel2 out2 F2 R2.
  destruct (anywhere_inside vs at_ bound (Input_grid _ _ _ G) Hid fuel bins dt cs Hf B1 B2 Hd Hcs SL Ne) as (out & R & C).
  exists out. split; [exact R|]. set (at1 := zpoint (l ++ corners x0 x1 y0 y1)). set (vs2 := exact_vs vs l x0 x1 y0 y1) in *.
  pose proof (same_ends vs l bound G x0 x1 y0 y1 cs Hcs') as Se. fold at1 in Se.
  pose proof (exact_clear vs l bound G x0 x1 y0 y1 Bd cs Hcs' SL) as Cl2. fold at1 vs2 in Cl2.
  pose proof (same_loops at1 at_ cs Se SL) as SL2.
  assert (Ne2 : forall e, In e cs -> near at1 cs e (1#2) 1) by (intros e I; apply (same_near at1 at_ cs Se); auto).
  pose proof (exact_grid vs l bound G x0 x1 y0 y1 A1 A2 A3 A4) as G2. fold at1 vs2 in G2.
  pose proof (exact_ids vs l bound G x0 x1 y0 y1) as Id2. fold vs2 in Id2.
  pose proof (exact_length vs l bound G x0 x1 y0 y1) as Ln2. fold vs2 in Ln2.
  pose proof (box_ok vs l bound G x0 x1 y0 y1 Wide High) as Bx2. pose proof (in_ok vs l bound G x0 x1 y0 y1 Bd) as In2. fold at1 in Bx2, In2.
  destruct (box_call vs2 at1 (2 ^ 40) fuel2 (lenN vs) (lenN vs) (lenN vs + 1) (lenN vs + 2) (lenN vs + 3) cs G2 Id2 F2 ltac:(lia) Ln2
    (Permutation_refl _) Bx2 In2) as (o2 & Ro & VM & Rg & Off & C2).
  { intros e I. destruct (Cl2 e I) as (X & Y & Z). auto. }
  { exact (meet_noncrossing at1 cs SL2). }
  assert (Qo : o2 = out2) by congruence. subst o2. clear Ro.
  assert (C2' : forall p, ~ on_constraint at_ cs p -> (covered at1 out2 p <-> winding at_ cs p = 1%Z)).
  { intros p Nc. rewrite <- (same_on at1 at_ cs Se) in Nc. rewrite <- (same_winding at1 at_ cs Se).
    rewrite (C2 p Nc), (winding_domain at1 cs (simple_closed at1 cs SL2) (near_inside at1 cs SL2 Ne2) p Nc).
    pose proof (near_values at1 cs SL2 p Ne2 Nc) as Vals. split; [intros (_ & W); lia|]. intros W. split; [|lia].
    assert (Dec : in_box (at1 (lenN vs)) (at1 (lenN vs + 2)) p \/ ~ in_box (at1 (lenN vs)) (at1 (lenN vs + 2)) p).
    { unfold in_box. destruct (Qlt_le_dec (fst p) (fst (at1 (lenN vs)))); [right; lra|]. destruct (Qlt_le_dec (fst (at1 (lenN vs + 2))) (fst p)); [right; lra|].
      destruct (Qlt_le_dec (snd p) (snd (at1 (lenN vs)))); [right; lra|]. destruct (Qlt_le_dec (snd (at1 (lenN vs + 2))) (snd p)); [right; lra|]. left. repeat split; assumption. }
    destruct Dec as [D|D]; [exact D|]. rewrite (winding_outside at1 cs (simple_closed at1 cs SL2) (at1 (lenN vs)) (at1 (lenN vs + 2))) in W; [discriminate W| |exact D].
    intros e I. destruct (Hcs' e I) as (A & B & _). split; now apply In2. }
  assert (Sf : (4 * length vs + 12 <= fuel)%nat) by (clear - Hf; nia).
  pose proof (returned_valid vs at_ bound fuel bins out (Input_grid _ _ _ G) Hid Sf (or_intror (ex_intro _ cs R))) as (VM1 & Rg1).
  assert (Of1 : forall t p, In t out -> tri_inside at_ t p -> ~ on_constraint at_ cs p).
  { apply (off_inside vs at_ bound fuel bins cs out (Input_grid _ _ _ G) Hid Sf); [|exact (meet_noncrossing at_ cs SL)|exact R].
    intros e I. destruct (Hcs' e I) as (A & B & _). auto. }
  assert (Ceq : forall p, covered at1 out2 p <-> covered at_ out p).
  { intros p. split.
    - apply covered_closure; [exact (vm_clockwise _ _ _ VM)|]. intros t q T I. pose proof (Off t q T I) as Nc. rewrite (same_on at1 at_ cs Se) in Nc.
      apply (proj2 (C q Nc)). apply (C2' q Nc). exists t. split; [exact T|]. now apply inside_on.
    - apply covered_closure; [exact (vm_clockwise _ _ _ VM1)|]. intros t q T I. pose proof (Of1 t q T I) as Nc.
      apply (C2' q Nc). apply (proj2 (C q Nc)). exists t. split; [exact T|]. now apply inside_on. }
  pose proof (grid_tally vs at_ bound fuel bins out at1 (lenN vs2) out2 [] [] (Input_grid _ _ _ G) Hid Sf
    (or_intror (ex_intro _ cs R)) VM Rg Ceq) as K. cbn [app] in K. change (lenN (@nil N)) with 0 in K. rewrite K; [lia| | | | |].
  - intros v V Cv. rewrite Ln2 in V. destruct (corner_id vs v V) as [H|H].
    + exists v. split; [exact H|]. unfold at1. rewrite (old_point vs l bound G x0 x1 y0 y1 v H). apply place_refl.
    + destruct (on_constraint_dec at1 cs (at1 v)) as [On|Nc].
      * destruct (on_corner (E := exact_env vs) vs2 at1 cs v) as (e & I & P); [intros e I; exact (proj2 (proj2 (Cl2 e I)))|exact SL2|rewrite Ln2; exact V|exact On|].
        destruct (Hcs' e I) as (A & _). exists (efrom e). split; [exact A|]. destruct (Se e I) as (<- & _). exact P.
      * exfalso. rewrite (same_on at1 at_ cs Se) in Nc. apply (C2' _ Nc) in Cv.
        pose proof (corner_out vs l bound G x0 x1 y0 y1 Bd cs Hcs' SL v H Nc) as K0. fold at1 in K0. rewrite K0 in Cv. discriminate Cv.
  - intros w W _. left. exists w. split; [rewrite Ln2; lia|]. unfold at1. rewrite (old_point vs l bound G x0 x1 y0 y1 w W). apply place_refl.
  - split; [intros u []|constructor].
  - intros u [].
  - intros u [].
Qed.
End Count.

(** As [values_near], without a box. *)
Lemma values_near_any at_ cs : simple_loops at_ cs -> (forall p, ~ on_constraint at_ cs p -> winding at_ cs p = 0%Z \/ winding at_ cs p = 1%Z) ->
  forall e, In e cs -> near at_ cs e (1#2) 1.
Proof.
  intros SL Vals e I. destruct (near_exists at_ cs SL e (1#2) I half) as (z & r1 & R1 & K1).
  destruct (clear_but at_ cs SL e (1#2) I half) as (r & R & C).
  pose proof (Q.min_glb_lt _ _ _ R R1) as Mi. pose proof (Q.le_min_l r r1) as M1. pose proof (Q.le_min_r r r1) as M2. set (r0 := Qmin r r1) in *. clearbody r0.
  assert (Sq : forall x y k q, (x <= y)%Q -> square k x q -> square k y q) by (intros x y k q L; now apply square_less).
  destruct (jump at_ cs SL e (1#2) r0 I half Mi) as (p & q & P & Q & Op & Oq & J).
  { intros q Q. apply C. exact (Sq _ _ _ _ M1 Q). }
  assert (Off : forall x, square (along (at_ (efrom e)) (at_ (eto e)) (1#2)) r0 x -> ~ (orient (at_ (efrom e)) (at_ (eto e)) x == 0)%Q -> ~ on_constraint at_ cs x).
  { intros x X O (f & u & If & _ & U & K). destruct (edge_dec f e) as [->|Ne].
    - apply O. rewrite (Polygon.orient_place _ _ _ _ K). apply orient_on.
    - exact (C x (Sq _ _ _ _ M1 X) f u If Ne U K). }
  assert (Z1 : z = 1%Z).
  { pose proof (Vals p (Off p P ltac:(lra))) as Vp. pose proof (Vals q (Off q Q ltac:(lra))) as Vq. pose proof (proj1 (K1 p (Sq _ _ _ _ M2 P)) Op) as W. lia. }
  subst z. exists r1. split; [exact R1|exact K1].
Qed.

Section Numbers.
Context {E : Env}.
Variables (vs : list vertex) (l : list (Z * Z)) (bound : Z).
Hypothesis G : on_grid vs l bound.
Hypothesis Hid : 2 * lenN vs + 2 <= idmax.
Variables (fuel : nat) (bins : N) (dt : list (N * N * N)) (cs : list edge).
Hypothesis Hf : ((2 * length vs + 4) * (2 * length vs + 4) <= fuel)%nat.
Hypothesis B1 : 1 <= bins.
Hypothesis B2 : (Z.of_N bins <= bound)%Z.
Hypothesis Hd : triangulation_from_2d_vertices fuel bins vs = Ret dt.
Local Notation at_ := (zpoint l).
Hypothesis Hcs : forall e, In e cs -> efrom e < lenN vs /\ eto e < lenN vs /\
  clear_between at_ (lenN vs) (efrom e) (eto e) /\ covers_between at_ dt (efrom e) (eto e).

Lemma anywhere_loops_count outer holes inner :
  Permutation cs (concat (outer ++ holes)) -> cs <> [] -> simple_loops at_ cs ->
  (forall L, In L (outer ++ holes) -> simple_polygon at_ L) ->
  (forall L, In L outer -> exists p, ~ on_constraint at_ L p /\ (0 < winding at_ L p)%Z) ->
  (forall L, In L holes -> exists p, ~ on_constraint at_ L p /\ (winding at_ L p < 0)%Z) ->
  (forall p, ~ on_constraint at_ cs p -> winding at_ cs p = 0%Z \/ winding at_ cs p = 1%Z) ->
  inside_vertices at_ (lenN vs) cs inner ->
  exists out, constrained_triangulation_from_2d_vertices fuel bins vs cs = Ret out /\
    lenN out + 2 * lenN outer = lenN cs + 2 * lenN holes + 2 * lenN inner.
Proof.
  intros Ec NE SL Pol Out Hol Vals Inn. pose proof (values_near_any at_ cs SL Vals) as Ne.
  pose proof (fun e I => let '(conj x (conj y (conj z _))) := Hcs e I in conj x (conj y z)) as Hcs'.
  destruct (bounding_box vs l bound G dt cs Hcs SL Ne NE) as (x0 & x1 & y0 & y1 & Bd & A1 & A2 & A3 & A4 & Wide & High).
  set (vs2 := exact_vs vs l x0 x1 y0 y1). set (fuel2 := ((2 * length vs2 + 4) * (2 * length vs2 + 4))%nat).
  pose proof (same_ends vs l bound G x0 x1 y0 y1 cs Hcs') as Se.
  assert (Sub : forall L, In L (outer ++ holes) -> forall e, In e L -> In e cs).
  { intros L I e J. apply (Permutation_in _ (Permutation_sym Ec)). apply in_concat. exists L. auto. }
  assert (SeL : forall L, In L (outer ++ holes) -> forall e, In e L -> zpoint (l ++ corners x0 x1 y0 y1) (efrom e) = at_ (efrom e) /\
    zpoint (l ++ corners x0 x1 y0 y1) (eto e) = at_ (eto e)) by (intros L I e J; apply Se; exact (Sub L I e J)).
  destruct (box_loops_count (E := exact_env vs) vs2 (zpoint (l ++ corners x0 x1 y0 y1)) (2 ^ 40) fuel2 (lenN vs) (lenN vs) (lenN vs + 1) (lenN vs + 2) (lenN vs + 3)
    (exact_grid vs l bound G x0 x1 y0 y1 A1 A2 A3 A4) (exact_ids vs l bound G x0 x1 y0 y1) (Nat.le_refl _) ltac:(lia) (exact_length vs l bound G x0 x1 y0 y1)
    (Permutation_refl _) (box_ok vs l bound G x0 x1 y0 y1 Wide High) (in_ok vs l bound G x0 x1 y0 y1 Bd) cs outer holes inner Ec) as (out2 & R2 & K2).
  - exact (exact_clear vs l bound G x0 x1 y0 y1 Bd cs Hcs' SL).
  - exact (same_loops _ _ cs Se SL).
  - intros L I. exact (same_polygon _ _ L (SeL L I) (Pol L I)).
  - intros L I. pose proof (SeL L (in_or_app _ _ _ (or_introl I))) as Q. destruct (Out L I) as (p & N1 & N2). exists p.
    rewrite (same_on _ _ L Q), (same_winding _ _ L Q). auto.
  - intros L I. pose proof (SeL L (in_or_app _ _ _ (or_intror I))) as Q. destruct (Hol L I) as (p & N1 & N2). exists p.
    rewrite (same_on _ _ L Q), (same_winding _ _ L Q). auto.
  - intros p. rewrite (same_on _ _ cs Se), (same_winding _ _ cs Se). exact (Vals p).
  - exact (exact_inner vs l bound G x0 x1 y0 y1 Bd cs Hcs' SL inner Inn).
  - destruct (twin vs l bound G Hid fuel bins dt cs Hf B1 B2 Hd Hcs SL Ne x0 x1 y0 y1 Bd A1 A2 A3 A4 Wide High fuel2 out2 (Nat.le_refl _) R2) as (out & R & L).
    exists out. split; [exact R|]. rewrite L. exact K2.
Qed.

Lemma anywhere_count inner :
  simple_polygon at_ cs -> (exists p, ~ on_constraint at_ cs p /\ (0 < winding at_ cs p)%Z) -> inside_vertices at_ (lenN vs) cs inner ->
  exists out, constrained_triangulation_from_2d_vertices fuel bins vs cs = Ret out /\ lenN out + 2 = lenN cs + 2 * lenN inner.
Proof.
  intros SP Pos Inn. pose proof SP as [SL One].
  pose proof (polygon_inside at_ cs SL One Pos) as Ne.
  destruct (anywhere_loops_count [cs] [] inner) as (out & R & K).
  - cbn. rewrite app_nil_r. apply Permutation_refl.
  - intros ->. destruct Pos as (p & _ & W). cbn in W. lia.
  - exact SL.
  - intros L [<- |[]]. exact SP.
  - intros L [<- |[]]. exact Pos.
  - intros L [].
  - intros p Nc. exact (near_values at_ cs SL p Ne Nc).
  - exact Inn.
  - exists out. split; [exact R|]. change (lenN [cs]) with 1 in K. change (lenN (@nil (list edge))) with 0 in K. lia.
Qed.
End Numbers.
