(** * FillingGrid: the number of triangles of a simple polygon on exact inputs. *)

From Coq Require Import ZArith NArith List Bool QArith Qabs Qminmax Lqa Lia Permutation.
From Verif Require Import Base BaseFacts Arith Types Spec SpecBox SpecDomain SpecTally SpecWinding SpecFilling Infinite Triangulation Constrained
  GridSpec InputSpec GridApi GridCdt Winding Inside InsideGrid TallyGrid Germ Tally Tube Polygon Jordan Ring Diagonal Filling.
Import ListNotations.
Local Open Scope N_scope.

(** ** No vertex inside *)
Section Boxed.
Context {E : Env}.
Variables (vs : list vertex) (at_ : N -> point) (bound : Z) (fuel : nat) (n a b c d : N) (cs : list edge).
Hypothesis G : exact_input vs at_ bound.
Hypothesis Hid : 2 * lenN vs + 2 <= idmax.
Hypothesis Hf : ((2 * length vs + 4) * (2 * length vs + 4) <= fuel)%nat.
Hypothesis Hb : (1 <= bound)%Z.
Hypothesis Hn : lenN vs = n + 4.
Hypothesis Pm : Permutation [a; b; c; d] [n; n + 1; n + 2; n + 3].
Hypothesis Bx : box_corners (at_ a) (at_ b) (at_ c) (at_ d).
Hypothesis Hin : forall v, v < n -> in_box (at_ a) (at_ c) (at_ v).
Hypothesis Hcs : forall e, In e cs -> efrom e < lenN vs /\ eto e < lenN vs /\ clear_between at_ (lenN vs) (efrom e) (eto e).
Hypothesis SP : simple_polygon at_ cs.
Hypothesis Pos : exists p, ~ on_constraint at_ cs p /\ (0 < winding at_ cs p)%Z.

Lemma corner_id v : v < n \/ v = a \/ v = b \/ v = c \/ v = d \/ lenN vs <= v.
Proof.
  destruct (N.lt_ge_cases v n) as [L|L]; [now left|]. destruct (N.le_gt_cases (lenN vs) v) as [K|K]; [auto 6|].
  assert (I : In v [n; n + 1; n + 2; n + 3]) by (rewrite Hn in K; cbn [In]; lia).
  apply (Permutation_in _ (Permutation_sym Pm)) in I. cbn [In] in I. intuition.
Qed.

Lemma all_in_box v : v < lenN vs -> in_box (at_ a) (at_ c) (at_ v).
Proof.
  intros V. destruct Bx as (B1 & B2 & B3 & B4 & B5 & B6). unfold in_box.
  destruct (corner_id v) as [L|[->|[->|[->|[->|L]]]]]; [exact (Hin v L)| | | | |lia]; repeat split; lra.
Qed.

Lemma polygon_near : forall e, In e cs -> near at_ cs e (1#2) 1%Z.
Proof. exact (polygon_inside at_ cs (proj1 SP) (proj2 SP) Pos). Qed.

Lemma polygon_values p : ~ on_constraint at_ cs p -> winding at_ cs p = 0%Z \/ winding at_ cs p = 1%Z.
Proof. exact (near_values at_ cs (proj1 SP) p polygon_near). Qed.

Lemma polygon_domain p : ~ on_constraint at_ cs p -> (in_domain at_ cs p <-> winding at_ cs p = 1%Z).
Proof.
  intros Np. rewrite (winding_domain at_ cs (simple_closed at_ cs (proj1 SP)) (near_inside at_ cs (proj1 SP) polygon_near) p Np).
  destruct (polygon_values p Np); lia.
Qed.

Lemma sides_in_box e : In e cs -> in_box (at_ a) (at_ c) (at_ (efrom e)) /\ in_box (at_ a) (at_ c) (at_ (eto e)).
Proof. intros I. destruct (Hcs e I) as (A & B & _). split; now apply all_in_box. Qed.

Lemma polygon_within p : ~ on_constraint at_ cs p -> winding at_ cs p = 1%Z -> within_box (at_ a) (at_ c) p.
Proof.
  intros Np W. destruct (winding_around at_ cs p (proj1 SP) Np) as (r & R & K).
  assert (In_ : forall q, square p r q -> in_box (at_ a) (at_ c) q).
  { intros q Sq. destruct (K q Sq) as (_ & Wq).
    assert (Dec : in_box (at_ a) (at_ c) q \/ ~ in_box (at_ a) (at_ c) q).
    { unfold in_box. destruct (Qlt_le_dec (fst q) (fst (at_ a))); [right; lra|]. destruct (Qlt_le_dec (fst (at_ c)) (fst q)); [right; lra|].
      destruct (Qlt_le_dec (snd q) (snd (at_ a))); [right; lra|]. destruct (Qlt_le_dec (snd (at_ c)) (snd q)); [right; lra|]. left. repeat split; assumption. }
    destruct Dec as [D|D]; [exact D|]. rewrite (winding_outside at_ cs (simple_closed at_ cs (proj1 SP)) _ _ sides_in_box q D) in Wq. lia. }
  pose proof (In_ (fst p - r, snd p - r)%Q ltac:(unfold square; cbn [fst snd]; repeat split; lra)) as A.
  pose proof (In_ (fst p + r, snd p + r)%Q ltac:(unfold square; cbn [fst snd]; repeat split; lra)) as B.
  unfold in_box, within_box in *. cbn [fst snd] in *. repeat split; lra.
Qed.

Lemma box_polygon : exists out, constrained_triangulation_from_2d_vertices fuel 1 vs cs = Ret out /\ valid_mesh at_ (lenN vs) out /\
  (forall t c, In t out -> tri_corner t c -> c < lenN vs) /\ (forall t p, In t out -> tri_inside at_ t p -> ~ on_constraint at_ cs p) /\
  forall p, ~ on_constraint at_ cs p -> (covered at_ out p <-> winding at_ cs p = 1%Z).
Proof.
  destruct (box_call vs at_ bound fuel n a b c d cs G Hid Hf Hb Hn Pm Bx Hin) as (out & R & VM & Rg & Of & C).
  - intros e I. destruct (Hcs e I) as (A & B & K). auto.
  - exact (meet_noncrossing at_ cs (proj1 SP)).
  - exists out. split; [exact R|]. split; [exact VM|]. split; [exact Rg|]. split; [exact Of|]. intros p Np. rewrite (C p Np), (polygon_domain p Np).
    split; [tauto|]. intros W. split; [|exact W]. pose proof (polygon_within p Np W) as K. unfold within_box, in_box in *. repeat split; lra.
Qed.

Lemma box_empty : (forall v, v < lenN vs -> ~ on_constraint at_ cs (at_ v) -> winding at_ cs (at_ v) <> 1%Z) ->
  exists out, constrained_triangulation_from_2d_vertices fuel 1 vs cs = Ret out /\ lenN out + 2 = lenN cs.
Proof.
  intros No. destruct box_polygon as (out & R & VM & Rg & Of & C). exists out. split; [exact R|].
  assert (FI : fills at_ cs out).
  { constructor.
    - exact (vm_clockwise _ _ _ VM).
    - intros s t p I J A B. destruct (In_nth_error _ _ I) as (i & Hi). destruct (In_nth_error _ _ J) as (j & Hj).
      destruct (PeanoNat.Nat.eq_dec i j) as [->|K]; [congruence|]. exfalso. exact (vm_disjoint _ _ _ VM i j s t p K Hi Hj A B).
    - exact (mesh_nodup _ _ _ VM).
    - intros t v I V. pose proof (Rg t v I V) as L.
      assert (Cv : covered at_ out (at_ v)) by (exists t; split; [exact I|]; apply corner_on; [exact (vm_clockwise _ _ _ VM t I)|exact V]).
      destruct (on_constraint_dec at_ cs (at_ v)) as [(e & s & Ie & Pe & (S1 & S2) & K)|Nc].
      + destruct (Q_dec s 0) as [[X|X]|X]; [exfalso; lra| |exists e; split; [exact Ie|]; apply (place_trans _ _ _ K); now apply along_zero].
        destruct (Q_dec s 1) as [[Y|Y]|Y]; [|exfalso; lra|].
        * exfalso. destruct (Hcs e Ie) as (_ & _ & Cl). exact (Cl v s L (conj X Y) K).
        * destruct (sl_next _ _ (proj1 SP) e Ie) as (f & If & Vf). exists f. split; [exact If|]. apply (place_trans _ _ _ K).
          apply (place_trans _ (at_ (eto e))); [now apply along_one|exact Vf].
      + exfalso. exact (No v L Nc (proj1 (C _ Nc) Cv)).
    - intros t p I Q. pose proof (Of t p I Q) as Nc. split; [exact Nc|]. apply (C p Nc). exact (inside_covered _ _ _ _ I Q).
    - intros p Nc W. exact (proj2 (C p Nc) W).
    - intros t e I Ie K. destruct (Hcs e Ie) as (L & _). exact (vm_empty _ _ _ VM t (efrom e) I L K). }
  assert (Ne : out <> []).
  { destruct Pos as (p & Np & W). assert (W1 : winding at_ cs p = 1%Z) by (destruct (polygon_values p Np); lia).
    destruct (fi_all _ _ _ FI p Np W1) as (t & It & _). intros ->. destruct It. }
  pose proof (filling_count at_ (length cs) cs out (le_n _) SP FI Ne) as L. unfold lenN. lia.
Qed.
End Boxed.

(** ** Moving vertices to the place of another one *)
Lemma nth_map_seq {A} (h : nat -> A) d k v : (v < k)%nat -> nth v (map h (seq 0 k)) d = h v.
Proof.
  intros L. rewrite (nth_indep _ d (h 0%nat)) by (rewrite map_length, seq_length; exact L). rewrite map_nth, seq_nth by exact L. reflexivity.
Qed.

Lemma forall2_nth {A B} (R : A -> B -> Prop) l l' d d' i : Forall2 R l l' -> (i < length l)%nat -> R (nth i l d) (nth i l' d').
Proof.
  intros H. revert i. induction H as [|x y l l' K H IH]; intros i L; [cbn [length] in L; lia|]. destruct i as [|i]; [exact K|].
  cbn [nth]. apply IH. cbn [length] in L. lia.
Qed.

Lemma forall2_len {A B} (R : A -> B -> Prop) l l' : Forall2 R l l' -> length l = length l'.
Proof. induction 1; cbn [length]; congruence. Qed.

Lemma forall2_map {A B} (R : A -> B -> Prop) (f : nat -> A) (g : nat -> B) l : (forall i, In i l -> R (f i) (g i)) -> Forall2 R (map f l) (map g l).
Proof. induction l as [|i l IH]; intros H; cbn [map]; constructor; [apply H; now left|apply IH; intros j J; apply H; now right]. Qed.

Lemma zle_q x y : (inject_Z x <= inject_Z y)%Q -> (x <= y)%Z.
Proof. rewrite <- Zle_Qle. auto. Qed.

Section Moved.
Context {E : Env}.
Variables (vs : list vertex) (bound : Z) (a c : N) (pk : N -> N).
Hypothesis Ha : a < lenN vs.
Hypothesis Hc : c < lenN vs.
Hypothesis Pa : pk a = a.
Hypothesis Pc : pk c = c.
Hypothesis Pk : forall v, v < lenN vs -> pk v < lenN vs.

Local Notation len := (length vs).
Local Notation ix := (fun i => N.to_nat (pk (N.of_nat i))).

Lemma ix_lt i : In i (seq 0 len) -> (ix i < len)%nat.
Proof. intros I. apply in_seq in I. assert (K : N.of_nat i < lenN vs) by (unfold lenN; lia). apply Pk in K. unfold lenN in K. cbv beta in *. revert K. clear. lia. Qed.

Definition moved_vs : list vertex := map (fun i => nth (ix i) vs (f0, f0)) (seq 0 len).

Lemma moved_input at_ : (forall v, v < lenN vs -> in_box (at_ a) (at_ c) (at_ v)) -> exact_input vs at_ bound -> exists at1, exact_input moved_vs at1 bound /\ forall v, v < lenN vs -> at1 v = at_ (pk v).
Proof.
  assert (La : (N.to_nat a < len)%nat) by (unfold lenN in Ha; lia). assert (Lc : (N.to_nat c < len)%nat) by (unfold lenN in Hc; lia).
  intros Bx G. destruct G as [l bd (val & side & mx & my & Gr & F2 & Fi & Bd)|l bd (val & eps & s & Pr & F2 & Bd & Ex & WS)].
  - pose proof (forall2_len _ _ _ F2) as Ll. set (l1 := map (fun i => nth (ix i) l (0, 0)%Z) (seq 0 len)).
    assert (Sub : forall p, In p l1 -> In p l).
    { intros p I. apply in_map_iff in I. destruct I as (i & <- & I). apply nth_In. rewrite <- Ll. exact (ix_lt i I). }
    assert (Own : forall v, v < lenN vs -> pk v = v -> In (nth (N.to_nat v) l (0, 0)%Z) l1).
    { intros v V K. apply in_map_iff. exists (N.to_nat v). rewrite N2Nat.id, K. split; [reflexivity|]. apply in_seq. unfold lenN in V. lia. }
    exists (zpoint l1). split.
    + apply Input_grid. exists val, side, mx, my. split; [exact Gr|]. split; [|split].
      * apply forall2_map. intros i I. exact (forall2_nth _ vs l _ _ _ F2 (ix_lt i I)).
      * destruct Fi as (Fb & (p1 & I1 & K1) & (p2 & I2 & K2) & p3 & I3 & K3).
        assert (Cmp : forall p, In p l -> (fst (nth (N.to_nat a) l (0, 0)%Z) <= fst p <= fst (nth (N.to_nat c) l (0, 0)%Z) /\
          snd (nth (N.to_nat a) l (0, 0)%Z) <= snd p <= snd (nth (N.to_nat c) l (0, 0)%Z))%Z).
        { intros p I. destruct (In_nth _ _ (0, 0)%Z I) as (j & Lj0 & <-). assert (Lj : (j < len)%nat) by (rewrite Ll; exact Lj0).
          destruct (Bx (N.of_nat j) ltac:(unfold lenN; lia)) as ((X1 & X2) & Y1 & Y2). unfold zpoint in *. cbn [fst snd] in *. rewrite ?Nat2N.id in X1, X2, Y1, Y2.
          repeat split; apply zle_q; assumption. }
        set (za := nth (N.to_nat a) l (0, 0)%Z) in *. set (zc := nth (N.to_nat c) l (0, 0)%Z) in *.
        assert (Ia : In za l) by (apply nth_In; exact (eq_ind _ (fun k => (_ < k)%nat) La _ Ll)). assert (Ic : In zc l) by (apply nth_In; exact (eq_ind _ (fun k => (_ < k)%nat) Lc _ Ll)).
        split; [intros p I; exact (Fb p (Sub p I))|].
        split; [exists za; split; [exact (Own a Ha Pa)|]; pose proof (Cmp p1 I1); pose proof (Fb za Ia); lia|].
        split; [exists za; split; [exact (Own a Ha Pa)|]; pose proof (Cmp p2 I2); pose proof (Fb za Ia); lia|].
        exists zc. split; [exact (Own c Hc Pc)|]. pose proof (Cmp p3 I3). pose proof (Fb zc Ic). lia.
      * intros p I. exact (Bd p (Sub p I)).
    + intros v V. unfold zpoint, l1. rewrite nth_map_seq by (unfold lenN in V; lia). rewrite N2Nat.id. reflexivity.
  - pose proof (forall2_len _ _ _ F2) as Ll. set (l1 := map (fun i => nth (ix i) l (0, 0)%Q) (seq 0 len)).
    assert (Sub : forall p, In p l1 -> In p l).
    { intros p I. apply in_map_iff in I. destruct I as (i & <- & I). apply nth_In. rewrite <- Ll. exact (ix_lt i I). }
    assert (Own : forall v, v < lenN vs -> pk v = v -> In (nth (N.to_nat v) l (0, 0)%Q) l1).
    { intros v V K. apply in_map_iff. exists (N.to_nat v). rewrite N2Nat.id, K. split; [reflexivity|]. apply in_seq. unfold lenN in V. lia. }
    exists (qpoint l1). split.
    + apply Input_separated. exists val, eps, s. split; [exact Pr|]. split; [|split; [|split]].
      * apply forall2_map. intros i I. exact (forall2_nth _ vs l _ _ _ F2 (ix_lt i I)).
      * intros p I. exact (Bd p (Sub p I)).
      * destruct Ex as (mx & my & S0 & Fb & (p1 & I1 & K1) & (p2 & I2 & K2) & p3 & I3 & K3).
        assert (Cmp : forall p, In p l -> (fst (nth (N.to_nat a) l (0, 0)%Q) <= fst p <= fst (nth (N.to_nat c) l (0, 0)%Q) /\
          snd (nth (N.to_nat a) l (0, 0)%Q) <= snd p <= snd (nth (N.to_nat c) l (0, 0)%Q))%Q).
        { intros p I. destruct (In_nth _ _ (0, 0)%Q I) as (j & Lj0 & <-). assert (Lj : (j < len)%nat) by (rewrite Ll; exact Lj0).
          destruct (Bx (N.of_nat j) ltac:(unfold lenN; lia)) as ((X1 & X2) & Y1 & Y2). unfold qpoint in *. cbn [fst snd] in *. rewrite ?Nat2N.id in X1, X2, Y1, Y2.
          repeat split; assumption. }
        set (za := nth (N.to_nat a) l (0, 0)%Q) in *. set (zc := nth (N.to_nat c) l (0, 0)%Q) in *.
        assert (Ia : In za l) by (apply nth_In; exact (eq_ind _ (fun k => (_ < k)%nat) La _ Ll)). assert (Ic : In zc l) by (apply nth_In; exact (eq_ind _ (fun k => (_ < k)%nat) Lc _ Ll)).
        exists mx, my. split; [exact S0|]. split; [intros p I; exact (Fb p (Sub p I))|].
        split; [exists za; split; [exact (Own a Ha Pa)|]; pose proof (Cmp p1 I1); pose proof (Fb za Ia); lra|].
        split; [exists za; split; [exact (Own a Ha Pa)|]; pose proof (Cmp p2 I2); pose proof (Fb za Ia); lra|].
        exists zc. split; [exact (Own c Hc Pc)|]. pose proof (Cmp p3 I3). pose proof (Fb zc Ic). destruct K3; [left|right]; lra.
      * destruct WS as [X1 X2 X3 X4]. constructor; intros; [apply X1|apply X2|apply X3|apply X4]; auto.
    + intros v V. unfold qpoint, l1. rewrite nth_map_seq by (unfold lenN in V; lia). rewrite N2Nat.id. reflexivity.
Qed.
End Moved.

(** ** Constraints whose ends are at the same places *)
Section Same.
Variables (at1 at2 : N -> point) (cs : list edge).
Hypothesis Eq : forall e, In e cs -> at1 (efrom e) = at2 (efrom e) /\ at1 (eto e) = at2 (eto e).

Lemma same_on p : on_constraint at1 cs p <-> on_constraint at2 cs p.
Proof.
  split; intros (e & s & I & P & K); exists e, s; (split; [exact I|]); destruct (Eq e I) as (A & B); unfold proper in *;
    [rewrite <- A, <- B|rewrite A, B]; auto.
Qed.

Lemma same_winding p : winding at1 cs p = winding at2 cs p.
Proof. unfold winding. f_equal. apply map_ext_in. intros e I. destruct (Eq e I) as (A & B). now rewrite A, B. Qed.

Lemma same_polygon : simple_polygon at2 cs -> simple_polygon at1 cs.
Proof.
  intros ([A1 A2 A3 A4 A5 A6 A7] & One). split; [constructor|].
  - exact A1.
  - intros e I. unfold proper. destruct (Eq e I) as (-> & ->). exact (A2 e I).
  - intros e I. destruct (A3 e I) as (f & J & K). exists f. split; [exact J|]. destruct (Eq e I) as (_ & ->). destruct (Eq f J) as (-> & _). exact K.
  - intros f J. destruct (A4 f J) as (e & I & K). exists e. split; [exact I|]. destruct (Eq e I) as (_ & ->). destruct (Eq f J) as (-> & _). exact K.
  - intros e f I J. destruct (Eq e I) as (-> & _). destruct (Eq f J) as (-> & _). exact (A5 e f I J).
  - intros e f I J. destruct (Eq e I) as (_ & ->). destruct (Eq f J) as (_ & ->). exact (A6 e f I J).
  - intros e f s r I J. destruct (Eq e I) as (-> & ->). destruct (Eq f J) as (-> & ->). exact (A7 e f s r I J).
  - intros e f I J. pose proof (One e f I J) as L. clear J. assert (K : In f cs /\ same_loop at1 cs e f); [|exact (proj2 K)].
    induction L as [|f g L IH J V]; [split; [exact I|apply loop_here]|]. destruct IH as (If & IH). split; [exact J|].
    apply (loop_next _ _ _ f); [exact IH|exact J|]. destruct (Eq f If) as (_ & ->). destruct (Eq g J) as (-> & _). exact V.
Qed.
End Same.

(** ** Vertices inside *)
Lemma box_count {E : Env} (vs : list vertex) at_ bound fuel n a b c d cs inner :
  exact_input vs at_ bound -> 2 * lenN vs + 2 <= idmax ->
  ((2 * length vs + 4) * (2 * length vs + 4) <= fuel)%nat -> (1 <= bound)%Z ->
  lenN vs = n + 4 -> Permutation [a; b; c; d] [n; n + 1; n + 2; n + 3] ->
  box_corners (at_ a) (at_ b) (at_ c) (at_ d) ->
  (forall v, v < n -> in_box (at_ a) (at_ c) (at_ v)) ->
  (forall e, In e cs -> efrom e < lenN vs /\ eto e < lenN vs /\ clear_between at_ (lenN vs) (efrom e) (eto e)) ->
  simple_polygon at_ cs -> (exists p, ~ on_constraint at_ cs p /\ (0 < winding at_ cs p)%Z) ->
  inside_vertices at_ (lenN vs) cs inner ->
  exists out, constrained_triangulation_from_2d_vertices fuel 1 vs cs = Ret out /\ lenN out + 2 = lenN cs + 2 * lenN inner.
Proof.
  intros G Hid Hf Hb Hn Pm Bx Hin Hcs SP Pos [Inn Dis All].
  assert (Ra : a < lenN vs /\ b < lenN vs /\ c < lenN vs /\ d < lenN vs /\ n <= a /\ n <= b /\ n <= c /\ n <= d).
  { assert (K : forall x, In x [a; b; c; d] -> n <= x < lenN vs) by (intros x I; apply (Permutation_in _ Pm) in I; cbn [In] in I; lia).
    pose proof (K a ltac:(cbn; auto)). pose proof (K b ltac:(cbn; auto)). pose proof (K c ltac:(cbn; auto)). pose proof (K d ltac:(cbn; auto)). lia. }
  destruct Ra as (La & Lb & Lc & Ld & Na & Nb & Nc & Nd).
  set (keep := fun v => (n <=? v) || existsb (fun e => (efrom e =? v) || (eto e =? v)) cs).
  set (pk := fun v => if keep v then v else a).
  assert (Kn : forall v, n <= v -> pk v = v). { intros v V. unfold pk, keep. apply N.leb_le in V. now rewrite V. }
  assert (Ke : forall e, In e cs -> pk (efrom e) = efrom e /\ pk (eto e) = eto e).
  { intros e I. unfold pk, keep. split.
    - assert (X : existsb (fun f => (efrom f =? efrom e) || (eto f =? efrom e)) cs = true) by (apply existsb_exists; exists e; split; [exact I|now rewrite N.eqb_refl]).
      rewrite X, orb_true_r. reflexivity.
    - assert (X : existsb (fun f => (efrom f =? eto e) || (eto f =? eto e)) cs = true) by (apply existsb_exists; exists e; split; [exact I|now rewrite N.eqb_refl, orb_true_r]).
      rewrite X, orb_true_r. reflexivity. }
  assert (Kind : forall v, v < lenN vs -> (n <= pk v < lenN vs) \/ exists e, In e cs /\ (pk v = efrom e \/ pk v = eto e)).
  { intros v V. unfold pk. destruct (keep v) eqn:K; [|left; lia]. unfold keep in K. apply orb_true_iff in K. destruct K as [K|K]; [left; apply N.leb_le in K; lia|].
    right. apply existsb_exists in K. destruct K as (e & I & K). exists e. split; [exact I|]. apply orb_true_iff in K. destruct K as [K|K]; apply N.eqb_eq in K; auto. }
  assert (Pk : forall v, v < lenN vs -> pk v < lenN vs).
  { intros v V. destruct (Kind v V) as [K|(e & I & K)]; [lia|]. destruct (Hcs e I) as (A & B & _). destruct K as [-> | ->]; assumption. }
  assert (Ab : forall v, v < lenN vs -> in_box (at_ a) (at_ c) (at_ v)) by (intros v; exact (all_in_box vs at_ fuel n a b c d Hid Hf Hn Pm Bx Hin v)).
  destruct (moved_input vs bound a c pk La Lc (Kn a Na) (Kn c Nc) Pk at_ Ab G) as (at1 & G1 & Eq1).
  set (vs1 := moved_vs vs pk) in *. assert (Len : length vs1 = length vs) by (unfold vs1, moved_vs; rewrite map_length, seq_length; reflexivity).
  assert (LenN : lenN vs1 = lenN vs) by (unfold lenN; now rewrite Len).
  assert (Eqn : forall v, n <= v < lenN vs -> at1 v = at_ v) by (intros v V; rewrite (Eq1 v ltac:(lia)), Kn by lia; reflexivity).
  assert (Eqe : forall e, In e cs -> at1 (efrom e) = at_ (efrom e) /\ at1 (eto e) = at_ (eto e)).
  { intros e I. destruct (Hcs e I) as (A & B & _). destruct (Ke e I) as (K1 & K2). rewrite (Eq1 _ A), (Eq1 _ B), K1, K2. auto. }
  pose proof (same_on at1 at_ cs Eqe) as Son. pose proof (same_winding at1 at_ cs Eqe) as Sw.
  assert (Within : forall p, ~ on_constraint at_ cs p -> winding at_ cs p = 1%Z -> within_box (at_ a) (at_ c) p).
  { intros p. exact (polygon_within vs at_ fuel n a b c d cs Hid Hf Hn Pm Bx Hin Hcs SP p). }
  assert (CornerOut : forall v p, n <= v < lenN vs -> same_place p (at_ v) -> ~ within_box (at_ a) (at_ c) p).
  { intros v p V (P1 & P2) W. destruct Bx as (B1 & B2 & B3 & B4 & B5 & B6). unfold within_box in W.
    destruct (corner_id vs fuel n a b c d Hid Hf Hn Pm v) as [L|[-> |[-> |[-> |[-> |L]]]]]; try lia; lra. }
  assert (EndOn : forall e, In e cs -> on_constraint at_ cs (at_ (efrom e)) /\ on_constraint at_ cs (at_ (eto e))).
  { intros e I. pose proof (sl_proper _ _ (proj1 SP) e I) as P. split; [exists e, 0%Q|exists e, 1%Q]; (split; [exact I|]; split; [exact P|]; split; [lra|]); apply Ring.place_sym;
      [now apply along_zero|now apply along_one]. }
  (* the vertices of the first input are not inside *)
  assert (No1 : forall v, v < lenN vs -> ~ on_constraint at_ cs (at1 v) -> winding at_ cs (at1 v) <> 1%Z).
  { intros v V Nv W. rewrite (Eq1 v V) in *. destruct (Kind v V) as [K|(e & I & K)].
    - exact (CornerOut (pk v) _ K (Ring.place_refl _) (Within _ Nv W)).
    - apply Nv. destruct (EndOn e I) as (A & B). destruct K as [-> | ->]; assumption. }
  assert (Bx1 : box_corners (at1 a) (at1 b) (at1 c) (at1 d)) by (rewrite !Eqn by lia; exact Bx).
  assert (Hin1 : forall v, v < n -> in_box (at1 a) (at1 c) (at1 v)).
  { intros v V. rewrite (Eqn a), (Eqn c), (Eq1 v) by lia. apply Ab. apply Pk. lia. }
  assert (Hcs1 : forall e, In e cs -> efrom e < lenN vs1 /\ eto e < lenN vs1 /\ clear_between at1 (lenN vs1) (efrom e) (eto e)).
  { intros e I. rewrite LenN. destruct (Hcs e I) as (A & B & K). split; [exact A|]. split; [exact B|]. intros v s V S. destruct (Eqe e I) as (-> & ->).
    rewrite (Eq1 v V). exact (K (pk v) s (Pk v V) S). }
  pose proof (same_polygon at1 at_ cs Eqe SP) as SP1.
  assert (Pos1 : exists p, ~ on_constraint at1 cs p /\ (0 < winding at1 cs p)%Z) by (destruct Pos as (p & A & B); exists p; rewrite Son, Sw; auto).
  destruct (box_empty vs1 at1 bound fuel n a b c d cs G1 ltac:(rewrite LenN; exact Hid) ltac:(rewrite Len; exact Hf) Hb ltac:(rewrite LenN; exact Hn) Pm Bx1 Hin1 Hcs1 SP1 Pos1) as (out1 & R1 & L1).
  { rewrite LenN. intros v V Nv. rewrite Son in Nv. rewrite Sw. exact (No1 v V Nv). }
  pose proof (polygon_domain vs at_ fuel n cs Hid Hf Hn SP Pos) as Dom.
  destruct (grid_box_tally E E vs1 vs at1 at_ bound bound fuel fuel n n a b c d a b c d cs cs inner G1 G) as (o1 & o2 & R1' & R2 & L2); try assumption.
  - rewrite LenN; exact Hid.
  - rewrite Len; exact Hf.
  - rewrite LenN; exact Hn.
  - rewrite (Eqn a) by lia. apply Ring.place_refl.
  - rewrite (Eqn c) by lia. apply Ring.place_refl.
  - intros e I. destruct (Hcs1 e I) as (A & B & K). auto.
  - exact (meet_noncrossing at1 cs (proj1 SP1)).
  - intros e I. destruct (Hcs e I) as (A & B & K). auto.
  - exact (meet_noncrossing at_ cs (proj1 SP)).
  - split; intros e I; exists e; (split; [exact I|]); destruct (Eqe e I) as (-> & ->); split; apply Ring.place_refl.
  - rewrite LenN. intros v V _. exists (pk v). split; [exact (Pk v V)|]. rewrite (Eq1 v V). apply Ring.place_refl.
  - intros w V D. right. pose proof (in_domain_off at_ cs _ D) as Nw. apply (All w V Nw). now apply Dom.
  - split; [|exact Dis]. intros u Iu. destruct (Inn u Iu) as (Lu & Nu & Wu). split; [exact Lu|]. intros (v & V & K). rewrite LenN in V. rewrite (Eq1 v V) in K.
    destruct (Kind v V) as [Kd|(e & I & Kd)].
    + exact (CornerOut (pk v) _ Kd (Ring.place_sym _ _ K) (Within _ Nu Wu)).
    + apply Nu. apply (on_place at_ cs _ _ K). destruct (EndOn e I) as (A & B). destruct Kd as [-> | ->]; assumption.
  - intros u Iu. destruct (Inn u Iu) as (Lu & Nu & Wu). split; [now apply Dom|exact (Within _ Nu Wu)].
  - exists o2. split; [exact R2|]. assert (K : o1 = out1) by congruence. subst o1. lia.
Qed.
