(** * QualityFacts: what the circumcircle checker counts. *)

From Coq Require Import NArith List Bool Reals Lra Lia.
From Verif Require Import Base BaseFacts Arith Types Utils Spec Quality SpecQuality.
Import ListNotations.
Local Open Scope N_scope.

Lemma getN_nth {A} (d : A) l v : v < lenN l -> getN l v = Ret (nth (N.to_nat v) l d).
Proof. intros H. apply getN_Some. rewrite nthN_nth_error. unfold lenN in *. apply nth_error_nth'. lia. Qed.

Section Carrier.
Variable S : Type.
Variables add sub mul div : S -> S -> S.
Variable sqrt_ : S -> S.
Variable two : S.
Variable lt : S -> S -> bool.
Variable zero : S * S.

Notation info := (get_circumcircle_info S add sub mul div sqrt_ two).
Notation inside := (in_info S add sub mul sqrt_ lt).
Definition s_at (vs : list (S * S)) (v : N) : S * S := nth (N.to_nat v) vs zero.

Lemma getN_at vs v : v < lenN vs -> getN vs v = Ret (s_at vs v).
Proof. apply getN_nth. Qed.

Definition ownb (t : N * N * N) (v : N) : bool := let '(a, b, c) := t in (v =? a) || (v =? b) || (v =? c).
Definition list3 (t : N * N * N) : list N := let '(a, b, c) := t in [a; b; c].

Lemma corner_val vs t circle ids : (forall v, In v ids -> v < lenN vs) ->
  corner_in_circle S add sub mul sqrt_ lt vs t circle ids
  = Ret (existsb (fun v => negb (ownb t v) && inside circle (s_at vs v)) ids).
Proof.
  destruct t as ((a, b), c). induction ids as [|v ids IH]; intros H; auto. cbn [corner_in_circle existsb ownb].
  rewrite IH by (intros; apply H; now right). rewrite (getN_at vs v) by (apply H; now left). cbn [bind].
  destruct ((v =? a) || (v =? b) || (v =? c)); auto. cbn [negb andb]. now destruct (inside circle (s_at vs v)).
Qed.

Lemma triangle_val vs t circle others : ids_in_range others vs ->
  triangle_in_circle S add sub mul sqrt_ lt vs t circle others
  = Ret (existsb (fun t' => existsb (fun v => negb (ownb t v) && inside circle (s_at vs v)) (list3 t')) others).
Proof.
  induction others as [|((a, b), c) others IH]; intros H; auto. cbn [triangle_in_circle].
  rewrite IH by (intros t' v Ht; apply H; now right).
  rewrite corner_val.
  - cbn [bind]. cbn [existsb list3]. now destruct (_ || _).
  - intros v Hv. apply (H (a, b, c)); [now left|]. simpl in *. intuition.
Qed.

Definition badb (vs : list (S * S)) (all : list (N * N * N)) (t : N * N * N) : bool :=
  let '(a, b, c) := t in
  existsb (fun t' => existsb (fun v => negb (ownb t v) && inside (info (s_at vs a) (s_at vs b) (s_at vs c)) (s_at vs v)) (list3 t')) all.

Lemma lenN_cons {A} (x : A) l : lenN (x :: l) = lenN l + 1.
Proof. unfold lenN. simpl length. lia. Qed.

Lemma count_val vs all ts n : ids_in_range all vs -> ids_in_range ts vs ->
  count_non_optimal S add sub mul div sqrt_ two lt vs all ts n = Ret (n + lenN (filter (badb vs all) ts)).
Proof.
  intros Ha. revert n. induction ts as [|((a, b), c) ts IH]; intros n H.
  { simpl. f_equal. unfold lenN. simpl. lia. }
  cbn [count_non_optimal].
  rewrite !getN_at by (apply (H (a, b, c)); [now left|simpl; auto]). cbn [bind].
  rewrite triangle_val by auto. cbn [bind]. rewrite IH by (intros t v Ht; apply H; now right).
  f_equal. change (existsb _ all) with (badb vs all (a, b, c)). cbn [filter].
  destruct (badb vs all (a, b, c)); rewrite ?lenN_cons; lia.
Qed.

Lemma check_val vs ts : ids_in_range ts vs ->
  check_circumcircles S add sub mul div sqrt_ two lt ts vs = Ret (lenN (filter (badb vs ts) ts)).
Proof. intros H. unfold check_circumcircles. now rewrite count_val. Qed.

End Carrier.

Lemma filter_lenN {A} (f : A -> bool) l : lenN (filter f l) <= lenN l.
Proof. induction l as [|x l IH]; simpl; [lia|]. destruct (f x); rewrite ?lenN_cons; lia. Qed.

Lemma degen_val {E : Env} ts (vs : list vertex) : ids_in_range ts vs ->
  exists flat ccw, check_degenerate_triangles ts vs = Ret (flat, ccw) /\ flat + ccw <= lenN ts.
Proof.
  induction ts as [|((a, b), c) ts IH]; intros H.
  { exists 0, 0. split; auto. unfold lenN; simpl; lia. }
  destruct IH as (f & w & K & L); [intros t v Ht; apply H; now right|]. cbn [check_degenerate_triangles].
  rewrite !(getN_nth ((f0, f0) : vertex)) by (apply (H (a, b, c)); [now left|simpl; auto]). cbn [bind]. rewrite K. cbn [bind].
  rewrite lenN_cons. destruct (triplet_orientation _ _ _); do 2 eexists; (split; [reflexivity|lia]).
Qed.

Lemma optimal_total {E : Env} sqrt_ ts (vs : list vertex) : ids_in_range ts vs ->
  exists flat ccw bad, check_delaunay_optimal sqrt_ ts vs = Ret (flat, ccw, bad) /\
    flat + ccw <= lenN ts /\ bad <= lenN ts.
Proof.
  intros H. destruct (degen_val ts vs H) as (f & w & K & L). unfold check_delaunay_optimal. rewrite K. cbn [bind].
  rewrite (check_val F _ _ _ _ _ _ _ (f0, f0)) by auto. cbn [bind]. do 3 eexists. split; [reflexivity|]. split; auto.
  apply filter_lenN.
Qed.

(** ** Without rounding *)
Section Real.
Local Open Scope R_scope.
Notation rinfo := (get_circumcircle_info R Rplus Rminus Rmult Rdiv sqrt 2).
Notation rin := (in_info R Rplus Rminus Rmult sqrt (fun a b => if Rlt_dec a b then true else false)).

(** The center is the only point at the same distance from the corners. *)
Lemma center_eq a b c o : not_flat a b c -> rsqdist o a = rsqdist o b -> rsqdist o a = rsqdist o c ->
  fst (rinfo a b c) = o.
Proof.
  destruct a as (ax, ay), b as (bx, by_), c as (cx, cy), o as (ox, oy).
  unfold not_flat, rsqdist, get_circumcircle_info. simpl. intros Nf E1 E2.
  set (d := (bx - ax) * (cy - ay) - (by_ - ay) * (cx - ax)) in *.
  assert (L1 : 2 * ((bx - ax) * (ox - ax) + (by_ - ay) * (oy - ay)) = (bx - ax) * (bx - ax) + (by_ - ay) * (by_ - ay)) by lra.
  assert (L2 : 2 * ((cx - ax) * (ox - ax) + (cy - ay) * (oy - ay)) = (cx - ax) * (cx - ax) + (cy - ay) * (cy - ay)) by lra.
  rewrite <- L1, <- L2.
  f_equal; unfold d in *; field; exact Nf.
Qed.

Lemma center_dist a b c : not_flat a b c ->
  let o := fst (rinfo a b c) in rsqdist o a = rsqdist o b /\ rsqdist o a = rsqdist o c.
Proof.
  destruct a as (ax, ay), b as (bx, by_), c as (cx, cy). unfold not_flat, rsqdist, get_circumcircle_info. simpl. intros Nf.
  split; field; exact Nf.
Qed.

Lemma in_info_spec a b c d : not_flat a b c -> (rin (rinfo a b c) d = true <-> in_rcircle a b c d).
Proof.
  intros Nf.
  assert (K : rin (rinfo a b c) d = true <-> rsqdist (fst (rinfo a b c)) d < rsqdist (fst (rinfo a b c)) a).
  { unfold in_info. destruct a as (ax, ay), b as (bx, by_), c as (cx, cy), d as (dx, dy). unfold rsqdist.
    unfold get_circumcircle_info. cbn [fst snd].
    set (ux := Rdiv _ _). set (uy := Rdiv _ _).
    replace ((ux + ax - dx) * (ux + ax - dx) + (uy + ay - dy) * (uy + ay - dy))
      with ((dx - (ux + ax)) * (dx - (ux + ax)) + (dy - (uy + ay)) * (dy - (uy + ay))) by ring.
    replace ((ux + ax - ax) * (ux + ax - ax) + (uy + ay - ay) * (uy + ay - ay)) with (ux * ux + uy * uy) by ring.
    assert (P : forall x y, 0 <= x * x + y * y) by (intros; pose proof (Rle_0_sqr x); pose proof (Rle_0_sqr y); unfold Rsqr in *; lra).
    destruct (Rlt_dec _ _) as [H|H]; split; intros K; try discriminate; auto.
    - now apply sqrt_lt_0_alt.
    - exfalso. apply H. apply sqrt_lt_1_alt. split; auto. }
  rewrite K. split.
  - intros L. destruct (center_dist a b c Nf) as (E1 & E2). exists (fst (rinfo a b c)). auto.
  - intros (o & E1 & E2 & L). now rewrite (center_eq a b c o Nf E1 E2).
Qed.

Lemma ownb_spec t v : ownb t v = true <-> tri_corner t v.
Proof.
  destruct t as ((a, b), c). simpl. rewrite !orb_true_iff, !N.eqb_eq. tauto.
Qed.

Lemma list3_spec t v : In v (list3 t) <-> tri_corner t v.
Proof. destruct t as ((a, b), c). simpl. intuition. Qed.

Lemma r_check ts vs : ids_in_range ts vs ->
  (forall a b c, In (a, b, c) ts -> not_flat (rat vs a) (rat vs b) (rat vs c)) ->
  exists bad, (forall t, In t ts -> (bad t = true <-> crowded vs ts t)) /\
    r_check_circumcircles ts vs = Ret (lenN (filter bad ts)).
Proof.
  intros H Nf. exists (badb R Rplus Rminus Rmult Rdiv sqrt 2 (fun a b => if Rlt_dec a b then true else false) (0, 0) vs ts).
  split; [|now apply check_val].
  intros ((a, b), c) Ht. specialize (Nf a b c Ht). unfold badb, crowded. rewrite existsb_exists. split.
  - intros (t' & Ht' & K). apply existsb_exists in K. destruct K as (v & Hv & K). apply andb_true_iff in K. destruct K as (K1 & K2).
    exists t', v. split; auto. split; [now apply list3_spec|]. split.
    + intros Q. apply ownb_spec in Q. rewrite Q in K1. discriminate.
    + apply in_info_spec in K2; auto.
  - intros (t' & v & Ht' & Hv & Nv & K). exists t'. split; auto. apply existsb_exists. exists v. split; [now apply list3_spec|].
    apply andb_true_iff. split.
    + apply negb_true_iff. destruct (ownb (a, b, c) v) eqn:Q; auto. apply ownb_spec in Q. contradiction.
    + apply in_info_spec; auto.
Qed.

End Real.
