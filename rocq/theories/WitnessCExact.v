(** * WitnessCExact: the triangles of a constrained triangulation, described without it. *)

From Coq Require Import ZArith NArith List Bool QArith SpecFloat Lia Lqa Permutation.
From Verif Require Import Base Arith Types Utils Infinite Triangulation Constrained F64 Exact Spec DTOut GridSpec GridNum InputSpec GridApi GridCdt
  ApiProps Refuted Witness SpecBox WitnessBox SpecDomain SpecUnique WitnessUnique SpecVisible WitnessLocal WitnessDel WitnessOrder.
Import ListNotations.
Local Open Scope N_scope.

Definition lcx : list (Z * Z) := [(3,8); (13,9); (7,2); (9,14); (0,0); (0,16); (16,16); (16,0)]%Z.
Definition cs_cx : list edge := [Edge 4 5; Edge 5 6; Edge 6 7; Edge 7 4; Edge 2 3].
Definition dt_cx : list (N * N * N) :=
  [(0,3,1); (0,5,3); (1,7,2); (3,5,6); (2,7,4); (0,1,2); (1,6,7); (1,3,6); (0,4,5); (0,2,4)].
Definition out_cx : list (N * N * N) :=
  [(3,1,2); (1,7,2); (2,7,4); (0,2,4); (0,4,5); (0,5,3); (3,2,0); (3,5,6); (1,3,6); (1,6,7)].

Lemma lcx_dt : dt64 400 1 lcx = Ret dt_cx.
Proof. vm_compute. reflexivity. Qed.

Lemma lcx_cdt : constrained_triangulation_from_2d_vertices (E := env64) 400 1 (pts lcx) cs_cx = Ret out_cx.
Proof. vm_compute. reflexivity. Qed.

Lemma lcx_grid64 : on_grid (E := env64) (pts lcx) lcx (2 ^ 40).
Proof.
  exists (sf_is 53 1024), (2 ^ 4)%Z, 0%Z, 0%Z.
  split; [apply (Grid_f64 u32_max 4); lia|]. split; [|split].
  - apply f2_map. intros p Hp. simpl in Hp.
    decompose [or] Hp; try contradiction; subst; vm_compute; repeat split; reflexivity.
  - unfold fits, lcx. repeat split.
    1-4: simpl in H; intuition (subst; simpl; lia).
    + exists (0, 0)%Z. simpl. auto 12.
    + exists (0, 0)%Z. simpl. auto 12.
    + exists (16, 16)%Z. simpl. auto 12.
  - intros p Hp. simpl in Hp. decompose [or] Hp; try contradiction; subst; vm_compute; split; discriminate.
Qed.

Lemma lcx_ids : 2 * lenN (pts lcx) + 2 <= @idmax env64.
Proof. vm_compute. discriminate. Qed.

Lemma lcx_box : Permutation [4; 7; 6; 5] [4; 4 + 1; 4 + 2; 4 + 3] /\
  box_corners (zpoint lcx 4) (zpoint lcx 7) (zpoint lcx 6) (zpoint lcx 5) /\
  forall v, v < 4 -> in_box (zpoint lcx 4) (zpoint lcx 6) (zpoint lcx v).
Proof.
  split; [|split; [vm_compute; repeat split; try reflexivity; discriminate|]].
  - apply (NoDup_Permutation_bis); [|reflexivity|intros x; cbn [In]; lia].
    repeat constructor; cbn [In]; lia.
  - intros v Hv. assert (K : v = 0 \/ v = 1 \/ v = 2 \/ v = 3) by lia.
    decompose [or] K; subst v; vm_compute; repeat split; discriminate.
Qed.

Lemma lcx_noncrossing : noncrossing (zpoint lcx) cs_cx.
Proof.
  intros r r' H H' (C1 & C2). cbn [cs_cx In] in H, H'.
  decompose [or] H; try contradiction; subst r; decompose [or] H'; try contradiction; subst r';
    vm_compute in C1, C2; first [discriminate C1|discriminate C2].
Qed.

Lemma lcx_few e : In e cs_cx -> crosses_at_most (zpoint lcx) dt_cx 2 e.
Proof.
  intros He. exists [(0, 1)]. cbn [cs_cx In] in He.
  decompose [or] He; try contradiction; subst e; cbn [length];
    (split; [lia|]); intros a b c T (C1 & C2); unfold is_tri, dt_cx in T; cbn [In] in T;
    decompose [or] T; try contradiction;
    match goal with H : (_, _, _) = (_, _, _) |- _ => injection H as <- <- <- end;
    first [(vm_compute in C1; discriminate C1)|(vm_compute in C2; discriminate C2)|cbn [In]; auto].
Qed.

(** The vertices 0 and 1 are on no constraint. *)
Lemma lcx_off v : v = 0 \/ v = 1 -> sees (zpoint lcx) cs_cx (zpoint lcx v) (zpoint lcx v).
Proof.
  intros Hv s Hs (e & k & He & _ & Hk & (S1 & S2)).
  assert (P0 : zpoint lcx 0 = (3, 8)%Q) by reflexivity. assert (P1 : zpoint lcx 1 = (13, 9)%Q) by reflexivity.
  assert (P2 : zpoint lcx 2 = (7, 2)%Q) by reflexivity. assert (P3 : zpoint lcx 3 = (9, 14)%Q) by reflexivity.
  assert (P4 : zpoint lcx 4 = (0, 0)%Q) by reflexivity. assert (P5 : zpoint lcx 5 = (0, 16)%Q) by reflexivity.
  assert (P6 : zpoint lcx 6 = (16, 16)%Q) by reflexivity. assert (P7 : zpoint lcx 7 = (16, 0)%Q) by reflexivity.
  destruct Hv; subst v; cbn [cs_cx In] in He; decompose [or] He; try contradiction; subst e; cbn [efrom eto] in *;
    rewrite ?P0, ?P1, ?P2, ?P3, ?P4, ?P5, ?P6, ?P7 in *; unfold along in S1, S2; cbn [fst snd] in S1, S2; lra.
Qed.

Definition seen_b (at_ : N -> point) (ids free : list N) : bool :=
  forallb (fun a => forallb (fun b => forallb (fun c => negb (cw_b (at_ a) (at_ b) (at_ c)) ||
    forallb (fun d => sp_b (at_ d) (at_ a) || sp_b (at_ d) (at_ b) || sp_b (at_ d) (at_ c) ||
      negb (Qeq_bool (qincircle (at_ a) (at_ b) (at_ c) (at_ d)) 0) ||
      existsb (fun v => cw_b (at_ a) (at_ b) (at_ v) && cw_b (at_ b) (at_ c) (at_ v) && cw_b (at_ c) (at_ a) (at_ v) &&
        negb (Qle_bool 0 (qincircle (at_ a) (at_ b) (at_ c) (at_ v)))) free) ids) ids) ids) ids.

Lemma cw_b_inv a b c : cw_b a b c = true -> (orient a b c < 0)%Q.
Proof.
  unfold cw_b. intros H. apply negb_true_iff in H. destruct (Qlt_le_dec (orient a b c) 0) as [L|L]; auto.
  apply Qle_bool_iff in L. congruence.
Qed.

Lemma seen_ok at_ cs n ids free : (forall v, v < n <-> In v ids) -> (forall v, In v free -> v < n /\ sees at_ cs (at_ v) (at_ v)) ->
  seen_b at_ ids free = true -> no_seen_circle_of_four at_ cs n.
Proof.
  intros I Fr H a b c d p La Lb Lc Ld C Hp N1 N2 N3 (o & O1 & O2 & O3) _.
  assert (P : forall v, v < n -> In v ids) by (intros v; apply I).
  unfold seen_b in H. rewrite forallb_forall in H. specialize (H a (P a La)).
  rewrite forallb_forall in H. specialize (H b (P b Lb)). rewrite forallb_forall in H. specialize (H c (P c Lc)).
  rewrite (cw_b_ok _ _ _ C) in H. cbn [negb orb] in H.
  rewrite forallb_forall in H. specialize (H d (P d Ld)).
  assert (Ns : forall x y, ~ same_place x y -> sp_b x y = false).
  { intros x y K. destruct (sp_b x y) eqn:Q; auto. exfalso. apply K. unfold sp_b in Q.
    rewrite andb_true_iff, !Qeq_bool_iff in Q. exact Q. }
  rewrite (Ns _ _ N1), (Ns _ _ N2), (Ns _ _ N3) in H. cbn [orb] in H.
  assert (T : Qeq_bool (qincircle (at_ a) (at_ b) (at_ c) (at_ d)) 0 = true).
  { apply Qeq_bool_iff. rewrite (incircle_power _ _ _ (at_ d) o O1 O2), O3. ring. }
  rewrite T in H. cbn [negb orb] in H. apply existsb_exists in H. destruct H as (v & Hv & H).
  rewrite !andb_true_iff in H. destruct H as (((H1 & H2) & H3) & H4). apply cw_b_inv in H1, H2, H3.
  destruct (Fr v Hv) as (Lv & Sv). exists v, (at_ v). split; auto. split; [split; auto|]. split; auto.
  exists o. split; auto. split; auto.
  destruct (Qlt_le_dec (sqdist o (at_ v)) (sqdist o (at_ a))) as [L|L]; auto. exfalso.
  apply negb_true_iff in H4.
  assert (K : (qincircle (at_ a) (at_ b) (at_ c) (at_ v) >= 0)%Q); [|apply Qle_bool_iff in K; congruence].
  rewrite (incircle_power _ _ _ (at_ v) o O1 O2). unfold clockwise in C. nra.
Qed.

Lemma lcx_general : no_seen_circle_of_four (zpoint lcx) cs_cx 8.
Proof.
  apply (seen_ok _ _ _ [0; 1; 2; 3; 4; 5; 6; 7] [0; 1]); [intros v; cbn [In]; lia| |vm_compute; reflexivity].
  intros v [<-|[<-|[]]]; (split; [lia|apply lcx_off; auto]).
Qed.

(** The triangle (0, 1, 2) of the unconstrained triangulation is not in the constrained one. *)
Lemma lcx_gone : clockwise (zpoint lcx 0) (zpoint lcx 1) (zpoint lcx 2) /\ ~ triangle_at (zpoint lcx) out_cx 0 1 2.
Proof.
  split; [vm_compute; reflexivity|]. intros (((x, y), z) & Ht & Sm). cbn [out_cx In] in Ht.
  decompose [or] Ht; try contradiction; match goal with H : (_, _, _) = (_, _, _) |- _ => injection H as <- <- <- end;
  vm_compute in Sm; decompose [or and] Sm; discriminate.
Qed.

Lemma lcx_kept : clockwise (zpoint lcx 3) (zpoint lcx 2) (zpoint lcx 0) /\ triangle_at (zpoint lcx) out_cx 3 2 0.
Proof.
  split; [vm_compute; reflexivity|]. exists (3, 2, 0). split; [cbn; auto 12|]. left. repeat split; reflexivity.
Qed.
