(** * WitnessOrder: the same constraints in two orders. *)

From Coq Require Import ZArith NArith List Bool QArith SpecFloat Lia Lqa Permutation.
From Verif Require Import Base Arith Types Utils Infinite Triangulation Constrained F64 Exact Spec DTOut GridSpec GridNum InputSpec GridApi GridCdt
  ApiProps Refuted Witness SpecBox WitnessBox SpecDomain SpecUnique WitnessUnique WitnessLocal WitnessDel.
Import ListNotations.
Local Open Scope N_scope.

Definition cw_b (a b c : point) : bool := negb (Qle_bool 0 (orient a b c)).
Definition in_b (a b c p : point) : bool := Qle_bool (orient a b p) 0 && Qle_bool (orient b c p) 0 && Qle_bool (orient c a p) 0.
Definition sp_b (a b : point) : bool := Qeq_bool (fst a) (fst b) && Qeq_bool (snd a) (snd b).

Definition quad_b (at_ : N -> point) (ids : list N) : bool :=
  forallb (fun a => forallb (fun b => forallb (fun c => negb (cw_b (at_ a) (at_ b) (at_ c)) ||
    forallb (fun d => negb (cw_b (at_ b) (at_ a) (at_ d)) || negb (Qeq_bool (qincircle (at_ a) (at_ b) (at_ c) (at_ d)) 0) ||
      existsb (fun v => negb (sp_b (at_ v) (at_ a)) && negb (sp_b (at_ v) (at_ b)) && negb (sp_b (at_ v) (at_ c)) && negb (sp_b (at_ v) (at_ d)) &&
        (in_b (at_ a) (at_ b) (at_ c) (at_ v) || in_b (at_ b) (at_ a) (at_ d) (at_ v))) ids) ids) ids) ids) ids.

Lemma cw_b_ok a b c : clockwise a b c -> cw_b a b c = true.
Proof.
  unfold clockwise, cw_b. intros H. apply negb_true_iff. destruct (Qle_bool 0 (orient a b c)) eqn:Q; auto.
  apply Qle_bool_iff in Q. lra.
Qed.

Lemma in_b_ok a b c p : in_b a b c p = true -> inside_or_on a b c p.
Proof. unfold in_b. rewrite !andb_true_iff, !Qle_bool_iff. intros ((A & B) & C). split; auto. Qed.

Lemma sp_b_ok a b : negb (sp_b a b) = true -> ~ same_place a b.
Proof.
  unfold sp_b. intros H (A & B). apply Qeq_bool_iff in A, B. rewrite A, B in H. discriminate.
Qed.

Lemma quad_ok at_ n ids : (forall v, v < n <-> In v ids) -> quad_b at_ ids = true -> no_empty_quad_on_a_circle at_ n.
Proof.
  intros I H a b c d La Lb Lc Ld C1 C2 (o & O1 & O2 & O3).
  assert (P : forall v, v < n -> In v ids) by (intros v; apply I).
  unfold quad_b in H. rewrite forallb_forall in H. specialize (H a (P a La)).
  rewrite forallb_forall in H. specialize (H b (P b Lb)). rewrite forallb_forall in H. specialize (H c (P c Lc)).
  rewrite (cw_b_ok _ _ _ C1) in H. cbn [negb orb] in H.
  rewrite forallb_forall in H. specialize (H d (P d Ld)). rewrite (cw_b_ok _ _ _ C2) in H. cbn [negb orb] in H.
  assert (T : Qeq_bool (qincircle (at_ a) (at_ b) (at_ c) (at_ d)) 0 = true).
  { apply Qeq_bool_iff. rewrite (incircle_power _ _ _ (at_ d) o O1 O2), O3. ring. }
  rewrite T in H. cbn [negb orb] in H. apply existsb_exists in H. destruct H as (v & Hv & H).
  rewrite !andb_true_iff, orb_true_iff in H. destruct H as ((((N1 & N2) & N3) & N4) & N5).
  exists v. split; [now apply I|]. repeat (split; [now apply sp_b_ok|]). destruct N5 as [N5|N5]; apply in_b_ok in N5; auto.
Qed.

(** The constraints of [WitnessDel.v] in another order, one of them twice. *)
Definition cs_wf : list edge := [Edge 4 5; Edge 0 7; Edge 8 5; Edge 7 8; Edge 4 5; Edge 6 7; Edge 5 6].
Definition out_wf : list (N * N * N) :=
  [(5,3,4); (3,6,4); (4,6,7); (7,0,4); (4,0,5); (0,8,5); (0,1,8); (1,7,8); (1,2,7); (7,2,0); (0,2,1); (3,5,6)].

Lemma lfw_cdt2 : constrained_triangulation_from_2d_vertices (E := env64) 500 1 (pts lfw) cs_wf = Ret out_wf.
Proof. vm_compute. reflexivity. Qed.

Lemma lfw_same e : In e cs_fw <-> In e cs_wf.
Proof. unfold cs_fw, cs_wf. cbn [In]. tauto. Qed.

Lemma lfw_general : no_empty_quad_on_a_circle (zpoint lfw) 9.
Proof. apply (quad_ok _ _ [0; 1; 2; 3; 4; 5; 6; 7; 8]); [intros v; cbn [In]; lia|]. vm_compute. reflexivity. Qed.

(** ** A constraint that crosses three edges *)
Definition cs_o1 : list edge := [Edge 3 4; Edge 4 5; Edge 5 6; Edge 6 3; Edge 4 6; Edge 1 6].
Definition cs_o2 : list edge := [Edge 3 4; Edge 4 5; Edge 5 6; Edge 6 3; Edge 1 6; Edge 4 6].

Definition out_o1 : list (N * N * N) := [(6,3,4); (2,5,6); (6,1,2); (2,1,0); (0,5,2); (0,1,5); (1,4,5); (6,4,1)].
Definition out_o2 : list (N * N * N) := [(6,4,1); (1,4,5); (0,1,5); (0,5,2); (6,0,2); (2,5,6); (6,1,0); (6,3,4)].

Lemma o_cdt1 : constrained_triangulation_from_2d_vertices (E := env64) 400 1 (pts lnd) cs_o1 = Ret out_o1.
Proof. vm_compute. reflexivity. Qed.

Lemma o_cdt2 : constrained_triangulation_from_2d_vertices (E := env64) 400 1 (pts lnd) cs_o2 = Ret out_o2.
Proof. vm_compute. reflexivity. Qed.

Lemma o_same e : In e cs_o1 <-> In e cs_o2.
Proof. unfold cs_o1, cs_o2. cbn [In]. tauto. Qed.

Lemma lnd_general : no_empty_quad_on_a_circle (zpoint lnd) 7.
Proof. apply (quad_ok _ _ [0; 1; 2; 3; 4; 5; 6]); [intros v; cbn [In]; lia|]. vm_compute. reflexivity. Qed.

Lemma o_noncrossing : noncrossing (zpoint lnd) cs_o1.
Proof.
  intros r r' H H' (C1 & C2). cbn [cs_o1 In] in H, H'.
  decompose [or] H; try contradiction; subst r; decompose [or] H'; try contradiction; subst r';
    vm_compute in C1, C2; first [discriminate C1|discriminate C2].
Qed.

Lemma o_three e : In e cs_o1 -> crosses_at_most (zpoint lnd) dt_nd 3 e.
Proof.
  intros He. exists (if edge_eqb e (Edge 4 6) then [(1, 3); (0, 3); (2, 3)] else if edge_eqb e (Edge 1 6) then [(0, 3); (2, 3)] else []).
  cbn [cs_o1 In] in He.
  decompose [or] He; try contradiction; subst e; cbn [edge_eqb efrom eto N.eqb Pos.eqb andb length];
    (split; [lia|]); intros a b c T (C1 & C2); unfold is_tri, dt_nd in T; cbn [In] in T;
    decompose [or] T; try contradiction;
    match goal with H : (_, _, _) = (_, _, _) |- _ => injection H as <- <- <- end;
    first [(vm_compute in C1; discriminate C1)|(vm_compute in C2; discriminate C2)|cbn [In]; auto].
Qed.

Lemma o_differ : ~ same_result out_o1 out_o2.
Proof.
  intros (H & _). assert (T : is_tri out_o1 6 1 2) by (unfold is_tri, out_o1; cbn [In]; auto 12).
  apply H in T. unfold is_tri, out_o2 in T. cbn [In] in T. decompose [or] T; try contradiction; discriminate.
Qed.

(** ** Four vertices on a circle *)
Definition lci : list (Z * Z) := [(10,6); (8,4); (10,10); (6,14); (0,0); (0,16); (16,16); (16,0)]%Z.
Definition cs_c1 : list edge := [Edge 4 5; Edge 5 6; Edge 6 7; Edge 7 4; Edge 0 4; Edge 2 5].
Definition cs_c2 : list edge := [Edge 4 5; Edge 5 6; Edge 6 7; Edge 7 4; Edge 2 5; Edge 0 4].
Definition dt_ci : list (N * N * N) :=
  [(3,4,5); (1,3,2); (1,4,3); (3,5,6); (2,6,7); (2,3,6); (1,7,4); (0,7,1); (0,2,7); (0,1,2)].
Definition out_c1 : list (N * N * N) :=
  [(5,3,2); (2,3,6); (2,6,7); (0,2,7); (0,7,1); (4,0,1); (1,7,4); (4,2,0); (5,2,4); (3,5,6)].
Definition out_c2 : list (N * N * N) :=
  [(5,3,2); (2,3,6); (2,6,7); (0,2,7); (0,7,1); (4,0,1); (1,7,4); (4,5,0); (5,2,0); (3,5,6)].

Lemma lci_dt : dt64 400 1 lci = Ret dt_ci.
Proof. vm_compute. reflexivity. Qed.

Lemma c_cdt1 : constrained_triangulation_from_2d_vertices (E := env64) 400 1 (pts lci) cs_c1 = Ret out_c1.
Proof. vm_compute. reflexivity. Qed.

Lemma c_cdt2 : constrained_triangulation_from_2d_vertices (E := env64) 400 1 (pts lci) cs_c2 = Ret out_c2.
Proof. vm_compute. reflexivity. Qed.

Lemma c_same e : In e cs_c1 <-> In e cs_c2.
Proof. unfold cs_c1, cs_c2. cbn [In]. tauto. Qed.

Lemma lci_grid64 : on_grid (E := env64) (pts lci) lci (2 ^ 40).
Proof.
  exists (sf_is 53 1024), (2 ^ 4)%Z, 0%Z, 0%Z.
  split; [apply (Grid_f64 u32_max 4); lia|]. split; [|split].
  - apply f2_map. intros p Hp. simpl in Hp.
    decompose [or] Hp; try contradiction; subst; vm_compute; repeat split; reflexivity.
  - unfold fits, lci. repeat split.
    1-4: simpl in H; intuition (subst; simpl; lia).
    + exists (0, 0)%Z. simpl. auto 12.
    + exists (0, 0)%Z. simpl. auto 12.
    + exists (16, 16)%Z. simpl. auto 12.
  - intros p Hp. simpl in Hp. decompose [or] Hp; try contradiction; subst; vm_compute; split; discriminate.
Qed.

Lemma lci_ids : 2 * lenN (pts lci) + 2 <= @idmax env64.
Proof. vm_compute. discriminate. Qed.

Lemma lci_box : Permutation [4; 7; 6; 5] [4; 4 + 1; 4 + 2; 4 + 3] /\
  box_corners (zpoint lci 4) (zpoint lci 7) (zpoint lci 6) (zpoint lci 5) /\
  forall v, v < 4 -> in_box (zpoint lci 4) (zpoint lci 6) (zpoint lci v).
Proof.
  split; [|split; [vm_compute; repeat split; try reflexivity; discriminate|]].
  - apply (NoDup_Permutation_bis); [|reflexivity|intros x; cbn [In]; lia].
    repeat constructor; cbn [In]; lia.
  - intros v Hv. assert (K : v = 0 \/ v = 1 \/ v = 2 \/ v = 3) by lia.
    decompose [or] K; subst v; vm_compute; repeat split; discriminate.
Qed.

Lemma c_noncrossing : noncrossing (zpoint lci) cs_c1.
Proof.
  intros r r' H H' (C1 & C2). cbn [cs_c1 In] in H, H'.
  decompose [or] H; try contradiction; subst r; decompose [or] H'; try contradiction; subst r';
    vm_compute in C1, C2; first [discriminate C1|discriminate C2].
Qed.

Lemma c_few e : In e cs_c1 -> crosses_at_most (zpoint lci) dt_ci 2 e.
Proof.
  intros He. exists (if edge_eqb e (Edge 2 5) then [(1, 3); (3, 4)] else if edge_eqb e (Edge 0 4) then [(1, 2); (1, 3)] else []).
  cbn [cs_c1 In] in He.
  decompose [or] He; try contradiction; subst e; cbn [edge_eqb efrom eto N.eqb Pos.eqb andb length];
    (split; [lia|]); intros a b c T (C1 & C2); unfold is_tri, dt_ci in T; cbn [In] in T;
    decompose [or] T; try contradiction;
    match goal with H : (_, _, _) = (_, _, _) |- _ => injection H as <- <- <- end;
    first [(vm_compute in C1; discriminate C1)|(vm_compute in C2; discriminate C2)|cbn [In]; auto].
Qed.

Lemma c_differ : ~ same_result out_c1 out_c2.
Proof.
  intros (H & _). assert (T : is_tri out_c1 4 2 0) by (unfold is_tri, out_c1; cbn [In]; auto 12).
  apply H in T. unfold is_tri, out_c2 in T. cbn [In] in T. decompose [or] T; try contradiction; discriminate.
Qed.
