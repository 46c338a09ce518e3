(** * WitnessDel: two constraints that cross two edges each, one of them common, of a triangulated box. *)

From Coq Require Import ZArith NArith List Bool QArith SpecFloat Lia Lqa Permutation.
From Verif Require Import Base Arith Types Utils Infinite Triangulation Constrained F64 Exact Spec DTOut GridSpec GridNum InputSpec GridApi GridCdt
  ApiProps Refuted Witness SpecBox WitnessBox SpecDomain.
Import ListNotations.
Local Open Scope N_scope.

Definition lfw : list (Z * Z) := [(8,1); (12,3); (10,4); (2,13); (4,15); (0,0); (0,16); (16,16); (16,0)]%Z.
Definition cs_fw : list edge := [Edge 5 6; Edge 6 7; Edge 7 8; Edge 8 5; Edge 0 7; Edge 4 5].
Definition dt_fw : list (N * N * N) :=
  [(3,6,4); (0,3,2); (0,5,3); (4,6,7); (3,5,6); (2,4,7); (0,2,1); (2,3,4); (1,7,8); (1,2,7); (0,8,5); (0,1,8)].

Lemma lfw_dt : dt64 500 1 lfw = Ret dt_fw.
Proof. vm_compute. reflexivity. Qed.

Definition out_fw : list (N * N * N) :=
  [(5,3,4); (3,6,4); (4,6,7); (7,0,4); (5,4,0); (0,8,5); (0,1,8); (1,7,8); (1,2,7); (7,2,0); (0,2,1); (3,5,6)].

Lemma lfw_cdt : constrained_triangulation_from_2d_vertices (E := env64) 500 1 (pts lfw) cs_fw = Ret out_fw.
Proof. vm_compute. reflexivity. Qed.

Lemma lfw_grid64 : on_grid (E := env64) (pts lfw) lfw (2 ^ 40).
Proof.
  exists (sf_is 53 1024), (2 ^ 4)%Z, 0%Z, 0%Z.
  split; [apply (Grid_f64 u32_max 4); lia|]. split; [|split].
  - apply f2_map. intros p Hp. simpl in Hp.
    decompose [or] Hp; try contradiction; subst; vm_compute; repeat split; reflexivity.
  - unfold fits, lfw. repeat split.
    1-4: simpl in H; intuition (subst; simpl; lia).
    + exists (0, 0)%Z. simpl. auto 12.
    + exists (0, 0)%Z. simpl. auto 12.
    + exists (16, 16)%Z. simpl. auto 12.
  - intros p Hp. simpl in Hp. decompose [or] Hp; try contradiction; subst; vm_compute; split; discriminate.
Qed.

Lemma lfw_ids : 2 * lenN (pts lfw) + 2 <= @idmax env64.
Proof. vm_compute. discriminate. Qed.

Lemma lfw_box : Permutation [5; 8; 7; 6] [5; 5 + 1; 5 + 2; 5 + 3] /\
  box_corners (zpoint lfw 5) (zpoint lfw 8) (zpoint lfw 7) (zpoint lfw 6) /\
  forall v, v < 5 -> in_box (zpoint lfw 5) (zpoint lfw 7) (zpoint lfw v).
Proof.
  split; [|split; [vm_compute; repeat split; try reflexivity; discriminate|]].
  - apply (NoDup_Permutation_bis); [|reflexivity|intros x; cbn [In]; lia].
    repeat constructor; cbn [In]; lia.
  - intros v Hv. assert (K : v = 0 \/ v = 1 \/ v = 2 \/ v = 3 \/ v = 4) by lia.
    decompose [or] K; subst v; vm_compute; repeat split; discriminate.
Qed.

Lemma lfw_noncrossing : noncrossing (zpoint lfw) cs_fw.
Proof.
  intros r r' H H' (C1 & C2). cbn [cs_fw In] in H, H'.
  decompose [or] H; try contradiction; subst r; decompose [or] H'; try contradiction; subst r';
    vm_compute in C1, C2; first [discriminate C1|discriminate C2].
Qed.

Lemma lfw_few e : In e cs_fw -> crosses_at_most (zpoint lfw) dt_fw 2 e.
Proof.
  intros He. exists (if edge_eqb e (Edge 0 7) then [(2, 4); (2, 3)] else if edge_eqb e (Edge 4 5) then [(0, 3); (2, 3)] else []).
  cbn [cs_fw In] in He.
  decompose [or] He; try contradiction; subst e; cbn [edge_eqb efrom eto N.eqb Pos.eqb andb length];
    (split; [lia|]); intros a b c T (C1 & C2); unfold is_tri, dt_fw in T; cbn [In] in T;
    decompose [or] T; try contradiction;
    match goal with H : (_, _, _) = (_, _, _) |- _ => injection H as <- <- <- end;
    first [(vm_compute in C1; discriminate C1)|(vm_compute in C2; discriminate C2)|cbn [In]; auto].
Qed.

(** An edge of both triangulations between two triangles of the constrained one, of which one
    is new. *)
Lemma lfw_shared : is_tri out_fw 0 2 1 /\ is_tri out_fw 2 0 7 /\ edge_of (zpoint lfw) dt_fw (Edge 0 2).
Proof.
  split; [unfold is_tri, out_fw; cbn [In]; auto 20|]. split; [unfold is_tri, out_fw; cbn [In]; auto 20|].
  exists 0, 2, 1. split; [unfold is_tri, dt_fw; cbn [In]; auto 20|]. left. split; split; reflexivity.
Qed.
