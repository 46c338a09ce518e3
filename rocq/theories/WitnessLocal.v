(** * WitnessLocal: a constrained triangulation without rounding that is not constrained Delaunay;
    a triangle not touched by the constraints. *)

From Coq Require Import ZArith NArith List Bool QArith SpecFloat Lia Lqa Permutation.
From Verif Require Import Base Arith Types Utils Infinite Triangulation Constrained F64 Exact Spec DTOut GridSpec GridNum InputSpec GridApi GridCdt
  ApiProps Refuted Witness SpecBox WitnessBox SpecDomain.
Import ListNotations.
Local Open Scope N_scope.

(** Three vertices in a square, whose sides and one diagonal are constrained. *)
Definition lnd : list (Z * Z) := [(10,13); (6,15); (15,7); (0,0); (0,16); (16,16); (16,0)]%Z.
Definition cs_nd : list edge := [Edge 3 4; Edge 4 5; Edge 5 6; Edge 6 3; Edge 4 6].
Definition out_nd : list (N * N * N) :=
  [(6,3,4); (2,5,6); (6,1,2); (2,1,0); (0,5,2); (0,1,5); (1,4,5); (6,4,1)].

Lemma lnd_grid64 : on_grid (E := env64) (pts lnd) lnd (2 ^ 40).
Proof.
  exists (sf_is 53 1024), (2 ^ 4)%Z, 0%Z, 0%Z.
  split; [apply (Grid_f64 u32_max 4); lia|]. split; [|split].
  - apply f2_map. intros p Hp. simpl in Hp.
    decompose [or] Hp; try contradiction; subst; vm_compute; repeat split; reflexivity.
  - unfold fits, lnd. repeat split.
    1-4: simpl in H; intuition (subst; simpl; lia).
    + exists (0, 0)%Z. simpl. auto 12.
    + exists (0, 0)%Z. simpl. auto 12.
    + exists (16, 16)%Z. simpl. auto 12.
  - intros p Hp. simpl in Hp. decompose [or] Hp; try contradiction; subst; vm_compute; split; discriminate.
Qed.

Lemma lnd_cdt : constrained_triangulation_from_2d_vertices (E := env64) 400 1 (pts lnd) cs_nd = Ret out_nd.
Proof. vm_compute. reflexivity. Qed.

Lemma lnd_not_delaunay : ~ constrained_delaunay (zpoint lnd) cs_nd out_nd.
Proof.
  intros H. destruct (H 1 2 6 0) as (e & He & Se).
  - unfold is_tri, out_nd. cbn [In]. auto 12.
  - unfold is_tri, out_nd. cbn [In]. auto 12.
  - exists (47 # 22, 35 # 22)%Q. unfold sqdist, zpoint. vm_compute. split; [reflexivity|]. split; reflexivity.
  - cbn [cs_nd In] in He.
    decompose [or] He; try contradiction; subst e; vm_compute in Se; 
      destruct Se as [((A1 & A2) & A3 & A4)|((A1 & A2) & A3 & A4)]; try discriminate A1; try discriminate A2; try discriminate A3; discriminate A4.
Qed.

Definition dt_nd : list (N * N * N) :=
  [(1,3,4); (2,6,3); (2,5,6); (0,2,3); (1,4,5); (0,3,1); (0,5,2); (0,1,5)].

Lemma lnd_dt : dt64 400 1 lnd = Ret dt_nd.
Proof. vm_compute. reflexivity. Qed.

Lemma lnd_ids : 2 * lenN (pts lnd) + 2 <= @idmax env64.
Proof. vm_compute. discriminate. Qed.

(** A changed triangle and an unchanged one. *)
Lemma lnd_overlap :
  In (6, 1, 2) out_nd /\ In (0, 2, 3) dt_nd /\
  strictly_inside (zpoint lnd 6) (zpoint lnd 1) (zpoint lnd 2) (12, 8)%Q /\
  strictly_inside (zpoint lnd 0) (zpoint lnd 2) (zpoint lnd 3) (12, 8)%Q.
Proof.
  split; [cbn; auto 12|]. split; [cbn; auto 12|]. unfold strictly_inside, clockwise, orient, zpoint. vm_compute. repeat split.
Qed.

Lemma lnd_far :
  In (1, 4, 5) out_nd /\ In (1, 4, 5) dt_nd /\
  strictly_inside (zpoint lnd 1) (zpoint lnd 4) (zpoint lnd 5) (7, 31 # 2)%Q /\
  (forall e s, In e cs_nd -> (0 < s < 1)%Q ->
     ~ strictly_inside (zpoint lnd 1) (zpoint lnd 4) (zpoint lnd 5) (along (zpoint lnd (efrom e)) (zpoint lnd (eto e)) s)).
Proof.
  split; [cbn; auto 12|]. split; [cbn; auto 12|]. split; [vm_compute; repeat split|].
  assert (P1 : zpoint lnd 1 = (6, 15)%Q) by reflexivity. assert (P3 : zpoint lnd 3 = (0, 0)%Q) by reflexivity.
  assert (P4 : zpoint lnd 4 = (0, 16)%Q) by reflexivity. assert (P5 : zpoint lnd 5 = (16, 16)%Q) by reflexivity.
  assert (P6 : zpoint lnd 6 = (16, 0)%Q) by reflexivity.
  intros e s He Hs (A & B & C). cbn [cs_nd In] in He.
  decompose [or] He; try contradiction; subst e; cbn [efrom eto] in *;
    rewrite ?P1, ?P3, ?P4, ?P5, ?P6 in *; unfold orient, along in A, B, C; cbn [fst snd] in A, B, C; lra.
Qed.

Lemma lnd_box : Permutation [3; 6; 5; 4] [3; 3 + 1; 3 + 2; 3 + 3] /\
  box_corners (zpoint lnd 3) (zpoint lnd 6) (zpoint lnd 5) (zpoint lnd 4) /\
  forall v, v < 3 -> in_box (zpoint lnd 3) (zpoint lnd 5) (zpoint lnd v).
Proof.
  split; [|split; [vm_compute; repeat split; try reflexivity; discriminate|]].
  - apply (NoDup_Permutation_bis); [|reflexivity|intros x; cbn [In]; lia].
    repeat constructor; cbn [In]; lia.
  - intros v Hv. assert (K : v = 0 \/ v = 1 \/ v = 2) by lia.
    decompose [or] K; subst v; vm_compute; repeat split; discriminate.
Qed.

(** The diagonal crosses three edges, the sides none. *)
Lemma lnd_noncrossing : noncrossing (zpoint lnd) cs_nd.
Proof.
  intros r r' H H' (C1 & C2). cbn [cs_nd In] in H, H'.
  decompose [or] H; try contradiction; subst r; decompose [or] H'; try contradiction; subst r';
    vm_compute in C1, C2; first [discriminate C1|discriminate C2].
Qed.

Lemma lnd_three e : In e cs_nd -> crosses_at_most (zpoint lnd) dt_nd 3 e.
Proof.
  intros He. exists (if edge_eqb e (Edge 4 6) then [(1, 3); (0, 3); (2, 3)] else []).
  cbn [cs_nd In] in He.
  decompose [or] He; try contradiction; subst e; cbn [edge_eqb efrom eto N.eqb Pos.eqb andb length];
    (split; [lia|]); intros a b c T (C1 & C2); unfold is_tri, dt_nd in T; cbn [In] in T;
    decompose [or] T; try contradiction;
    match goal with H : (_, _, _) = (_, _, _) |- _ => injection H as <- <- <- end;
    first [(vm_compute in C1; discriminate C1)|(vm_compute in C2; discriminate C2)|cbn [In]; auto].
Qed.
