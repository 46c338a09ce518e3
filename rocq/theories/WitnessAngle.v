(** * WitnessAngle: inputs for the claims on angles, edges and one more vertex. *)

From Coq Require Import ZArith NArith List Bool QArith SpecFloat Lia Lqa Permutation Reals.
From Verif Require Import Base Arith Types Utils Infinite Triangulation Constrained F64 Exact Spec DTOut GridSpec GridNum InputSpec GridApi
  ApiProps Refuted Witness SpecBox WitnessBox SpecDomain SpecUnique WitnessUnique SpecVisible WitnessDel WitnessOrder WitnessCExact SpecAngle AngleR.
Import ListNotations.
Local Open Scope N_scope.

(** ** Checking that a list triangulates an area *)
Definition in_b (a b c p : point) : bool :=
  Qle_bool (orient a b p) 0 && Qle_bool (orient b c p) 0 && Qle_bool (orient c a p) 0.

Definition rt_b (at_ : N -> point) (ids : list N) (T : list (N * N * N)) : bool :=
  forallb (fun t => let '(a, b, c) := t in
    existsb (N.eqb a) ids && existsb (N.eqb b) ids && existsb (N.eqb c) ids && cw_b (at_ a) (at_ b) (at_ c) &&
    forallb (fun v => negb (in_b (at_ a) (at_ b) (at_ c) (at_ v)) || sp_b (at_ a) (at_ v) || sp_b (at_ b) (at_ v) || sp_b (at_ c) (at_ v)) ids) T.

Lemma sp_b_inv a b : sp_b a b = true -> same_place a b.
Proof. unfold sp_b. rewrite andb_true_iff, !Qeq_bool_iff. auto. Qed.

Lemma rt_ok at_ n ids out T : (forall v, v < n <-> In v ids) -> rt_b at_ ids T = true ->
  (forall p, covered at_ out p -> covered at_ T p) -> retriangulates at_ n out T.
Proof.
  intros I H Cv.
  assert (Mem : forall x, existsb (N.eqb x) ids = true -> x < n).
  { intros x K. apply existsb_exists in K. destruct K as (y & Hy & K). apply N.eqb_eq in K. subst y. now apply I. }
  assert (K : forall a b c, In (a, b, c) T -> (a < n /\ b < n /\ c < n) /\ clockwise (at_ a) (at_ b) (at_ c) /\
    forall v, v < n -> inside_or_on (at_ a) (at_ b) (at_ c) (at_ v) -> exists w, tri_corner (a, b, c) w /\ same_place (at_ w) (at_ v)).
  { intros a b c Ht. unfold rt_b in H. rewrite forallb_forall in H. specialize (H _ Ht). cbn beta iota in H.
    rewrite !andb_true_iff in H. destruct H as ((((H1 & H2) & H3) & H4) & H5).
    split; [auto|]. split; [apply cw_b_inv; auto|]. intros v Lv (V1 & V2 & V3). rewrite forallb_forall in H5. apply I in Lv. specialize (H5 v Lv).
    assert (Ib : in_b (at_ a) (at_ b) (at_ c) (at_ v) = true).
    { unfold in_b. apply Qle_bool_iff in V1, V2, V3. now rewrite V1, V2, V3. }
    rewrite Ib in H5. cbn [negb orb] in H5. rewrite !orb_true_iff in H5.
    destruct H5 as [[H5|H5]|H5]; apply sp_b_inv in H5; eexists; (split; [|exact H5]); cbn; auto. }
  constructor; auto.
  - intros a b c Ht. now apply K.
  - intros ((a, b), c) Ht. now apply K.
  - intros ((a, b), c) v Ht Lv Iv. now apply (K a b c).
Qed.

(** ** The result with a constraint triangulates the area of the one without *)
Lemma lcx_place : (zpoint lcx 0 = (3, 8) /\ zpoint lcx 1 = (13, 9) /\ zpoint lcx 2 = (7, 2) /\ zpoint lcx 3 = (9, 14) /\
  zpoint lcx 4 = (0, 0) /\ zpoint lcx 5 = (0, 16) /\ zpoint lcx 6 = (16, 16) /\ zpoint lcx 7 = (16, 0))%Q.
Proof. repeat split; reflexivity. Qed.

Lemma lcx_rt : retriangulates (zpoint lcx) 8 dt_cx out_cx.
Proof.
  apply (rt_ok _ _ [0; 1; 2; 3; 4; 5; 6; 7]); [intros v; cbn [In]; lia|vm_compute; reflexivity|].
  destruct lcx_place as (P0 & P1 & P2 & P3 & P4 & P5 & P6 & P7).
  intros p (t & Ht & It). cbn [dt_cx In] in Ht.
  decompose [or] Ht; try contradiction; subst t;
  try (match type of It with tri_inside_or_on _ ?t0 _ =>
    solve [exists t0; split; [cbn [out_cx In]; auto 20|exact It]] end).
  - destruct It as (I1 & I2 & I3). rewrite ?P0, ?P1, ?P2, ?P3 in *. unfold orient in *. cbn [fst snd] in *.
    destruct (Qlt_le_dec ((9 - 7) * (snd p - 2) - (14 - 2) * (fst p - 7)) 0) as [K|K].
    + exists (3, 1, 2). split; [cbn [out_cx In]; auto 20|]. unfold tri_inside_or_on, inside_or_on. rewrite ?P1, ?P2, ?P3.
      unfold orient. cbn [fst snd]. repeat split; lra.
    + exists (3, 2, 0). split; [cbn [out_cx In]; auto 20|]. unfold tri_inside_or_on, inside_or_on. rewrite ?P0, ?P2, ?P3.
      unfold orient. cbn [fst snd]. repeat split; lra.
  - destruct It as (I1 & I2 & I3). rewrite ?P0, ?P1, ?P2, ?P3 in *. unfold orient in *. cbn [fst snd] in *.
    destruct (Qlt_le_dec ((9 - 7) * (snd p - 2) - (14 - 2) * (fst p - 7)) 0) as [K|K].
    + exists (3, 1, 2). split; [cbn [out_cx In]; auto 20|]. unfold tri_inside_or_on, inside_or_on. rewrite ?P1, ?P2, ?P3.
      unfold orient. cbn [fst snd]. repeat split; lra.
    + exists (3, 2, 0). split; [cbn [out_cx In]; auto 20|]. unfold tri_inside_or_on, inside_or_on. rewrite ?P0, ?P2, ?P3.
      unfold orient. cbn [fst snd]. repeat split; lra.
Qed.

(** Another triangulation with the constraint. *)
Definition alt_cx : list (N * N * N) :=
  [(3,1,2); (1,7,2); (2,7,4); (3,2,4); (0,4,5); (0,5,3); (3,4,0); (3,5,6); (1,3,6); (1,6,7)].

Lemma lcx_rt2 : retriangulates (zpoint lcx) 8 out_cx alt_cx.
Proof.
  apply (rt_ok _ _ [0; 1; 2; 3; 4; 5; 6; 7]); [intros v; cbn [In]; lia|vm_compute; reflexivity|].
  destruct lcx_place as (P0 & P1 & P2 & P3 & P4 & P5 & P6 & P7).
  intros p (t & Ht & It). cbn [out_cx In] in Ht.
  decompose [or] Ht; try contradiction; subst t;
  try (match type of It with tri_inside_or_on _ ?t0 _ =>
    solve [exists t0; split; [cbn [alt_cx In]; auto 20|exact It]] end).
  all: destruct It as (I1 & I2 & I3); rewrite ?P0, ?P2, ?P3, ?P4 in *; unfold orient in *; cbn [fst snd] in *;
    destruct (Qlt_le_dec ((9 - 0) * (snd p - 0) - (14 - 0) * (fst p - 0)) 0) as [K|K];
    [exists (3, 2, 4)|exists (3, 4, 0)]; (split; [cbn [alt_cx In]; auto 20|]); unfold tri_inside_or_on, inside_or_on; rewrite ?P0, ?P2, ?P3, ?P4;
      unfold orient; cbn [fst snd]; repeat split; lra.
Qed.

Lemma lcx_free t p : In t alt_cx -> tri_inside (zpoint lcx) t p -> ~ on_constraint (zpoint lcx) cs_cx p.
Proof.
  intros Ht It (e & k & He & _ & Hk & (S1 & S2)).
  destruct lcx_place as (P0 & P1 & P2 & P3 & P4 & P5 & P6 & P7).
  cbn [alt_cx In] in Ht. decompose [or] Ht; try contradiction; subst t; destruct It as (I1 & I2 & I3);
    cbn [cs_cx In] in He; decompose [or] He; try contradiction; subst e; cbn [efrom eto] in *;
    rewrite ?P0, ?P1, ?P2, ?P3, ?P4, ?P5, ?P6, ?P7 in *; unfold along in S1, S2; unfold orient in *; cbn [fst snd] in *; lra.
Qed.

(** The vertex 2 is the closest one to vertex 0. *)
Lemma lcx_closest : closest_across (zpoint lcx) 8 (N.eqb 0) 0 2.
Proof.
  split; [reflexivity|]. split; [reflexivity|]. intros u v _ Lv Hu Hv. apply N.eqb_eq in Hu. subst u.
  assert (K : v = 0 \/ v = 1 \/ v = 2 \/ v = 3 \/ v = 4 \/ v = 5 \/ v = 6 \/ v = 7) by lia.
  decompose [or] K; subst v; try discriminate Hv; vm_compute; discriminate.
Qed.

Lemma lcx_empty4 : no_empty_circle_of_four (zpoint lcx) 8.
Proof. apply (gp_ok _ _ [0; 1; 2; 3; 4; 5; 6; 7]); [intros v; cbn [In]; lia|]. vm_compute. reflexivity. Qed.

(** ** Without the vertex 2 *)
Definition lcy : list (Z * Z) := [(3,8); (13,9); (9,14); (0,0); (0,16); (16,16); (16,0)]%Z.

Lemma lcy_grid64 : on_grid (E := env64) (pts lcy) lcy (2 ^ 40).
Proof.
  exists (sf_is 53 1024), (2 ^ 4)%Z, 0%Z, 0%Z.
  split; [apply (Grid_f64 u32_max 4); lia|]. split; [|split].
  - apply f2_map. intros p Hp. simpl in Hp.
    decompose [or] Hp; try contradiction; subst; vm_compute; repeat split; reflexivity.
  - unfold fits, lcy. repeat split.
    1-4: simpl in H; intuition (subst; simpl; lia).
    + exists (0, 0)%Z. simpl. auto 12.
    + exists (0, 0)%Z. simpl. auto 12.
    + exists (16, 16)%Z. simpl. auto 12.
  - intros p Hp. simpl in Hp. decompose [or] Hp; try contradiction; subst; vm_compute; split; discriminate.
Qed.

Lemma lcy_ids : 2 * lenN (pts lcy) + 2 <= @idmax env64.
Proof. vm_compute. discriminate. Qed.

Lemma lcy_box : Permutation [3; 6; 5; 4] [3; 3 + 1; 3 + 2; 3 + 3] /\
  box_corners (zpoint lcy 3) (zpoint lcy 6) (zpoint lcy 5) (zpoint lcy 4) /\
  forall v, v < 3 -> in_box (zpoint lcy 3) (zpoint lcy 5) (zpoint lcy v).
Proof.
  split; [|split; [vm_compute; repeat split; try reflexivity; discriminate|]].
  - apply (NoDup_Permutation_bis); [|reflexivity|intros x; cbn [In]; lia].
    repeat constructor; cbn [In]; lia.
  - intros v Hv. assert (K : v = 0 \/ v = 1 \/ v = 2) by lia.
    decompose [or] K; subst v; vm_compute; repeat split; discriminate.
Qed.

Lemma lcy_empty4 : no_empty_circle_of_four (zpoint lcy) 7.
Proof. apply (gp_ok _ _ [0; 1; 2; 3; 4; 5; 6]); [intros v; cbn [In]; lia|]. vm_compute. reflexivity. Qed.

Lemma lcy_more : one_more_point (zpoint lcy) (zpoint lcx) 7 8 (zpoint lcx 2).
Proof.
  split; [|split].
  - intros v Lv. exists (if v <? 2 then v else v + 1).
    assert (K : v = 0 \/ v = 1 \/ v = 2 \/ v = 3 \/ v = 4 \/ v = 5 \/ v = 6) by lia.
    decompose [or] K; subst v; (split; [reflexivity|split; reflexivity]).
  - exists 2. split; [reflexivity|split; reflexivity].
  - intros u Lu. destruct (N.eq_dec u 2) as [->|Nu]; [left; split; reflexivity|right].
    exists (if u <? 2 then u else u - 1).
    assert (K : u = 0 \/ u = 1 \/ u = 3 \/ u = 4 \/ u = 5 \/ u = 6 \/ u = 7) by lia.
    decompose [or] K; subst u; (split; [reflexivity|split; reflexivity]).
Qed.

(** ** A result that does not have the widest angles *)
Definition lnw : list (Z * Z) := [(1,26); (2,7); (7,17); (5,9)]%Z.
Definition out_nw : list (N * N * N) := [(0,2,3); (0,3,1)].
Definition alt_nw : list (N * N * N) := [(0,2,1); (2,3,1)].

Lemma lnw_dt : dt64 100 1 lnw = Ret out_nw.
Proof. vm_compute. reflexivity. Qed.

Lemma lnw_rt : retriangulates (zpoint lnw) 4 out_nw alt_nw.
Proof.
  apply (rt_ok _ _ [0; 1; 2; 3]); [intros v; cbn [In]; lia|vm_compute; reflexivity|].
  assert (P0 : zpoint lnw 0 = (1, 26)%Q) by reflexivity. assert (P1 : zpoint lnw 1 = (2, 7)%Q) by reflexivity.
  assert (P2 : zpoint lnw 2 = (7, 17)%Q) by reflexivity. assert (P3 : zpoint lnw 3 = (5, 9)%Q) by reflexivity.
  intros p (t & Ht & It). cbn [out_nw In] in Ht. decompose [or] Ht; try contradiction; subst t; destruct It as (I1 & I2 & I3);
    rewrite ?P0, ?P1, ?P2, ?P3 in *; unfold orient in *; cbn [fst snd] in *;
    destruct (Qlt_le_dec ((7 - 2) * (snd p - 7) - (17 - 7) * (fst p - 2)) 0) as [K|K];
    [exists (2, 3, 1)|exists (0, 2, 1)|exists (2, 3, 1)|exists (0, 2, 1)]; (split; [cbn [alt_nw In]; auto|]); unfold tri_inside_or_on, inside_or_on;
    rewrite ?P0, ?P1, ?P2, ?P3; unfold orient; cbn [fst snd]; repeat split; lra.
Qed.

Lemma lnw_wide : angles_at_least (zpoint lnw) alt_nw (angle (zpoint lnw 1) (zpoint lnw 2) (zpoint lnw 3)).
Proof.
  intros a b c Ht. unfold is_tri, alt_nw in Ht. cbn [In] in Ht. decompose [or] Ht; try contradiction;
    match goal with H : (_, _, _) = (_, _, _) |- _ => injection H as <- <- <- end;
    (apply angle_le; [vm_compute; reflexivity..|vm_compute; discriminate]).
Qed.

Lemma lnw_narrow : ~ angles_at_least (zpoint lnw) out_nw (angle (zpoint lnw 1) (zpoint lnw 2) (zpoint lnw 3)).
Proof.
  intros H. specialize (H 1 0 3). assert (T : is_tri out_nw 1 0 3) by (unfold is_tri, out_nw; cbn [In]; auto 10).
  specialize (H T). revert H. apply Rlt_not_le. apply angle_lt; vm_compute; reflexivity.
Qed.

(** ** Three vertices without a triangle, and with one more vertex *)
Definition lfl : list (Z * Z) := [(-5,-1); (1,5); (0,0)]%Z.
Definition lfl2 : list (Z * Z) := [(-5,-1); (1,5); (0,0); (-10,-10)]%Z.

Lemma lfl_dt : dt64 100 1 lfl = Ret [] /\ dt64 100 1 lfl2 = Ret [(0, 2, 3); (0, 1, 2)].
Proof. split; vm_compute; reflexivity. Qed.

Lemma lfl_closest : closest_across (zpoint lfl) 3 (N.eqb 2) 2 0 /\ ~ same_place (zpoint lfl 2) (zpoint lfl 0) /\ ~ joined (zpoint lfl) [] 2 0.
Proof.
  split; [|split].
  - split; [reflexivity|]. split; [reflexivity|]. intros u v _ Lv Hu Hv. apply N.eqb_eq in Hu. subst u.
    assert (K : v = 0 \/ v = 1 \/ v = 2) by lia. decompose [or] K; subst v; try discriminate Hv; vm_compute; discriminate.
  - intros (H & _). vm_compute in H. discriminate.
  - intros (x & y & z & [H|[H|H]] & _); destruct H.
Qed.

Lemma lfl_more : one_more_point (zpoint lfl) (zpoint lfl2) 3 4 (zpoint lfl2 3).
Proof.
  split; [|split].
  - intros v Lv. exists v. assert (K : v = 0 \/ v = 1 \/ v = 2) by lia. decompose [or] K; subst v; (split; [reflexivity|split; reflexivity]).
  - exists 3. split; [reflexivity|split; reflexivity].
  - intros u Lu. assert (K : u = 3 \/ u = 0 \/ u = 1 \/ u = 2) by lia.
    destruct K as [->|K]; [left; split; reflexivity|right]. exists u.
    decompose [or] K; subst u; (split; [reflexivity|split; reflexivity]).
Qed.

Lemma lfl_new : triangle_at (zpoint lfl2) [(0, 2, 3); (0, 1, 2)] 0 1 2 /\ ~ triangle_at (zpoint lfl) [] 0 1 2.
Proof.
  split.
  - exists (0, 1, 2). split; [cbn; auto|]. left. repeat split; reflexivity.
  - intros (t & [] & _).
Qed.

Lemma lfl_prefix v : v < 3 -> zpoint lfl v = zpoint lfl2 v.
Proof. intros Hv. assert (K : v = 0 \/ v = 1 \/ v = 2) by lia. decompose [or] K; subst v; reflexivity. Qed.
