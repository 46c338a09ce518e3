(** * WitnessUnique: the points of [lbox] in another order, in binary32. *)

From Coq Require Import ZArith NArith List Bool QArith SpecFloat Lia Lqa Permutation.
From Verif Require Import Base BaseFacts Arith Types Utils Infinite Triangulation F64 Exact Spec DTOut GridSpec GridNum InputSpec GridApi
  GridCdt ApiProps Refuted Witness SpecBox WitnessBox SpecUnique Unique.
Import ListNotations.
Local Open Scope N_scope.

(** For a point [o] equidistant from [a], [b], [c], the in-circle determinant is the power of [d]. *)
Lemma incircle_power a b c d o : (sqdist o a == sqdist o b -> sqdist o b == sqdist o c ->
  qincircle a b c d == (sqdist o a - sqdist o d) * orient a b c)%Q.
Proof.
  intros A B.
  assert (K : (qincircle a b c d ==
    (fst a - fst d) * ((snd b - snd d) * (sqdist o c - sqdist o d) - (snd c - snd d) * (sqdist o b - sqdist o d))
    - (snd a - snd d) * ((fst b - fst d) * (sqdist o c - sqdist o d) - (fst c - fst d) * (sqdist o b - sqdist o d))
    + (sqdist o a - sqdist o d) * ((fst b - fst d) * (snd c - snd d) - (fst c - fst d) * (snd b - snd d)))%Q)
    by (unfold qincircle, sqdist; ring).
  rewrite K, <- B, <- A. unfold orient. ring.
Qed.

Definition gp_b (at_ : N -> point) (ids : list N) : bool :=
  forallb (fun a => forallb (fun b => forallb (fun c =>
    Qeq_bool (orient (at_ a) (at_ b) (at_ c)) 0 ||
    existsb (fun v => negb (Qle_bool (qincircle (at_ a) (at_ b) (at_ c) (at_ v) * orient (at_ a) (at_ b) (at_ c)) 0)) ids ||
    forallb (fun d =>
      (Qeq_bool (fst (at_ d)) (fst (at_ a)) && Qeq_bool (snd (at_ d)) (snd (at_ a))) ||
      (Qeq_bool (fst (at_ d)) (fst (at_ b)) && Qeq_bool (snd (at_ d)) (snd (at_ b))) ||
      (Qeq_bool (fst (at_ d)) (fst (at_ c)) && Qeq_bool (snd (at_ d)) (snd (at_ c))) ||
      negb (Qeq_bool (qincircle (at_ a) (at_ b) (at_ c) (at_ d)) 0)) ids) ids) ids) ids.

Lemma gp_ok at_ n ids : (forall v, v < n <-> In v ids) -> gp_b at_ ids = true -> no_empty_circle_of_four at_ n.
Proof.
  intros I H a b c d La Lb Lc Ld Or Na Nb Nc (o & O1 & O2 & O3).
  assert (P : forall v, v < n -> In v ids) by (intros v; apply I).
  unfold gp_b in H. rewrite forallb_forall in H. specialize (H a (P a La)).
  rewrite forallb_forall in H. specialize (H b (P b Lb)). rewrite forallb_forall in H. specialize (H c (P c Lc)).
  apply orb_true_iff in H. destruct H as [H|H].
  - apply orb_true_iff in H. destruct H as [H|H]; [apply Qeq_bool_iff in H; contradiction|].
    apply existsb_exists in H. destruct H as (v & Hv & H). exists v. split; [now apply I|].
    apply negb_true_iff in H. exists o. split; [exact O1|split; [exact O2|]].
    apply Qnot_le_lt. intros F. assert (T : Qle_bool (qincircle (at_ a) (at_ b) (at_ c) (at_ v) * orient (at_ a) (at_ b) (at_ c)) 0 = true); [|congruence].
    apply Qle_bool_iff. rewrite (incircle_power _ _ _ (at_ v) o O1 O2).
    set (W := orient (at_ a) (at_ b) (at_ c)) in *.
    assert (0 <= (sqdist o (at_ v) - sqdist o (at_ a)) * (W * W))%Q.
    { apply Qmult_le_0_compat; [lra|]. nra. }
    lra.
  - exfalso. rewrite forallb_forall in H. specialize (H d (P d Ld)).
    rewrite !orb_true_iff, !andb_true_iff, !Qeq_bool_iff, negb_true_iff in H.
    destruct H as [[[H|H]|H]|H]; [now apply Na|now apply Nb|now apply Nc|].
    assert (T : Qeq_bool (qincircle (at_ a) (at_ b) (at_ c) (at_ d)) 0 = true); [|congruence].
    apply Qeq_bool_iff. rewrite (incircle_power _ _ _ (at_ d) o O1 O2), O3. ring.
Qed.

Lemma lbox_general : no_empty_circle_of_four (zpoint lbox) 10.
Proof.
  apply (gp_ok _ _ [0; 1; 2; 3; 4; 5; 6; 7; 8; 9]); [intros v; cbn [In]; lia|]. vm_compute. reflexivity.
Qed.

(** Another order, no duplicates. *)
Definition lmix : list (Z * Z) := [(17,0); (5,12); (20,9); (3,4); (0,16); (32,0); (0,0); (32,16)]%Z.
Definition pts32 (l : list (Z * Z)) := map (fun p => (sf_of_Z 24 128 (fst p), sf_of_Z 24 128 (snd p))) l.

Lemma lmix_grid32 : on_grid (E := env32) (pts32 lmix) lmix (2 ^ 13).
Proof.
  exists (sf_is 24 128), (2 ^ 5)%Z, 0%Z, 0%Z.
  split; [apply (Grid_f32 u32_max 5); lia|]. split; [|split].
  - apply f2_map. intros p Hp. simpl in Hp.
    decompose [or] Hp; try contradiction; subst; vm_compute; repeat split; reflexivity.
  - unfold fits, lmix. repeat split.
    1-4: simpl in H; intuition (subst; simpl; lia).
    + exists (0, 0)%Z. simpl. auto 12.
    + exists (0, 0)%Z. simpl. auto 12.
    + exists (32, 16)%Z. simpl. auto 12.
  - intros p Hp. simpl in Hp. decompose [or] Hp; try contradiction; subst; vm_compute; split; discriminate.
Qed.

Lemma lmix_ids : 2 * lenN (pts32 lmix) + 2 <= @idmax env32.
Proof. vm_compute. discriminate. Qed.

Lemma lmix_corners : Permutation [6; 5; 7; 4] [4; 4 + 1; 4 + 2; 4 + 3] /\
  box_corners (zpoint lmix 6) (zpoint lmix 5) (zpoint lmix 7) (zpoint lmix 4).
Proof.
  split; [|vm_compute; repeat split; try reflexivity; discriminate].
  apply (NoDup_Permutation_bis); [|reflexivity|intros x; cbn [In]; lia].
  repeat constructor; cbn [In]; lia.
Qed.

Lemma lmix_inside v : v < 4 -> in_box (zpoint lmix 6) (zpoint lmix 7) (zpoint lmix v).
Proof.
  intros H. assert (K : v = 0 \/ v = 1 \/ v = 2 \/ v = 3) by lia.
  decompose [or] K; subst v; vm_compute; repeat split; discriminate.
Qed.

Lemma lmix_same : same_points (zpoint lbox) (zpoint lmix) 10 8.
Proof.
  split.
  - intros v H. assert (K : v = 0 \/ v = 1 \/ v = 2 \/ v = 3 \/ v = 4 \/ v = 5 \/ v = 6 \/ v = 7 \/ v = 8 \/ v = 9) by lia.
    decompose [or] K; subst v; [exists 3|exists 7|exists 1|exists 3|exists 2|exists 0|exists 7|exists 6|exists 4|exists 5];
      (split; [lia|vm_compute; split; reflexivity]).
  - intros v H. assert (K : v = 0 \/ v = 1 \/ v = 2 \/ v = 3 \/ v = 4 \/ v = 5 \/ v = 6 \/ v = 7) by lia.
    decompose [or] K; subst v; [exists 5|exists 2|exists 4|exists 0|exists 8|exists 9|exists 7|exists 6];
      (split; [lia|vm_compute; split; reflexivity]).
Qed.

(** The two results have nine triangles. *)
Lemma lmix_dt : exists o1 o2, triangulation_from_2d_vertices (E := env64) 100 1 (pts lbox) = Ret o1 /\
  triangulation_from_2d_vertices (E := env32) 100 1 (pts32 lmix) = Ret o2 /\ length o1 = 9%nat /\ length o2 = 9%nat.
Proof. eexists. eexists. split; [vm_compute; reflexivity|split; [vm_compute; reflexivity|split; reflexivity]]. Qed.

(** Three vertices in two orders: one triangle, no triangle. *)
Definition lord1 : list (Z * Z) := [(0,0); (1,1); (2,4)]%Z.
Definition lord2 : list (Z * Z) := [(0,0); (2,4); (1,1)]%Z.

Lemma lord_grid l : l = lord1 \/ l = lord2 -> on_grid (E := env64) (pts l) l (2 ^ 40).
Proof.
  intros Hl. exists (sf_is 53 1024), (2 ^ 2)%Z, 0%Z, 0%Z.
  split; [apply (Grid_f64 u32_max 2); lia|]. split; [|split].
  - apply f2_map. intros p Hp. destruct Hl as [-> | ->]; simpl in Hp;
      decompose [or] Hp; try contradiction; subst; vm_compute; repeat split; reflexivity.
  - unfold fits. repeat split.
    1-4: destruct Hl as [-> | ->]; simpl in H; intuition (subst; simpl; lia).
    + exists (0, 0)%Z. destruct Hl as [-> | ->]; simpl; auto.
    + exists (0, 0)%Z. destruct Hl as [-> | ->]; simpl; auto.
    + exists (2, 4)%Z. destruct Hl as [-> | ->]; simpl; auto.
  - intros p Hp. destruct Hl as [-> | ->]; simpl in Hp; decompose [or] Hp; try contradiction; subst; vm_compute; split; discriminate.
Qed.

Lemma order_matters : exists l1 l2, Permutation l1 l2 /\
  exact_input (E := env64) (pts l1) (zpoint l1) (2 ^ 40) /\ exact_input (E := env64) (pts l2) (zpoint l2) (2 ^ 40) /\
  dt64 100 1 l1 = Ret [(0, 2, 1)] /\ dt64 100 1 l2 = Ret [].
Proof.
  exists lord1, lord2. split; [repeat constructor|].
  split; [apply Input_grid, lord_grid; now left|]. split; [apply Input_grid, lord_grid; now right|].
  split; vm_compute; reflexivity.
Qed.
