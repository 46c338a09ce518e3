(** * WitnessLawson: a binary64 input whose last vertices are inside the area of the first ones. *)

From Coq Require Import ZArith NArith List Bool QArith SpecFloat Lia Lqa.
From Verif Require Import Base Arith Types Utils Infinite Triangulation F64 Exact Spec DTOut GridSpec GridNum InputSpec GridApi ApiProps
  Refuted Witness.
Import ListNotations.
Local Open Scope N_scope.

(** Deciding [locally_delaunay] for clockwise triangles. *)
Definition turns (t : N * N * N) : list (N * N * N) :=
  match t with (a, b, c) => [(a, b, c); (b, c, a); (c, a, b)] end.

Definition ldelb (at_ : N -> point) (out : list (N * N * N)) : bool :=
  let ts := concat (map turns out) in
  forallb (fun t => match t with (a, b, c) =>
    negb (Qle_bool 0 (orient (at_ a) (at_ b) (at_ c))) &&
    forallb (fun t' => match t' with (b', a', d) =>
      negb ((a =? a') && (b =? b')) ||
      Qle_bool (incircle (fst (at_ b)) (snd (at_ b)) (fst (at_ c)) (snd (at_ c)) (fst (at_ d)) (snd (at_ d)) (fst (at_ a)) (snd (at_ a))) 0
    end) ts end) ts.

Lemma in_turns out a b c : is_tri out a b c -> In (a, b, c) (concat (map turns out)).
Proof.
  intros H. apply in_concat.
  destruct H as [H|[H|H]]; eexists; (split; [apply in_map; exact H|simpl; auto]).
Qed.

Lemma ldelb_sound at_ out : ldelb at_ out = true -> locally_delaunay at_ out.
Proof.
  intros H a b c d T T' Hc. apply in_turns in T, T'.
  unfold ldelb in H. rewrite forallb_forall in H. specialize (H _ T). cbv beta iota in H.
  apply andb_true_iff in H. destruct H as (C & H). rewrite forallb_forall in H. specialize (H _ T'). cbv beta iota in H.
  rewrite !N.eqb_refl in H. cbn [andb negb orb] in H. apply Qle_bool_iff in H.
  assert (O : (orient (at_ a) (at_ b) (at_ c) < 0)%Q).
  { apply negb_true_iff in C. apply Qnot_le_lt. intros K. apply Qle_bool_iff in K. congruence. }
  pose proof (circle_incircle (at_ b) (at_ c) (at_ d) (at_ a) O Hc) as K. lra.
Qed.

(** The corners of a quadrilateral are inserted first, two points inside it later. *)
Definition lq : list (Z * Z) := [(3,5); (4,3); (0,1); (7,0); (8,8); (1,7)]%Z.
Definition out_q : list (N * N * N) := [(1, 4, 3); (1, 3, 2); (0, 4, 1); (0, 2, 5); (0, 5, 4); (0, 1, 2)].
Definition before_q : list (N * N * N) := [(3, 5, 4); (2, 5, 3)].
Local Notation nq := (normalized (E := env64) (pts lq)).
Definition state_q : state := Eval vm_compute in
  match foldM (insert_vertex (E := env64) 100 nq) [4; 3; 2] (St (create_initial_triangles (E := env64) 5) 3 None) with
  | Ret s => s | _ => St [] 0 None end.

Lemma lq_grid64 : on_grid (E := env64) (pts lq) lq (2 ^ 40).
Proof.
  exists (sf_is 53 1024), (2 ^ 3)%Z, 0%Z, 0%Z.
  split; [apply (Grid_f64 u32_max 3); lia|]. split; [|split].
  - apply f2_map. intros p Hp. simpl in Hp.
    decompose [or] Hp; try contradiction; subst; vm_compute; repeat split; reflexivity.
  - unfold fits, lq. repeat split.
    1-4: simpl in H; intuition (subst; simpl; lia).
    + exists (0, 1)%Z. simpl. auto 10.
    + exists (7, 0)%Z. simpl. auto 10.
    + exists (8, 8)%Z. simpl. auto 10.
  - intros p Hp. simpl in Hp. decompose [or] Hp; try contradiction; subst; vm_compute; split; discriminate.
Qed.

Lemma lq_ids : 2 * lenN (pts lq) + 2 <= @idmax env64.
Proof. vm_compute. discriminate. Qed.

Lemma lq_order : bin_sort (E := env64) 1 nq = Ret (5 :: [4; 3; 2] ++ [1; 0]).
Proof. vm_compute. reflexivity. Qed.

Lemma lq_inserted : inserted (E := env64) 100 nq None 5 [4; 3; 2] state_q.
Proof. vm_compute. reflexivity. Qed.

Lemma lq_before : filter_triangles (E := env64) (s_ts state_q) = before_q.
Proof. vm_compute. reflexivity. Qed.

Lemma lq_dt : dt64 100 1 lq = Ret out_q.
Proof. vm_compute. reflexivity. Qed.

Lemma before_q_local : locally_delaunay (zpoint lq) before_q.
Proof. apply ldelb_sound. vm_compute. reflexivity. Qed.

Ltac numbers := unfold tri_inside_or_on, inside_or_on, orient, zpoint, along in *; simpl in *; unfold inject_Z in *.

Lemma before_q_surrounded v : In v [1; 0] -> surrounded (zpoint lq) before_q (zpoint lq v).
Proof.
  intros [<-|[<-|[]]]; exists (1 # 16)%Q; (split; [lra|]); intros (x, y) H1 H2; numbers.
  - exists (2, 5, 3). split; [right; left; reflexivity|]. numbers. repeat split; lra.
  - exists (3, 5, 4). split; [left; reflexivity|]. numbers. repeat split; lra.
Qed.

Definition quad_q (p : point) : Prop :=
  (orient (zpoint lq 2) (zpoint lq 5) p <= 0 /\ orient (zpoint lq 5) (zpoint lq 4) p <= 0 /\
   orient (zpoint lq 4) (zpoint lq 3) p <= 0 /\ orient (zpoint lq 3) (zpoint lq 2) p <= 0)%Q.

Lemma before_q_area p : covered (zpoint lq) before_q p <-> quad_q p.
Proof.
  destruct p as (x, y). split.
  - intros (t & [<-|[<-|[]]] & H); unfold quad_q; numbers; repeat split; lra.
  - intros H. unfold quad_q in H. destruct (Qlt_le_dec (orient (zpoint lq 5) (zpoint lq 3) (x, y)) 0) as [L|L].
    + exists (2, 5, 3). split; [right; left; reflexivity|]. numbers. repeat split; lra.
    + exists (3, 5, 4). split; [left; reflexivity|]. numbers. repeat split; lra.
Qed.

Lemma before_q_convex : convex_area (zpoint lq) before_q.
Proof.
  intros p q s Hp Hq Hs. apply before_q_area in Hp, Hq. apply before_q_area.
  assert (K : forall u v, (orient u v p <= 0)%Q -> (orient u v q <= 0)%Q -> (orient u v (along p q s) <= 0)%Q).
  { intros u v A B. assert (Q : (orient u v (along p q s) == (1 - s) * orient u v p + s * orient u v q)%Q).
    { unfold orient, along; cbn [fst snd]. ring. }
    rewrite Q. nra. }
  destruct Hp as (P1 & P2 & P3 & P4), Hq as (Q1 & Q2 & Q3 & Q4). repeat split; apply K; auto.
Qed.

Lemma lq_covered v : v < lenN (pts lq) -> covered (zpoint lq) before_q (zpoint lq v).
Proof.
  intros Hv. assert (L : v = 0 \/ v = 1 \/ v = 2 \/ v = 3 \/ v = 4 \/ v = 5) by (change (lenN (pts lq)) with 6 in Hv; lia).
  decompose [or] L; subst v; apply before_q_area; vm_compute; repeat split; discriminate.
Qed.

Lemma out_q_local : locally_delaunay (zpoint lq) out_q.
Proof. apply ldelb_sound. vm_compute. reflexivity. Qed.
