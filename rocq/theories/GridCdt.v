(** * GridCdt: the constrained triangulation of the inputs of [GridSpec.v]; and the filter at
    the level of the entry point, in any arithmetic. *)

From Coq Require Import ZArith NArith List Bool Lia QArith.
From Verif Require Import Base BaseFacts Arith Types Utils Infinite Triangulation Constrained Geom Mesh Exact ExactC
  AnyDT SpecCdt AnyCDT DTExact Spec DTOut GridSpec InputSpec GridApi CSwap CCross CApply CTotal CdtApi CdtTotal.
Import ListNotations.
Local Open Scope N_scope.

(** The constraints do not cross each other. *)
Definition noncrossing (at_ : N -> point) (cs : list edge) : Prop :=
  forall r r', In r cs -> In r' cs ->
    ~ segments_cross (at_ (efrom r)) (at_ (eto r)) (at_ (efrom r')) (at_ (eto r')).

(** The mesh behind the result, and the constraint c in it. *)
Definition edge_of_mesh {E : Env} (vs : list vertex) (at_ : N -> point) (fuel : nat) (bins : N) (cs : list edge) (out : list (N * N * N)) (c : edge) : Prop :=
  exists s m ts cset a b,
    wrap_and_triangulate fuel bins (normalized vs) (Some (rangeN 0 (length vs))) = Ret s /\ s_map s = Some m /\
    apply_constraints fuel (normalized vs) (s_ts s) cs m = Ret (ts, cset) /\
    nthN m (efrom c) = Some a /\ nthN m (eto c) = Some b /\
    same_place (at_ a) (at_ (efrom c)) /\ same_place (at_ b) (at_ (eto c)) /\
    In (b, a) (directed_edges (map tverts ts)) /\
    exists t, In t ts /\ In (a, b) (tri_edges (tverts t)) /\ (tri_is_finite t = true -> In (tverts t) out).

Section Grid.
Context {E : Env}.
Variables (vs : list vertex) (px py : N -> Q) (bound : Z).
Notation at_ := (pair_at px py).
Hypothesis G : exact_input vs at_ bound.
Hypothesis Hid : 2 * lenN vs + 2 <= idmax.
Variables (fuel : nat) (bins : N).
Hypothesis Hf : (4 * length vs + 12 <= fuel)%nat.

Lemma grid_cdt_valid cs out :
  constrained_triangulation_from_2d_vertices fuel bins vs cs = Ret out -> valid_mesh at_ (lenN vs) out.
Proof.
  destruct (input_api vs px py bound G Hid) as (X & XC & _).
  exact (cdt_valid fuel bins vs _ _ X XC Hid Hf cs out).
Qed.

Lemma cdt_small cs out : lenN vs < 3 ->
  constrained_triangulation_from_2d_vertices fuel bins vs cs = Ret out -> out = [].
Proof.
  intros L H. unfold constrained_triangulation_from_2d_vertices in H.
  rewrite (proj2 (N.ltb_lt _ _) L) in H. now apply Ret_inj in H.
Qed.

Lemma edge_of_run cs out m ts cset c a b :
  CdtRun fuel bins vs px py cs out m ts cset -> In c cs -> ~ same_place (at_ (efrom c)) (at_ (eto c)) ->
  nthN m (efrom c) = Some a -> nthN m (eto c) = Some b -> medge ts a b -> edge_of_mesh vs at_ fuel bins cs out c.
Proof.
  intros R Hc Hne Ha Hb Hm. pose proof R as [_ R2 R3 _ R5 _ _ _ (s & W & Sm & Ac)].
  destruct (R5 c Hc) as (Lf & Lt).
  destruct (R2 _ Lf) as (a' & Ha' & _ & _ & Sa). destruct (R2 _ Lt) as (b' & Hb' & _ & _ & Sb).
  assert (a' = a) by congruence. assert (b' = b) by congruence. subst a' b'.
  assert (Sa' : same_place (at_ a) (at_ (efrom c))) by exact Sa.
  assert (Sb' : same_place (at_ b) (at_ (eto c))) by exact Sb.
  assert (Hab : a <> b).
  { intros Q. apply Hne. rewrite <- Q in Sb'. exact (same_place_trans _ _ _ (same_place_sym _ _ Sa') Sb'). }
  destruct (run_edge fuel bins vs _ _ cs out m ts cset c a b R Hc Hab Ha Hb Hm) as (Q1 & Q2).
  exists s, m, ts, cset, a, b. auto 20.
Qed.

Lemma grid_cdt_edges cs c out : 3 <= lenN vs -> noncrossing at_ cs -> In c cs ->
  ~ same_place (at_ (efrom c)) (at_ (eto c)) ->
  constrained_triangulation_from_2d_vertices fuel bins vs cs = Ret out ->
  respects at_ (lenN vs) out (efrom c) (eto c) /\ edge_of_mesh vs at_ fuel bins cs out c.
Proof.
  intros H3 Hx Hc Hne H. destruct (input_api vs px py bound G Hid) as (X & XC & _).
  destruct (cdt_edges fuel bins vs _ _ X XC Hid Hf cs c out Hx Hc Hne H3 H) as (m & ts & cset & a & b & R & Ha & Hb & Hm & Rs).
  split; [exact Rs|]. exact (edge_of_run cs out m ts cset c a b R Hc Hne Ha Hb Hm).
Qed.

Lemma grid_cdt_survives l1 c l2 out : 3 <= lenN vs ->
  ~ same_place (at_ (efrom c)) (at_ (eto c)) ->
  (forall r, In r l1 -> ~ (same_place (at_ (efrom r)) (at_ (efrom c)) /\ same_place (at_ (eto r)) (at_ (eto c)))) ->
  (forall r, In r l2 -> ~ segments_cross (at_ (efrom r)) (at_ (eto r)) (at_ (efrom c)) (at_ (eto c))) ->
  constrained_triangulation_from_2d_vertices fuel bins vs (l1 ++ c :: l2) = Ret out ->
  respects at_ (lenN vs) out (efrom c) (eto c) /\ edge_of_mesh vs at_ fuel bins (l1 ++ c :: l2) out c.
Proof.
  intros H3 Hne H1 H2 H. destruct (input_api vs px py bound G Hid) as (X & XC & _).
  destruct (cdt_survives fuel bins vs _ _ X XC Hid Hf l1 c l2 out Hne H1 H2 H3 H) as (m & ts & cset & a & b & R & Ha & Hb & Hm & Rs).
  split; [exact Rs|]. refine (edge_of_run _ out m ts cset c a b R _ Hne Ha Hb Hm).
  apply in_or_app. right. now left.
Qed.

(** ** How a call ends *)
Hypothesis Hf2 : ((2 * length vs + 4) * (2 * length vs + 4) <= fuel)%nat.
Hypothesis H1 : 1 <= bins.
Hypothesis Hbins : (Z.of_N bins <= bound)%Z.

Lemma grid_cdt_outcome cs :
  (exists out, constrained_triangulation_from_2d_vertices fuel bins vs cs = Ret out) \/
  constrained_triangulation_from_2d_vertices fuel bins vs cs = Panic \/
  (exists v, v < lenN vs /\ constrained_triangulation_from_2d_vertices fuel bins vs cs = Fail (ErrPlacementNotFound v)) \/
  (exists e c, constrained_triangulation_from_2d_vertices fuel bins vs cs = Fail e /\ search_error e /\
     In c cs /\ ~ same_place (at_ (efrom c)) (at_ (eto c)) /\ ~ clear_between at_ (lenN vs) (efrom c) (eto c)).
Proof.
  destruct (input_api vs px py bound G Hid) as (X & XC & B). destruct (B bins H1 Hbins) as (order & O).
  exact (cdt_outcome fuel bins vs _ _ X XC Hid Hf2 cs order O).
Qed.

Lemma grid_cdt_returns cs out0 :
  triangulation_from_2d_vertices fuel bins vs = Ret out0 ->
  (forall c, In c cs -> efrom c < lenN vs /\ eto c < lenN vs /\
     (~ same_place (at_ (efrom c)) (at_ (eto c)) ->
        clear_between at_ (lenN vs) (efrom c) (eto c) /\ covers_between at_ out0 (efrom c) (eto c))) ->
  exists out, constrained_triangulation_from_2d_vertices fuel bins vs cs = Ret out.
Proof.
  destruct (input_api vs px py bound G Hid) as (X & XC & B). destruct (B bins H1 Hbins) as (order & O).
  exact (cdt_returns fuel bins vs _ _ X XC Hid Hf2 cs out0 order O).
Qed.

End Grid.

(** ** The returned triangles, any arithmetic *)
Section Any.
Context {E : Env}.

Lemma fold_cset fuel vs m : forall cs s s',
  foldM (apply_constraint fuel vs m) cs s = Ret s' ->
  forall e, In e (c_set s') <-> In e (c_set s) \/ (efrom e <> eto e /\ exists raw, In raw cs /\ map_edge m raw = Some e).
Proof.
  induction cs as [|raw cs IH]; intros s s' H e; cbn [foldM] in H.
  - apply Ret_inj in H. subst s'. split; auto. intros [Q|(_ & r & [] & _)]; auto.
  - inv_Ret H. rename a into s1.
    assert (K : exists e0, map_edge m raw = Some e0 /\
       ((c_set s1 = c_set s /\ (efrom e0 = eto e0 \/ In e0 (c_set s))) \/ (c_set s1 = e0 :: c_set s /\ efrom e0 <> eto e0))).
    { unfold apply_constraint in Hm. inv_Ret Hm. inv_Ret Hm. apply getN_Ret in Hm0, Hm1.
      exists (Edge a a0). split; [apply map_edge_inv; auto|]. cbn [efrom eto].
      destruct ((a =? a0) || edge_mem (c_set s) (Edge a a0)) eqn:Q.
      - left. apply Ret_inj in Hm. subst s1. apply orb_true_iff in Q. rewrite N.eqb_eq, edge_mem_In in Q. auto.
      - right. apply orb_false_iff in Q. destruct Q as (Q & _). apply N.eqb_neq in Q. split; auto.
        inv_Ret Hm. inv_Ret Hm. destruct a2 as [|d l]; [inversion Hm; reflexivity|].
        inv_Ret Hm. destruct a2 as ((t1, v1), news). inv_Ret Hm. destruct a2 as (t2, v2'). inversion Hm; reflexivity. }
    destruct K as (e0 & He0 & K). rewrite (IH _ _ H e). split.
    + intros [Q|(Hn & r & Hr & Q)]; [|right; split; auto; exists r; split; auto; now right].
      destruct K as [(K & _)|(K & Kn)]; rewrite K in Q; [auto|]. destruct Q as [<- |Q]; auto.
      right. split; auto. exists raw. split; auto. now left.
    + intros [Q|(Hn & r & [<- |Hr] & Q)].
      * left. destruct K as [(K & _)|(K & _)]; rewrite K; auto. now right.
      * rewrite He0 in Q. injection Q as <-. left. destruct K as [(K & [Kn|Kn])|(K & _)]; rewrite K; try contradiction; auto. now left.
      * right. split; auto. eauto.
Qed.

(** The run behind a returned list. *)
Lemma cdt_domains fuel bins vs cs out : 3 <= lenN vs ->
  constrained_triangulation_from_2d_vertices fuel bins vs cs = Ret out ->
  exists s m ts cset ids,
    wrap_and_triangulate fuel bins (normalized vs) (Some (rangeN 0 (length vs))) = Ret s /\ s_map s = Some m /\
    apply_constraints fuel (normalized vs) (s_ts s) cs m = Ret (ts, cset) /\
    (forall e, In e cset <-> efrom e <> eto e /\ exists raw, In raw cs /\
       nthN m (efrom raw) = Some (efrom e) /\ nthN m (eto raw) = Some (eto e)) /\
    NoDup ids /\ (forall i, In i ids <-> kept ts cset i) /\ out = emitted ts ids.
Proof.
  intros H3 H. apply cdt_inv in H. destruct H as [(L & _)|H]; [lia|].
  destruct H as (_ & nvs & sc & xm & ym & s & m & ts & cset & NV & LN & W & SM & AC & Fl).
  assert (EN : nvs = normalized vs) by (unfold normalized; now rewrite NV). rewrite EN in *. clear EN NV.
  destruct (cdt_filter_exact _ _ _ _ Fl) as (ids & Nd & K & _ & Q).
  exists s, m, ts, cset, ids. rewrite <- LN. split; auto. split; auto. split; auto. split; auto.
  unfold apply_constraints in AC.
  destruct (index_triangles (repeat 0 (length (normalized vs))) 0 (s_ts s)) as [v2t| | |]; cbn [bind] in AC; try discriminate.
  destruct (foldM (apply_constraint fuel (normalized vs) m) cs (CSt (s_ts s) v2t [])) as [s'| | |] eqn:Fo;
    cbn [bind] in AC; try discriminate.
  apply Ret_inj in AC. injection AC as <- <-.
  intros e. rewrite (fold_cset _ _ _ _ _ _ Fo e). cbn [c_set]. split.
  - intros [[]|(Hn & r & Hr & Q')]. split; auto. exists r. split; auto. destruct e as (a, b). now apply map_edge_inv in Q'.
  - intros (Hn & r & Hr & Q'). right. split; auto. exists r. split; auto. destruct e as (a, b). now apply map_edge_inv.
Qed.

End Any.
