(** * SelectGrid: constraints which are already edges, for the inputs of [InputSpec.v]. *)

From Coq Require Import ZArith NArith List Bool Lia QArith Lqa Permutation.
From Verif Require Import Base BaseFacts Arith Types Utils Infinite Triangulation Constrained Geom Mesh Exact ExactC
  DTExact Spec DTOut GridSpec InputSpec GridApi GridCdt CdtApi AnyDT SpecSelect Select.
Import ListNotations.

Lemma app_nodup_r {A} (l l' : list A) : NoDup (l ++ l') -> NoDup l'.
Proof. induction l as [|x l IH]; cbn [app]; auto. intros H. inversion H; auto. Qed.

(** ** A list of clockwise triangles with no border is empty *)
Section Area.
Local Open Scope Q_scope.
Variable at_ : N -> point.

Definition area2 (e : N * N) : Q := fst (at_ (fst e)) * snd (at_ (snd e)) - snd (at_ (fst e)) * fst (at_ (snd e)).
Fixpoint total (l : list (N * N)) : Q := match l with [] => 0 | e :: l => area2 e + total l end.

Lemma total_app l l' : total (l ++ l') == total l + total l'.
Proof. induction l as [|e l IH]; cbn [app total]; [ring|]. rewrite IH. ring. Qed.

Lemma total_perm l l' : Permutation l l' -> total l == total l'.
Proof. induction 1; cbn [total]; [reflexivity|rewrite IHPermutation; reflexivity|ring|now rewrite IHPermutation1]. Qed.

Definition turned (e : N * N) : N * N := (snd e, fst e).

Lemma total_turned l : total (map turned l) == - total l.
Proof. induction l as [|(a, b) l IH]; cbn [map total]; [reflexivity|]. rewrite IH. unfold area2, turned. cbn [fst snd]. ring. Qed.

Lemma total_tri t : let '(a, b, c) := t in total (tri_edges t) == orient (at_ a) (at_ b) (at_ c).
Proof. destruct t as ((a, b), c). unfold tri_edges, orient. cbn [total]. unfold area2. cbn [fst snd]. ring. Qed.

Lemma total_neg l : (forall t, In t l -> tri_clockwise at_ t) -> total (directed_edges l) <= 0 /\
  (l <> [] -> total (directed_edges l) < 0).
Proof.
  induction l as [|t l IH]; intros H.
  - split; [cbn; lra|congruence].
  - destruct IH as (I1 & _); [intros u Hu; apply H; now right|].
    pose proof (H t (or_introl eq_refl)) as Cw. pose proof (total_tri t) as T. destruct t as ((a, b), c).
    unfold directed_edges in *. cbn [flat_map]. rewrite !total_app. unfold tri_clockwise, clockwise in Cw.
    rewrite T. split; [|intros _]; lra.
Qed.

Lemma turned_inj l : NoDup l -> NoDup (map turned l).
Proof.
  intros Nd. apply FinFun.Injective_map_NoDup; auto. intros (a, b) (c, d) Q. unfold turned in Q. cbn in Q. congruence.
Qed.

Lemma closed_empty l : (forall t, In t l -> tri_clockwise at_ t) -> NoDup (directed_edges l) ->
  (forall a b, In (a, b) (directed_edges l) -> In (b, a) (directed_edges l)) -> l = [].
Proof.
  intros Cw Nd Cl. destruct l as [|t l]; auto. exfalso.
  destruct (total_neg _ Cw) as (_ & K). specialize (K ltac:(congruence)).
  assert (P : Permutation (directed_edges (t :: l)) (map turned (directed_edges (t :: l)))).
  { apply NoDup_Permutation; [exact Nd|now apply turned_inj|]. intros (a, b). split.
    - intros Hi. apply in_map_iff. exists (b, a). split; auto.
    - intros Hi. apply in_map_iff in Hi. destruct Hi as ((x, y) & Q & Hi). unfold turned in Q. cbn in Q. injection Q as <- <-. auto. }
  pose proof (total_perm _ _ P) as T. rewrite total_turned in T. lra.
Qed.
End Area.

(** ** The edges of a valid list *)
Section Edges.
Variable at_ : N -> point.
Variables (n : N) (dt : list (N * N * N)).
Hypothesis V : valid_mesh at_ n dt.
Local Open Scope Q_scope.

Lemma edge_tri_of a b : In (a, b) (directed_edges dt) -> exists t c, In t dt /\ In (a, b) (tri_edges t) /\
  clockwise (at_ a) (at_ b) (at_ c) /\ (forall v, tri_corner t v <-> v = a \/ v = b \/ v = c) /\
  (forall p, tri_inside_or_on at_ t p <-> inside_or_on (at_ a) (at_ b) (at_ c) p).
Proof.
  intros H. apply in_flat_map in H. destruct H as (t & Ht & He). pose proof (vm_clockwise _ _ _ V t Ht) as Cw.
  destruct t as ((x, y), z). unfold tri_clockwise, clockwise in *. pose proof He as He'. unfold tri_edges in He.
  assert (R : forall p q r : point, orient p q r == orient q r p) by (intros; unfold orient; ring).
  destruct He as [Q|[Q|[Q|[]]]]; injection Q as <- <-.
  - exists (x, y, z), z. split; auto. split; auto. split; auto. split; [intros v; cbn; tauto|intros p; cbn; tauto].
  - exists (x, y, z), x. split; auto. split; auto. split; [rewrite <- R; auto|].
    split; [intros v; cbn; tauto|intros p; unfold tri_inside_or_on, inside_or_on; tauto].
  - exists (x, y, z), y. split; auto. split; auto. split; [rewrite R; auto|].
    split; [intros v; cbn; tauto|intros p; unfold tri_inside_or_on, inside_or_on; tauto].
Qed.

Lemma point_on_edge a b c s : clockwise a b c -> 0 < s < 1 ->
  orient a b (along a b s) == 0 /\ orient b c (along a b s) < 0 /\ orient c a (along a b s) < 0.
Proof.
  intros Cw Hs. unfold clockwise in Cw. rewrite !orient_along.
  assert (Z1 : orient a b a == 0) by (unfold orient; ring). assert (Z2 : orient a b b == 0) by (unfold orient; ring).
  assert (Z3 : orient b c b == 0) by (unfold orient; ring). assert (Z4 : orient c a a == 0) by (unfold orient; ring).
  assert (Z5 : orient b c a == orient a b c) by (unfold orient; ring). assert (Z6 : orient c a b == orient a b c) by (unfold orient; ring).
  rewrite Z1, Z2, Z3, Z4, Z5, Z6.
  assert (0 < (1 - s) * - orient a b c) by (apply CCross.Qmul_pos; lra).
  assert (0 < s * - orient a b c) by (apply CCross.Qmul_pos; lra). repeat split; lra.
Qed.

Lemma orient_same a b p q : same_place p q -> orient a b p == orient a b q.
Proof. intros (H1 & H2). unfold orient. rewrite H1, H2. reflexivity. Qed.

Lemma edge_free a b : In (a, b) (directed_edges dt) ->
  clear_between at_ n a b /\ covers_between at_ dt a b.
Proof.
  intros H. destruct (edge_tri_of a b H) as (t & c & Ht & _ & Cw & Co & Io). split.
  - intros v s Hv Hs Sp. destruct (point_on_edge (at_ a) (at_ b) (at_ c) s Cw Hs) as (O1 & O2 & O3).
    pose proof (orient_same (at_ a) (at_ b) _ _ Sp) as P1. pose proof (orient_same (at_ b) (at_ c) _ _ Sp) as P2.
    pose proof (orient_same (at_ c) (at_ a) _ _ Sp) as P3.
    destruct (vm_empty _ _ _ V t v Ht Hv) as (w & Hw & Sw); [apply Io; unfold inside_or_on; repeat split; lra|].
    pose proof (orient_same (at_ a) (at_ b) _ _ Sw) as S1. pose proof (orient_same (at_ b) (at_ c) _ _ Sw) as S2.
    pose proof (orient_same (at_ c) (at_ a) _ _ Sw) as S3.
    apply Co in Hw. destruct Hw as [->|[->| ->]].
    + assert (Z : orient (at_ c) (at_ a) (at_ a) == 0) by (unfold orient; ring). lra.
    + assert (Z : orient (at_ b) (at_ c) (at_ b) == 0) by (unfold orient; ring). lra.
    + unfold clockwise in Cw. lra.
  - intros s Hs. exists t. split; auto. apply Io.
    destruct (point_on_edge (at_ a) (at_ b) (at_ c) s Cw Hs) as (O1 & O2 & O3). unfold inside_or_on. repeat split; lra.
Qed.

Lemma along_back a b s : same_place (along a b s) (along b a (1 - s)).
Proof. unfold along, same_place. cbn [fst snd]. split; ring. Qed.

Lemma edge_free_back a b : In (b, a) (directed_edges dt) ->
  clear_between at_ n a b /\ covers_between at_ dt a b.
Proof.
  intros H. apply edge_free in H. destruct H as (C1 & C2). split.
  - intros v s Hv Hs Sp. apply (C1 v (1 - s) Hv ltac:(lra)). exact (same_place_trans _ _ _ Sp (along_back _ _ _)).
  - intros s Hs. destruct (C2 (1 - s) ltac:(lra)) as (t & Ht & Hi). exists t. split; auto.
    destruct t as ((x, y), z). unfold tri_inside_or_on, inside_or_on in *.
    pose proof (orient_same (at_ x) (at_ y) _ _ (along_back (at_ a) (at_ b) s)) as S1.
    pose proof (orient_same (at_ y) (at_ z) _ _ (along_back (at_ a) (at_ b) s)) as S2.
    pose proof (orient_same (at_ z) (at_ x) _ _ (along_back (at_ a) (at_ b) s)) as S3. destruct Hi as (T1 & T2 & T3). repeat split; lra.
Qed.

(** Every triangle is selected by the border edges. *)
Lemma border_selects cs (D : forall t, In t dt -> selected dt cs t \/ ~ selected dt cs t) :
  (forall e, In e cs <-> border dt (efrom e) (eto e)) -> forall t, In t dt -> selected dt cs t.
Proof.
  intros Hcs.
  assert (L : exists S, (forall t, In t S <-> In t dt /\ ~ selected dt cs t) /\ NoDup (directed_edges S)).
  { pose proof (vm_edges _ _ _ V) as Nd. revert D Nd. generalize (selected dt cs) as P. intros P D. clear - D.
    induction dt as [|t l IH]; intros Nd.
    - exists []. split; [intros t; cbn; tauto|constructor].
    - unfold directed_edges in Nd. cbn [flat_map] in Nd.
      destruct IH as (S & H & Nd'); [intros u Hu; apply D; now right|now apply app_nodup_r in Nd|].
      destruct (D t (or_introl eq_refl)) as [Y|Y].
      + exists S. split; auto. intros u. rewrite H. cbn [In]. split; [tauto|]. intros ([<-|Hu] & Hn); tauto.
      + exists (t :: S). split.
        * intros u. cbn [In]. rewrite H. split; [intros [<-|(A & B)]; auto|]. tauto.
        * unfold directed_edges. cbn [flat_map]. fold (directed_edges S).
          clear - Nd Nd' H. revert Nd Nd'. fold (directed_edges l).
          assert (Hs : forall e, In e (directed_edges S) -> In e (directed_edges l)).
          { intros e He. apply in_flat_map in He. destruct He as (u & Hu & He). apply in_flat_map. exists u. split; auto. now apply H. }
          revert Hs. generalize (directed_edges S) (directed_edges l) (tri_edges t). intros a b c Hs Nc Na.
          induction c as [|x c IHc]; cbn [app] in *; auto. inversion Nc as [|y z Hx Hn]; subst. constructor; [|auto].
          intros Hi. apply Hx. apply in_app_iff in Hi. apply in_or_app. destruct Hi; auto. }
  destruct L as (S & HS & Nd).
  assert (S = []) as ->.
  { apply (closed_empty at_); auto.
    - intros t Ht. apply HS in Ht. exact (vm_clockwise _ _ _ V t (proj1 Ht)).
    - intros a b Hab. apply in_flat_map in Hab. destruct Hab as (t & Ht & Hab). apply HS in Ht. destruct Ht as (Ht & Nt).
      assert (Hd : In (a, b) (directed_edges dt)) by (apply in_flat_map; eauto).
      destruct (in_dec pair_dec (b, a) (directed_edges dt)) as [Hr|Hr].
      + apply in_flat_map in Hr. destruct Hr as (u & Hu & Hba). apply in_flat_map. exists u. split; auto. apply HS. split; auto.
        intros Su. apply Nt. apply (selected_next dt cs u t b a Su Ht Hba Hab).
        assert (Hd' : In (b, a) (directed_edges dt)) by (apply in_flat_map; eauto).
        intros [W|W]; apply Hcs in W; destruct W as (_ & W); cbn [efrom eto] in W; auto.
      + exfalso. apply Nt. apply (selected_right dt cs t a b Ht Hab). apply Hcs. split; auto. }
  intros t Ht. destruct (D t Ht) as [Y|Y]; auto. destruct (proj2 (HS t) (conj Ht Y)).
Qed.
End Edges.

Lemma tri_nodup l : NoDup (directed_edges l) -> NoDup l.
Proof.
  induction l as [|t l IH]; intros H; constructor.
  - intros Hi. unfold directed_edges in H. cbn [flat_map] in H. destruct t as ((a, b), c).
    inversion H as [|x y Hx _]; subst. apply Hx. do 2 right. apply in_flat_map. exists (a, b, c). split; auto. now left.
  - apply IH. unfold directed_edges in H. cbn [flat_map] in H. now apply app_nodup_r in H.
Qed.

Local Open Scope N_scope.
Section Grid.
Context {E : Env}.
Variables (vs : list vertex) (px py : N -> Q) (bound : Z).
Notation at_ := (pair_at px py).
Hypothesis G : exact_input vs at_ bound.
Hypothesis Hid : 2 * lenN vs + 2 <= idmax.
Variables (fuel : nat) (bins : N).
Hypothesis Hf2 : ((2 * length vs + 4) * (2 * length vs + 4) <= fuel)%nat.
Hypothesis H1 : 1 <= bins.
Hypothesis Hbins : (Z.of_N bins <= bound)%Z.

Lemma grid_select dt cs :
  triangulation_from_2d_vertices fuel bins vs = Ret dt -> edges_already dt cs ->
  exists out, constrained_triangulation_from_2d_vertices fuel bins vs cs = Ret out /\ incl out dt /\ NoDup out /\
    (forall t, selected dt cs t -> In t out) /\
    ((forall a b, border dt a b -> In (Edge a b) cs) -> forall t, In t out <-> selected dt cs t) /\
    ((forall e, In e cs <-> border dt (eto e) (efrom e)) -> out = []).
Proof.
  intros H0 Al. assert (Hf : (4 * length vs + 12 <= fuel)%nat) by nia.
  destruct (pair_valid vs px py bound G Hid fuel bins dt Hf H0) as (V & _).
  destruct (input_api vs px py bound G Hid) as (X & XC & _).
  assert (Rg : forall a b, In (a, b) (directed_edges dt) -> a < lenN vs /\ b < lenN vs).
  { intros a b Hab. apply in_flat_map in Hab. destruct Hab as (((x, y), z) & Ht & He).
    destruct (proj1 (dt_ids fuel bins vs dt ltac:(lia) H0) x y z Ht) as (L1 & L2 & L3).
    unfold tri_edges in He. destruct He as [Q|[Q|[Q|[]]]]; injection Q as <- <-; auto. }
  destruct (grid_cdt_returns vs px py bound G Hid fuel bins Hf2 H1 Hbins cs dt H0) as (out & H).
  { intros (f, g) Hc. cbn [efrom eto]. destruct (Al _ Hc) as [D|D]; cbn [efrom eto] in D.
    - destruct (Rg _ _ D). split; auto. split; auto. intros _. exact (edge_free at_ _ dt V f g D).
    - destruct (Rg _ _ D). split; auto. split; auto. intros _. exact (edge_free_back at_ _ dt V f g D). }
  exists out. split; auto.
  destruct (cdt_select fuel bins vs px py X XC Hid Hf cs out dt Al H0 H) as (I1 & I2 & I3 & I4).
  split; auto. split; [|split; [auto|split; [|auto]]].
  - apply tri_nodup. exact (vm_edges _ _ _ (grid_cdt_valid vs px py bound G Hid fuel bins Hf cs out H)).
  - intros Hb t. split; auto.
Qed.

Lemma tri_dec (x y : N * N * N) : {x = y} + {x <> y}.
Proof. repeat decide equality. Qed.

(** Each triangle has one of its edges given: all of them come back. *)
Lemma grid_select_all dt cs :
  triangulation_from_2d_vertices fuel bins vs = Ret dt -> edges_already dt cs ->
  (forall t, In t dt -> selected dt cs t) ->
  exists out, constrained_triangulation_from_2d_vertices fuel bins vs cs = Ret out /\ Permutation out dt.
Proof.
  intros H0 Al Hs. assert (Hf : (4 * length vs + 12 <= fuel)%nat) by nia.
  destruct (grid_select dt cs H0 Al) as (out & H & In1 & Nd & In2 & _). exists out. split; auto.
  apply NoDup_Permutation; auto.
  - apply tri_nodup, (vm_edges _ _ _ (proj1 (pair_valid vs px py bound G Hid fuel bins dt Hf H0))).
  - intros t. split; auto.
Qed.

(** The border edges, each with its triangle on the right, give the triangulation back. *)
Lemma grid_round_trip dt cs :
  triangulation_from_2d_vertices fuel bins vs = Ret dt ->
  (forall e, In e cs <-> border dt (efrom e) (eto e)) ->
  exists out, constrained_triangulation_from_2d_vertices fuel bins vs cs = Ret out /\ Permutation out dt.
Proof.
  intros H0 Hcs. assert (Hf : (4 * length vs + 12 <= fuel)%nat) by nia.
  destruct (pair_valid vs px py bound G Hid fuel bins dt Hf H0) as (V & _).
  assert (Al : edges_already dt cs) by (intros e He; apply Hcs in He; left; exact (proj1 He)).
  destruct (grid_select dt cs H0 Al) as (out & H & _ & _ & _ & Ex & _).
  apply grid_select_all; auto. apply (border_selects at_ (lenN vs) dt V cs); auto.
  intros t Ht. destruct (in_dec tri_dec t out) as [I|I].
  - left. apply Ex; auto. intros a b Hb. now apply Hcs.
  - right. intros S. apply I. apply Ex; auto. intros a b Hb. now apply Hcs.
Qed.

(** The border edges in the other direction select nothing. *)
Lemma grid_reversed dt cs :
  triangulation_from_2d_vertices fuel bins vs = Ret dt ->
  (forall e, In e cs <-> border dt (eto e) (efrom e)) ->
  constrained_triangulation_from_2d_vertices fuel bins vs cs = Ret [].
Proof.
  intros H0 Hcs.
  assert (Al : edges_already dt cs) by (intros e He; apply Hcs in He; right; exact (proj1 He)).
  destruct (grid_select dt cs H0 Al) as (out & H & _ & _ & _ & _ & Ex). now rewrite (Ex Hcs) in H.
Qed.
End Grid.
