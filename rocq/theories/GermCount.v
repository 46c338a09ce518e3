(** * GermCount: comparing the numbers of triangles of two meshes. *)

From Coq Require Import NArith List Bool QArith Qminmax Lqa Lia.
From Verif Require Import Base BaseFacts Spec Germ.
Import ListNotations.
Local Open Scope Q_scope.

(** ** A direction parallel to no segment between two of the points *)
Definition slope (p q : point) : Q := (snd p - snd q) / (fst p - fst q).

Lemma above (l : list Q) : exists m, forall x, In x l -> x < m.
Proof.
  induction l as [|y l (m & H)]; [exists 0; intros x []|].
  exists (Qmax m (y + 1)). intros x [<-|I].
  - pose proof (Q.le_max_r m (y + 1)). lra.
  - pose proof (Q.le_max_l m (y + 1)). specialize (H x I). lra.
Qed.

Lemma direction (l : list point) (avoid : list Q) : exists m, (forall x, In x avoid -> ~ x == m) /\
  forall p q, In p l -> In q l -> ~ same_place p q -> ~ height m p == height m q.
Proof.
  destruct (above (avoid ++ flat_map (fun p => map (slope p) l) l)) as (m & H). exists m. split.
  { intros x X E. specialize (H x (in_or_app _ _ _ (or_introl X))). lra. }
  intros p q P Q N E.
  assert (S : slope p q < m). { apply H. apply in_or_app. right. apply in_flat_map. exists p. split; [exact P|]. now apply in_map. }
  unfold height in E. destruct (Qeq_dec (fst p) (fst q)) as [X|X].
  - apply N. split; [exact X|]. rewrite X in E. lra.
  - assert (K : slope p q == m); [|lra]. unfold slope. assert (Y : snd p - snd q == m * (fst p - fst q)) by lra.
    rewrite Y. field. intros Z. apply X. lra.
Qed.

(** ** Injections *)
Lemma injection_le {A B} (P : A -> B -> Prop) (l2 : list B) : forall l1, NoDup l1 ->
  (forall a, In a l1 -> exists b, In b l2 /\ P a b) ->
  (forall a a' b, In a l1 -> In a' l1 -> P a b -> P a' b -> a = a') -> (length l1 <= length l2)%nat.
Proof.
  intros l1 ND F I.
  assert (H : exists bs, length bs = length l1 /\ NoDup bs /\ incl bs l2 /\ forall b, In b bs -> exists a, In a l1 /\ P a b).
  { induction l1 as [|a l1 IH].
    - exists []. repeat split; [constructor|intros b []|intros b []].
    - inversion ND as [|a0 l0 X Y]; subst. destruct IH as (bs & L & N & C & K); auto.
      + intros x Hx. apply F. now right.
      + intros x x' b Hx Hx'. apply I; now right.
      + destruct (F a (or_introl eq_refl)) as (b & Ib & Pb). exists (b :: bs). split; [cbn; congruence|]. split.
        * constructor; [|exact N]. intros Z. destruct (K b Z) as (a' & Ia' & Pa').
          assert (a = a') by (apply (I a a' b); simpl; auto). subst a'. exact (X Ia').
        * split; [intros x [<-|Hx]; auto|]. intros x [<-|Hx]; [exists a; simpl; auto|].
          destruct (K x Hx) as (a' & Ia' & Pa'). exists a'. simpl; auto. }
  destruct H as (bs & L & N & C & _). rewrite <- L. now apply NoDup_incl_length.
Qed.

Lemma nodup_both {A} (l l' : list A) : NoDup l -> NoDup l' -> (forall x, In x l -> In x l' -> False) -> NoDup (l ++ l').
Proof.
  induction l as [|a l IH]; intros H H' D; [exact H'|]. cbn. inversion H as [|a0 l0 X Y]; subst. constructor.
  - intros I. apply in_app_or in I. destruct I as [I|I]; [exact (X I)|]. apply (D a); simpl; auto.
  - apply IH; auto. intros x I I'. apply (D x); simpl; auto.
Qed.

(** ** Areas *)
(** A limit of covered points along a segment is covered. *)
Lemma covered_limit at_ out p q :
  (forall s0, 0 < s0 -> exists s, 0 < s < s0 /\ covered at_ out (along p q s)) -> covered at_ out p.
Proof.
  assert (E : exists s0, 0 < s0 /\ (covered at_ out p \/ forall s, 0 < s < s0 -> ~ covered at_ out (along p q s))).
  { induction out as [|((x, y), z) l IH].
    - exists 1. split; [lra|]. right. intros s _ (t & [] & _).
    - assert (Ed : forall a c, exists e1, 0 < e1 /\ (orient a c p <= 0 \/ forall e, 0 < e < e1 -> ~ orient a c (along p q e) <= 0)).
      { intros a c. destruct (eventually (orient a c p) (orient a c p - orient a c q)) as (e1 & E1 & [(X & _)|(_ & X)]); exists e1; auto.
        split; [exact E1|]. right. intros e He. specialize (X e He).
        assert (K : orient a c (along p q e) == orient a c p - e * (orient a c p - orient a c q)) by (unfold orient, along; cbn [fst snd]; ring).
        lra. }
      destruct IH as (s0 & S0 & [(t & T & I)|H]).
      { exists s0. split; [exact S0|]. left. exists t. simpl; auto. }
      assert (Tr : exists e1, 0 < e1 /\ (tri_inside_or_on at_ (x, y, z) p \/ forall e, 0 < e < e1 -> ~ tri_inside_or_on at_ (x, y, z) (along p q e))).
      { destruct (Ed (at_ x) (at_ y)) as (e1 & E1 & [H1|H1]).
        2:{ exists e1. split; [exact E1|]. right. intros e He (I & _). exact (H1 e He I). }
        destruct (Ed (at_ y) (at_ z)) as (e2 & E2 & [H2|H2]).
        2:{ exists e2. split; [exact E2|]. right. intros e He (_ & I & _). exact (H2 e He I). }
        destruct (Ed (at_ z) (at_ x)) as (e3 & E3 & [H3|H3]).
        2:{ exists e3. split; [exact E3|]. right. intros e He (_ & _ & I). exact (H3 e He I). }
        exists e1. split; [exact E1|]. left. repeat split; assumption. }
      destruct Tr as (e1 & E1 & [I|I]).
      { exists e1. split; [exact E1|]. left. exists (x, y, z). simpl; auto. }
      exists (Qmin s0 e1). split; [now apply Q.min_glb_lt|]. right. intros e (P & L) (t & [<-|T] & C).
      + apply (I e); [split; [exact P|]|exact C]. eapply Qlt_le_trans; [exact L|apply Q.le_min_r].
      + apply (H e); [split; [exact P|]|exists t; split; assumption]. eapply Qlt_le_trans; [exact L|apply Q.le_min_l]. }
  intros F. destruct E as (s0 & S0 & [C|C]); [exact C|]. destruct (F s0 S0) as (s & Hs & K). destruct (C s Hs K).
Qed.

(** What covers the insides of triangles covers the triangles. *)
Lemma covered_closure at1 at2 out1 out2 : (forall t, In t out1 -> tri_clockwise at1 t) ->
  (forall t p, In t out1 -> tri_inside at1 t p -> covered at2 out2 p) -> forall p, covered at1 out1 p -> covered at2 out2 p.
Proof.
  intros C H p (((x, y), z) & T & I). pose proof (C _ T) as K. cbn in K.
  set (g := ((fst (at1 x) + fst (at1 y) + fst (at1 z)) / 3, (snd (at1 x) + snd (at1 y) + snd (at1 z)) / 3)).
  apply (covered_limit at2 out2 p g). intros s0 S0.
  pose proof (Q.min_glb_lt _ _ _ S0 (ltac:(lra) : 0 < 1)) as M. pose proof (Q.le_min_l s0 1). pose proof (Q.le_min_r s0 1).
  assert (M2 : 0 < Qmin s0 1 / 2 < Qmin s0 1) by (split; [apply Qlt_shift_div_l; lra|apply Qlt_shift_div_r; lra]).
  set (s := Qmin s0 1 / 2) in *. exists s. split; [lra|]. apply (H _ _ T). cbn.
  assert (L : forall a c, orient a c (along p g s) == (1 - s) * orient a c p + s * orient a c g)
    by (intros a c; unfold orient, along; cbn [fst snd]; ring).
  assert (G1 : orient (at1 x) (at1 y) g == orient (at1 x) (at1 y) (at1 z) / 3) by (unfold orient, g; cbn [fst snd]; field).
  assert (G2 : orient (at1 y) (at1 z) g == orient (at1 x) (at1 y) (at1 z) / 3) by (unfold orient, g; cbn [fst snd]; field).
  assert (G3 : orient (at1 z) (at1 x) g == orient (at1 x) (at1 y) (at1 z) / 3) by (unfold orient, g; cbn [fst snd]; field).
  assert (D : orient (at1 x) (at1 y) (at1 z) / 3 < 0) by (apply Qlt_shift_div_r; [reflexivity|]; unfold clockwise in K; lra).
  destruct I as (I1 & I2 & I3). unfold strictly_inside. rewrite !L.
  pose proof (conj G1 (conj G2 G3)) as GG. clearbody g s. clear - I1 I2 I3 D GG M2 H0 H1 K. destruct GG as (-> & -> & ->).
  remember (orient (at1 x) (at1 y) (at1 z) / 3) as d. repeat split; nra.
Qed.

Section Two.
Variables at1 at2 : N -> point.
Variables n1 n2 : N.
Variables out1 out2 : list (N * N * N).
Hypothesis VM1 : valid_mesh at1 n1 out1.
Hypothesis VM2 : valid_mesh at2 n2 out2.
Hypothesis R1 : forall t c, In t out1 -> tri_corner t c -> (c < n1)%N.
Hypothesis R2 : forall t c, In t out2 -> tri_corner t c -> (c < n2)%N.
(** What is inside the triangles of one is covered by the other. *)
Hypothesis A12 : forall t p, In t out1 -> tri_inside at1 t p -> covered at2 out2 p.
Hypothesis A21 : forall t p, In t out2 -> tri_inside at2 t p -> covered at1 out1 p.
(** The vertices of the first one in the area are vertices of the second one. *)
Hypothesis V12 : forall t c, In t out1 -> tri_corner t c -> exists w, (w < n2)%N /\ same_place (at1 c) (at2 w).

Variable m : Q.
Hypothesis G1 : forall u v, (u < n1)%N -> (v < n1)%N -> ~ same_place (at1 u) (at1 v) -> ~ height m (at1 u) == height m (at1 v).
Hypothesis G2 : forall u v, (u < n2)%N -> (v < n2)%N -> ~ same_place (at2 u) (at2 v) -> ~ height m (at2 u) == height m (at2 v).

Lemma carried12 s c b : In s out1 -> germ m at1 s c b ->
  exists t c', In t out2 /\ germ m at2 t c' b /\ same_place (at1 c) (at2 c').
Proof.
  intros I G. destruct (V12 s c I (germ_corner m at1 s c b G)) as (w & W & P).
  destruct (germ_inside m at1 s c b (at2 w) (vm_clockwise _ _ _ VM1 s I) G P) as (e1 & E1 & H1).
  destruct (germ_found m at2 n2 out2 VM2 R2 G2 w b W) as (t & c' & T & G' & P').
  - intros e0 E0. pose proof (Q.min_glb_lt _ _ _ E0 E1) as M. pose proof (Q.le_min_l e0 e1). pose proof (Q.le_min_r e0 e1).
    assert (M2 : 0 < Qmin e0 e1 / 2 < Qmin e0 e1) by (split; [apply Qlt_shift_div_l; lra|apply Qlt_shift_div_r; lra]).
    exists (Qmin e0 e1 / 2). split; [lra|]. apply (A12 s _ I). apply H1. lra.
  - exists t, c'. split; [exact T|]. split; [exact G'|]. apply (place_trans _ _ _ P). now apply place_sym.
Qed.

(** Back to a vertex of the first one. *)
Lemma carried21 t c b v : In t out2 -> germ m at2 t c b -> (v < n1)%N -> same_place (at2 c) (at1 v) ->
  exists s c', In s out1 /\ germ m at1 s c' b /\ same_place (at2 c) (at1 c').
Proof.
  intros I G V P.
  destruct (germ_inside m at2 t c b (at1 v) (vm_clockwise _ _ _ VM2 t I) G P) as (e1 & E1 & H1).
  destruct (germ_found m at1 n1 out1 VM1 R1 G1 v b V) as (s & c' & T & G' & P').
  - intros e0 E0. pose proof (Q.min_glb_lt _ _ _ E0 E1) as M. pose proof (Q.le_min_l e0 e1). pose proof (Q.le_min_r e0 e1).
    assert (M2 : 0 < Qmin e0 e1 / 2 < Qmin e0 e1) by (split; [apply Qlt_shift_div_l; lra|apply Qlt_shift_div_r; lra]).
    exists (Qmin e0 e1 / 2). split; [lra|]. apply (A21 t _ I). apply H1. lra.
  - exists s, c'. split; [exact T|]. split; [exact G'|]. apply (place_trans _ _ _ P). now apply place_sym.
Qed.

(** The rays at further vertices of the second one. *)
Variable tokens : list (N * bool).
Hypothesis TN : NoDup tokens.
Hypothesis TD : forall u v b, In (u, b) tokens -> In (v, b) tokens -> same_place (at2 u) (at2 v) -> u = v.
Hypothesis TR : forall u b, In (u, b) tokens -> (u < n2)%N.
Hypothesis TF : forall u b v, In (u, b) tokens -> (v < n1)%N -> ~ same_place (at2 u) (at1 v).
Hypothesis TC : forall u b, In (u, b) tokens -> forall e1, 0 < e1 -> exists e, 0 < e < e1 /\ covered at2 out2 (ray m (at2 u) b e).
Hypothesis TA : forall t c b, In t out2 -> germ m at2 t c b ->
  (exists v, (v < n1)%N /\ same_place (at2 c) (at1 v)) \/ exists u, In (u, b) tokens /\ same_place (at2 c) (at2 u).

Definition token_at (x : (N * N * N) + (N * bool)) (t : N * N * N) : Prop :=
  match x with
  | inl s => exists c c' b, germ m at1 s c b /\ germ m at2 t c' b /\ same_place (at1 c) (at2 c')
  | inr (u, b) => exists c', germ m at2 t c' b /\ same_place (at2 u) (at2 c')
  end.

Definition tokens_all : list ((N * N * N) + (N * bool)) := map inl out1 ++ map inr tokens.

Lemma tokens_nodup : NoDup tokens_all.
Proof.
  apply nodup_both.
  - apply FinFun.Injective_map_NoDup; [intros x y Q; congruence|]. exact (mesh_nodup at1 n1 out1 VM1).
  - apply FinFun.Injective_map_NoDup; [intros x y Q; congruence|exact TN].
  - intros x X Y. apply in_map_iff in X. apply in_map_iff in Y. destruct X as (a & <- & _), Y as (b & Q & _). discriminate Q.
Qed.

Lemma tokens_length : length tokens_all = (length out1 + length tokens)%nat.
Proof. unfold tokens_all. now rewrite app_length, !map_length. Qed.

Lemma count_ge : (length out1 + length tokens <= length out2)%nat.
Proof.
  rewrite <- tokens_length. apply (injection_le token_at); [exact tokens_nodup| |].
  - intros x X. apply in_app_or in X. destruct X as [X|X]; apply in_map_iff in X.
    + destruct X as (s & <- & S). destruct (mesh_germ m at1 n1 out1 VM1 R1 G1 s S) as (c & b & G).
      destruct (carried12 s c b S G) as (t & c' & T & G' & P). exists t. split; [exact T|]. exists c, c', b. auto.
    + destruct X as ((u, b) & <- & S).
      destruct (germ_found m at2 n2 out2 VM2 R2 G2 u b (TR u b S) (TC u b S)) as (t & c' & T & G' & P).
      exists t. split; [exact T|]. exists c'. split; [exact G'|]. now apply place_sym.
  - intros x y t X Y HX HY. apply in_app_or in X. apply in_app_or in Y.
    destruct X as [X|X]; apply in_map_iff in X; destruct Y as [Y|Y]; apply in_map_iff in Y.
    + destruct X as (s & <- & S), Y as (s' & <- & S').
      destruct HX as (c & c' & b & A & B & C). destruct HY as (d & d' & b' & A' & B' & C').
      destruct (germ_fun m at2 _ _ _ _ _ B B') as (-> & ->). f_equal.
      apply (germ_once m at1 n1 out1 VM1 s s' c d b' S S' A A'). apply (place_trans _ _ _ C). now apply place_sym.
    + destruct X as (s & <- & S), Y as ((u, b') & <- & S').
      destruct HX as (c & c' & b & A & B & C). destruct HY as (d' & B' & C').
      destruct (germ_fun m at2 _ _ _ _ _ B B') as (-> & ->). exfalso.
      apply (TF u b' c S'); [apply (R1 s); [exact S|exact (germ_corner m at1 s c b' A)]|].
      apply (place_trans _ _ _ C'). now apply place_sym.
    + destruct Y as (s & <- & S), X as ((u, b') & <- & S').
      destruct HY as (c & c' & b & A & B & C). destruct HX as (d' & B' & C').
      destruct (germ_fun m at2 _ _ _ _ _ B B') as (-> & ->). exfalso.
      apply (TF u b' c S'); [apply (R1 s); [exact S|exact (germ_corner m at1 s c b' A)]|].
      apply (place_trans _ _ _ C'). now apply place_sym.
    + destruct X as ((u, b) & <- & S), Y as ((u', b') & <- & S').
      destruct HX as (d & B & C). destruct HY as (d' & B' & C').
      destruct (germ_fun m at2 _ _ _ _ _ B B') as (-> & ->). f_equal. f_equal.
      apply (TD u u' b' S S'). apply (place_trans _ _ _ C). now apply place_sym.
Qed.

Lemma count_le : (length out2 <= length out1 + length tokens)%nat.
Proof.
  rewrite <- tokens_length. apply (injection_le (fun t x => token_at x t)); [exact (mesh_nodup at2 n2 out2 VM2)| |].
  - intros t T. destruct (mesh_germ m at2 n2 out2 VM2 R2 G2 t T) as (c & b & G).
    destruct (TA t c b T G) as [(v & V & P)|(u & U & P)].
    + destruct (carried21 t c b v T G V P) as (s & c' & S & G' & P').
      exists (inl s). split; [apply in_or_app; left; now apply in_map|]. exists c', c, b. split; [exact G'|]. split; [exact G|].
      now apply place_sym.
    + exists (inr (u, b)). split; [apply in_or_app; right; now apply in_map|]. exists c. split; [exact G|]. now apply place_sym.
  - intros t t' x T T' HX HY. destruct x as [s|(u, b)].
    + destruct HX as (c & c' & b & A & B & C). destruct HY as (d & d' & b' & A' & B' & C').
      destruct (germ_fun m at1 _ _ _ _ _ A A') as (-> & ->).
      apply (germ_once m at2 n2 out2 VM2 t t' c' d' b' T T' B B'). apply (place_trans _ (at1 d)); [now apply place_sym|exact C'].
    + destruct HX as (d & B & C). destruct HY as (d' & B' & C').
      apply (germ_once m at2 n2 out2 VM2 t t' d d' b T T' B B'). apply (place_trans _ (at2 u)); [now apply place_sym|exact C'].
Qed.
End Two.
