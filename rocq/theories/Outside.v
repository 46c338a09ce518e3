(** * Outside: from every point some side of the loops is seen; loops with the same winding number on
    the right of all sides keep exactly the points with this number, so a counter-clockwise polygon
    keeps the outside. *)
From Coq Require Import ZArith NArith List Bool QArith Lqa Lia Permutation.
From Verif Require Import Base Arith Types Spec SpecBox SpecDomain Triangulation Constrained InputSpec
  SpecWinding Winding Inside TallyGrid Tube Polygon Jordan Diagonal Rays.
Import ListNotations.
Local Open Scope Q_scope.

(** ** The first constraint on a segment *)
Section First.
Variable at_ : N -> point.
Local Notation "'src' e" := (at_ (efrom e)) (at level 5, e at level 4).
Local Notation "'dst' e" := (at_ (eto e)) (at level 5, e at level 4).

Lemma both_on e p g : proper at_ e -> orient (src e) (dst e) p == 0 -> orient (src e) (dst e) g == 0 -> orient p g (src e) == 0.
Proof.
  intros P A B. destruct (on_line_param _ _ _ P A) as (u & U1 & U2), (on_line_param _ _ _ P B) as (v & V1 & V2).
  unfold along in *. cbn [fst snd] in *. unfold orient. rewrite U1, U2, V1, V2. ring.
Qed.

Lemma affine_zero A B s : ~ (A == 0 /\ B == 0) -> (1 - s) * A + s * B == 0 -> s == A / (A - B).
Proof.
  intros Z K. assert (Ne : ~ A - B == 0). { intros Q. apply Z. split; nra. }
  assert (K' : s * (A - B) == A) by lra. transitivity (s * (A - B) / (A - B)); [field; exact Ne|]. now rewrite K'.
Qed.

(** The line from [p] to [g] has none of the ends of [e] on it. *)
Definition misses (p g : point) (e : edge) : Prop := ~ orient p g (src e) == 0 /\ ~ orient p g (dst e) == 0.

Lemma on_one e p : on_constraint at_ [e] p -> proper at_ e /\ orient (src e) (dst e) p == 0.
Proof.
  intros (f & s & [<- | []] & P & S & K1 & K2). split; [exact P|]. unfold orient, along in *. cbn [fst snd] in *. rewrite K1, K2. ring.
Qed.

Lemma one_hit e p g : misses p g e ->
  (forall t, 0 <= t <= 1 -> ~ on_constraint at_ [e] (along p g t)) \/
  exists t, 0 <= t <= 1 /\ on_constraint at_ [e] (along p g t) /\
    forall t', 0 <= t' <= 1 -> on_constraint at_ [e] (along p g t') -> t <= t'.
Proof.
  intros (M1 & M2). set (C := orient (src e) (dst e) p). set (D := orient (src e) (dst e) g).
  assert (K : forall t, on_constraint at_ [e] (along p g t) -> ~ C == D /\ t == C / (C - D)).
  { intros t O. destruct (on_one _ _ O) as (P & Z). rewrite Winding.orient_along in Z. fold C D in Z.
    assert (Ne : ~ C == D).
    { intros Q. apply M1. apply both_on; [exact P| |]; fold C D; clear - Z Q; nra. }
    split; [exact Ne|]. apply affine_zero; [|exact Z]. intros (Z1 & Z2). apply Ne. now rewrite Z1, Z2. }
  destruct (Qeq_dec C D) as [Q|Q]; [left; intros t T O; apply (proj1 (K t O) Q)|].
  set (t := C / (C - D)) in *.
  assert (Dec : 0 <= t <= 1 \/ ~ 0 <= t <= 1). { destruct (Qlt_le_dec t 0); [right; lra|]. destruct (Qlt_le_dec 1 t); [right; lra|]. left; lra. }
  assert (Same : forall t', t' == t -> on_constraint at_ [e] (along p g t') -> on_constraint at_ [e] (along p g t)).
  { intros t' Q' (f & s & I & P & S & K1 & K2). exists f, s. split; [exact I|]. split; [exact P|]. split; [exact S|].
    split; [rewrite <- K1|rewrite <- K2]; unfold along; cbn [fst snd]; rewrite Q'; reflexivity. }
  destruct Dec as [Dec|Dec].
  - destruct (on_constraint_dec at_ [e] (along p g t)) as [O|O].
    + right. exists t. split; [exact Dec|]. split; [exact O|]. intros t' _ O'. destruct (K t' O') as (_ & Q'). rewrite Q'. apply Qle_refl.
    + left. intros t' _ O'. apply O. apply (Same t'); [exact (proj2 (K t' O'))|exact O'].
  - left. intros t' T O'. apply Dec. destruct (K t' O') as (_ & Q'). rewrite Q' in T. exact T.
Qed.

Lemma on_cons e l p : on_constraint at_ (e :: l) p <-> on_constraint at_ [e] p \/ on_constraint at_ l p.
Proof.
  split.
  - intros (f & s & [<- | I] & R); [left; exists e, s|right; exists f, s]; (split; [first [now left|exact I]|exact R]).
  - intros [(f & s & [<- | []] & R)|(f & s & I & R)]; [exists e, s|exists f, s]; (split; [first [now left|now right]|exact R]).
Qed.

Lemma first_hit p g l : (forall e, In e l -> misses p g e) ->
  (forall t, 0 <= t <= 1 -> ~ on_constraint at_ l (along p g t)) \/
  exists t, 0 <= t <= 1 /\ on_constraint at_ l (along p g t) /\
    forall t', 0 <= t' <= 1 -> on_constraint at_ l (along p g t') -> t <= t'.
Proof.
  induction l as [|e l IH]; intros M; [left; intros t _ (f & s & [] & _)|].
  destruct (one_hit e p g (M e (or_introl eq_refl))) as [A|(t1 & T1 & O1 & L1)];
    destruct (IH (fun f I => M f (or_intror I))) as [B|(t2 & T2 & O2 & L2)].
  - left. intros t T O. apply on_cons in O. destruct O as [O|O]; [exact (A t T O)|exact (B t T O)].
  - right. exists t2. split; [exact T2|]. split; [apply on_cons; now right|]. intros t' T O. apply on_cons in O.
    destruct O as [O|O]; [destruct (A t' T O)|exact (L2 t' T O)].
  - right. exists t1. split; [exact T1|]. split; [apply on_cons; now left|]. intros t' T O. apply on_cons in O.
    destruct O as [O|O]; [exact (L1 t' T O)|destruct (B t' T O)].
  - right. destruct (Qlt_le_dec t1 t2) as [L|L].
    + exists t1. split; [exact T1|]. split; [apply on_cons; now left|]. intros t' T O. apply on_cons in O.
      destruct O as [O|O]; [exact (L1 t' T O)|specialize (L2 t' T O); lra].
    + exists t2. split; [exact T2|]. split; [apply on_cons; now right|]. intros t' T O. apply on_cons in O.
      destruct O as [O|O]; [specialize (L1 t' T O); lra|exact (L2 t' T O)].
Qed.

(** ** A line that misses all ends *)
Lemma below (l : list Q) : exists s, 0 < s < 1 /\ forall x, In x l -> ~ x == s.
Proof.
  assert (H : exists m, 0 < m <= 1 /\ forall x, In x l -> 0 < x -> m <= x).
  { induction l as [|x l (m & M & IH)]; [exists 1; split; [lra|intros x []]|].
    destruct (Qlt_le_dec 0 x) as [P|P]; [destruct (Qlt_le_dec x m) as [L|L]|].
    - exists x. split; [lra|]. intros y [<- | I] Y; [lra|]. specialize (IH y I Y). lra.
    - exists m. split; [exact M|]. intros y [<- | I] Y; [exact L|exact (IH y I Y)].
    - exists m. split; [exact M|]. intros y [<- | I] Y; [lra|exact (IH y I Y)]. }
  destruct H as (m & M & K). exists (m * (1#2)). split; [lra|]. intros x I Q. specialize (K x I). lra.
Qed.

Lemma aim cs e p : In e cs -> proper at_ e -> ~ orient (src e) (dst e) p == 0 ->
  (forall f, In f cs -> ~ same_place p (src f) /\ ~ same_place p (dst f)) ->
  exists s, 0 < s < 1 /\ forall f, In f cs -> misses p (along (src e) (dst e) s) f.
Proof.
  intros I P O Ends. set (bad q := orient p (src e) q / (orient p (src e) q - orient p (dst e) q)).
  destruct (below (map (fun f => bad (src f)) cs ++ map (fun f => bad (dst f)) cs)) as (s & S & K).
  exists s. split; [exact S|].
  assert (G : forall q, ~ same_place p q -> ~ bad q == s -> ~ orient p (along (src e) (dst e) s) q == 0).
  { intros q Nq Nb Z. apply Nb. unfold bad. symmetry. apply affine_zero.
    - intros (A & B). apply O.
      assert (X : (fst q - fst p) * orient (src e) (dst e) p == 0).
      { transitivity ((fst (dst e) - fst p) * orient p (src e) q - (fst (src e) - fst p) * orient p (dst e) q); [unfold orient; ring|]. rewrite A, B. ring. }
      assert (Y : (snd q - snd p) * orient (src e) (dst e) p == 0).
      { transitivity ((snd (dst e) - snd p) * orient p (src e) q - (snd (src e) - snd p) * orient p (dst e) q); [unfold orient; ring|]. rewrite A, B. ring. }
      apply Qmult_integral in X. apply Qmult_integral in Y. destruct X as [X|X]; [|exact X]. destruct Y as [Y|Y]; [|exact Y].
      exfalso. apply Nq. split; lra.
    - rewrite <- Z. unfold orient, along. cbn [fst snd]. ring. }
  intros f J. destruct (Ends f J) as (E1 & E2). split; apply G; [exact E1| |exact E2|]; apply K; apply in_or_app; [left|right];
    apply in_map_iff; exists f; split; auto.
Qed.

Lemma off_side cs e p : proper at_ e -> ~ on_constraint at_ cs p ->
  exists q, apart at_ cs p q /\ ~ on_constraint at_ cs q /\ ~ orient (src e) (dst e) q == 0.
Proof.
  intros P Nc. destruct (clear_around at_ cs p Nc) as (r & R & K).
  assert (Kp : square p r p) by (unfold square; repeat split; lra).
  destruct (Qeq_dec (orient (src e) (dst e) p) 0) as [Z|Z].
  2: { exists p. split; [|split; [exact Nc|exact Z]]. intros s _ (f & u & J & F & U & K1 & K2). apply Nc. exists f, u. split; [exact J|]. split; [exact F|].
       split; [exact U|]. split; [rewrite <- K1|rewrite <- K2]; unfold along; cbn [fst snd]; ring. }
  assert (H : forall q, square p r q -> apart at_ cs p q /\ ~ on_constraint at_ cs q).
  { intros q Sq. split; [|exact (K q Sq)]. intros s S. apply K. destruct Sq as (X & Y). unfold square, along. cbn [fst snd]. split; split; nra. }
  destruct (Qeq_dec (fst (dst e)) (fst (src e))) as [X|X].
  - exists (fst p + r, snd p). assert (Sq : square p r (fst p + r, snd p)) by (unfold square; cbn [fst snd]; repeat split; lra).
    destruct (H _ Sq) as (A & B). split; [exact A|]. split; [exact B|]. intros Z'.
    assert (W : r * (snd (dst e) - snd (src e)) == 0) by (clear - Z Z'; unfold orient in *; cbn [fst snd] in *; lra).
    apply Qmult_integral in W. destruct W as [W|W]; [lra|]. apply P. split; lra.
  - exists (fst p, snd p + r). assert (Sq : square p r (fst p, snd p + r)) by (unfold square; cbn [fst snd]; repeat split; lra).
    destruct (H _ Sq) as (A & B). split; [exact A|]. split; [exact B|]. intros Z'.
    assert (W : r * (fst (dst e) - fst (src e)) == 0) by (clear - Z Z'; unfold orient in *; cbn [fst snd] in *; lra).
    apply Qmult_integral in W. destruct W as [W|W]; [lra|]. apply X. lra.
Qed.

(** From every point one gets, without meeting a constraint, to a point that sees one. *)
Lemma sees_some cs e p : (forall f, In f cs -> proper at_ f) -> In e cs -> ~ on_constraint at_ cs p ->
  exists q f s, apart at_ cs p q /\ In f cs /\ 0 < s < 1 /\ ~ orient (src f) (dst f) q == 0 /\
    forall t, 0 < t <= 1 -> ~ on_constraint at_ cs (along (along (src f) (dst f) s) q t).
Proof.
  intros Pr I Nc. destruct (off_side cs e p (Pr e I) Nc) as (q & A & Nq & O).
  assert (Ends : forall f, In f cs -> ~ same_place q (src f) /\ ~ same_place q (dst f)).
  { intros f J. split; intros (K1 & K2); apply Nq; [exists f, 0|exists f, 1]; (split; [exact J|]); (split; [exact (Pr f J)|]);
      (split; [lra|]); unfold along; split; cbn [fst snd]; [rewrite K1|rewrite K2|rewrite K1|rewrite K2]; ring. }
  destruct (aim cs e q I (Pr e I) O Ends) as (s0 & S0 & M). set (g := along (src e) (dst e) s0) in *.
  destruct (first_hit q g cs M) as [No|(t & T & (f & s & J & P & S & K) & L)].
  { exfalso. apply (No 1); [lra|]. exists e, s0. split; [exact I|]. split; [exact (Pr e I)|]. split; [lra|].
    unfold along; split; cbn [fst snd]; unfold g, along; cbn [fst snd]; ring. }
  destruct (M f J) as (M1 & M2). assert (T0 : 0 < t).
  { destruct (Qlt_le_dec 0 t) as [X|X]; [exact X|]. exfalso. apply Nq. exists f, s. split; [exact J|]. split; [exact P|]. split; [exact S|].
    assert (t == 0) by lra. destruct K as (K1 & K2). unfold along in K1, K2 |- *. cbn [fst snd] in *. split; cbn [fst snd]; [rewrite <- K1|rewrite <- K2]; rewrite H; ring. }
  destruct K as (K1 & K2). unfold along in K1, K2. cbn [fst snd] in K1, K2.
  assert (Z : (1 - s) * orient q g (src f) + s * orient q g (dst f) == 0).
  { transitivity (orient q g (along (src f) (dst f) s)); [unfold orient, along; cbn [fst snd]; ring|].
    unfold orient, along. cbn [fst snd]. rewrite <- K1, <- K2. ring. }
  exists q, f, s. split; [exact A|]. split; [exact J|]. split; [|split].
  - split.
    + destruct (Qlt_le_dec 0 s); [assumption|]. exfalso. apply M1. assert (H : s == 0) by lra. rewrite H in Z. rewrite <- Z. ring.
    + destruct (Qlt_le_dec s 1); [assumption|]. exfalso. apply M2. assert (H : s == 1) by lra. rewrite H in Z. rewrite <- Z. ring.
  - intros Zq. apply M1. apply both_on; [exact P|exact Zq|].
    assert (Z2 : orient (src f) (dst f) (along q g t) == 0).
    { unfold orient, along. cbn [fst snd]. rewrite K1, K2. ring. }
    rewrite Winding.orient_along, Zq in Z2. assert (Z3 : t * orient (src f) (dst f) g == 0) by lra.
    apply Qmult_integral in Z3. destruct Z3; [lra|assumption].
  - intros u U (h & v & J' & P' & V & X1 & X2). assert (W : 0 <= t * (1 - u) <= 1) by (split; nra).
    assert (Le : t <= t * (1 - u)).
    { apply L; [exact W|]. exists h, v. split; [exact J'|]. split; [exact P'|]. split; [exact V|].
      unfold along in *. cbn [fst snd] in *. split; cbn [fst snd]; [rewrite <- X1, <- K1|rewrite <- X2, <- K2]; ring. }
    nra.
Qed.
End First.

(** ** Loops with the same number on the right of all sides *)
Section Same.
Variable at_ : N -> point.
Variable cs : list edge.
Hypothesis SL : simple_loops at_ cs.
Local Notation "'src' e" := (at_ (efrom e)) (at level 5, e at level 4).
Local Notation "'dst' e" := (at_ (eto e)) (at level 5, e at level 4).

Lemma right_value z e0 p : In e0 cs -> (forall e, In e cs -> near at_ cs e (1#2) z) -> ~ on_constraint at_ cs p ->
  (winding at_ cs p = z \/ winding at_ cs p = (z - 1)%Z) /\ (in_domain at_ cs p <-> winding at_ cs p = z).
Proof.
  intros I0 H Nc. destruct (sees_some at_ cs e0 p (sl_proper _ _ SL) I0 Nc) as (q & f & s & A & J & S & O & F).
  pose proof (simple_closed at_ cs SL) as CL.
  pose proof (winding_step at_ cs CL p q A) as W.
  destruct (near_seen at_ cs SL f s z q (near_along at_ cs SL f (1#2) s z J half S (H f J)) F) as (K1 & K2).
  assert (O' : orient (src f) (dst f) q < 0 \/ 0 < orient (src f) (dst f) q).
  { destruct (Qlt_le_dec (orient (src f) (dst f) q) 0); [now left|]. right. destruct (Qlt_le_dec 0 (orient (src f) (dst f) q)); [assumption|]. exfalso; apply O; lra. }
  split; [rewrite W; destruct O' as [O'|O']; [left; exact (K1 O')|right; exact (K2 O')]|]. split.
  - intros (q' & L & e & s' & I & S' & Oe & Fe). rewrite (winding_linked at_ cs CL p q' L).
    exact (proj1 (near_seen at_ cs SL e s' z q' (near_along at_ cs SL e (1#2) s' z I half S' (H e I)) Fe) Oe).
  - intros Q. destruct O' as [O'|O']; [|exfalso; specialize (K2 O'); lia].
    exists q. split; [exact (linked_next at_ cs p p q (linked_here at_ cs p) A)|]. exists f, s. auto.
Qed.

(** Simple loops turn around some point. *)
Lemma some_turn e : In e cs -> exists p, ~ on_constraint at_ cs p /\ winding at_ cs p <> 0%Z.
Proof.
  intros I. destruct (clear_but at_ cs SL e (1#2) I half) as (r & R & K). destruct (jump at_ cs SL e (1#2) r I half R K) as (p & q & P & Q & Op & Oq & J).
  assert (H : forall x, square (along (src e) (dst e) (1#2)) r x -> ~ orient (src e) (dst e) x == 0 -> ~ on_constraint at_ cs x).
  { intros x X O (f & u & If & _ & U & M). destruct (edge_dec f e) as [->|Ne]; [|exact (K x X f u If Ne U M)].
    apply O. destruct M as (M1 & M2). unfold orient, along in *. cbn [fst snd] in *. rewrite M1, M2. ring. }
  destruct (Z.eq_dec (winding at_ cs p) 0) as [Z|Z]; [exists q|exists p]; (split; [apply H; [assumption|lra]|lia]).
Qed.

Lemma loops_value z : (forall e, In e cs -> exists f q, same_loop at_ cs e f /\ sees_side at_ cs q f /\ orient (src f) (dst f) q < 0 /\ winding at_ cs q = z) ->
  forall e, In e cs -> near at_ cs e (1#2) z.
Proof.
  intros H e I. destruct (H e I) as (f & q & L & (s & S & F) & O & W). destruct (near_exists at_ cs SL e (1#2) I half) as (z' & K).
  destruct (near_loop at_ cs SL e f z' I L K) as (J & Kf).
  destruct (near_seen at_ cs SL f s z' q (near_along at_ cs SL f (1#2) s z' J half S Kf) F) as (A & _). rewrite (A O) in W. now subst z'.
Qed.
End Same.

(** ** Boxes *)
Local Open Scope N_scope.

Section Boxed.
Context {E : Env}.
Variables (vs : list vertex) (at_ : N -> point) (bound : Z) (fuel : nat) (n a b c d : N).
Hypothesis G : exact_input vs at_ bound.
Hypothesis Hid : 2 * lenN vs + 2 <= idmax.
Hypothesis Hf : ((2 * length vs + 4) * (2 * length vs + 4) <= fuel)%nat.
Hypothesis Hb : (1 <= bound)%Z.
Hypothesis Hn : lenN vs = n + 4.
Hypothesis Pm : Permutation [a; b; c; d] [n; n + 1; n + 2; n + 3].
Hypothesis Bx : box_corners (at_ a) (at_ b) (at_ c) (at_ d).
Hypothesis Hin : forall v, v < n -> in_box (at_ a) (at_ c) (at_ v).
Variable cs : list edge.
Hypothesis Hcs : forall e, In e cs -> efrom e < lenN vs /\ eto e < lenN vs /\ clear_between at_ (lenN vs) (efrom e) (eto e).

Lemma value_box z e0 : simple_loops at_ cs -> In e0 cs -> (forall e, In e cs -> near at_ cs e (1#2) z) ->
  exists out, constrained_triangulation_from_2d_vertices fuel 1 vs cs = Ret out /\
    forall p, ~ on_constraint at_ cs p -> (winding at_ cs p = z \/ winding at_ cs p = (z - 1)%Z) /\
      (covered at_ out p <-> in_box (at_ a) (at_ c) p /\ winding at_ cs p = z).
Proof.
  intros SL I0 Ne.
  destruct (box_call vs at_ bound fuel n a b c d cs G Hid Hf Hb Hn Pm Bx Hin) as (out & R & _ & _ & _ & C).
  - intros e I. destruct (Hcs e I) as (K1 & K2 & K3). auto.
  - exact (meet_noncrossing at_ cs SL).
  - exists out. split; [exact R|]. intros p Nc. destruct (right_value at_ cs SL z e0 p I0 Ne Nc) as (V & D). split; [exact V|].
    rewrite (C p Nc), D. reflexivity.
Qed.

Lemma loops_value_box z : simple_loops at_ cs -> cs <> [] ->
  (forall e, In e cs -> exists f q, same_loop at_ cs e f /\ sees_side at_ cs q f /\
     (orient (at_ (efrom f)) (at_ (eto f)) q < 0)%Q /\ winding at_ cs q = z) ->
  exists out, constrained_triangulation_from_2d_vertices fuel 1 vs cs = Ret out /\
    forall p, ~ on_constraint at_ cs p -> (winding at_ cs p = z \/ winding at_ cs p = (z - 1)%Z) /\
      (covered at_ out p <-> in_box (at_ a) (at_ c) p /\ winding at_ cs p = z).
Proof.
  intros SL Ne T. destruct cs as [|e0 l] eqn:Q; [destruct (Ne eq_refl)|]. rewrite <- Q in *.
  apply (value_box z e0 SL); [rewrite Q; now left|]. exact (loops_value at_ cs SL z T).
Qed.

Lemma polygon_outside_box : simple_polygon at_ cs -> (exists p, ~ on_constraint at_ cs p /\ (winding at_ cs p < 0)%Z) ->
  exists out, constrained_triangulation_from_2d_vertices fuel 1 vs cs = Ret out /\
    forall p, ~ on_constraint at_ cs p -> (winding at_ cs p = 0%Z \/ winding at_ cs p = (-1)%Z) /\
      (covered at_ out p <-> in_box (at_ a) (at_ c) p /\ winding at_ cs p = 0%Z).
Proof.
  intros SP (p0 & N0 & W0). destruct (turned_polygon at_ cs SP) as (TS & TO).
  assert (Ne : forall e, In e cs -> near at_ cs e (1#2) 0).
  { intros e I. apply turned_near. apply (polygon_inside at_ (turned_loop cs) TS TO); [|now apply turned_in].
    exists p0. split; [rewrite turned_on; exact N0|rewrite turned_winding; lia]. }
  assert (I0 : exists e0, In e0 cs).
  { destruct cs as [|e0 l]; [cbn in W0; lia|exists e0; now left]. }
  destruct I0 as (e0 & I0). exact (value_box 0 e0 (proj1 SP) I0 Ne).
Qed.
End Boxed.

Lemma turned_clear at_ n cs : (forall e, In e cs -> efrom e < n /\ eto e < n /\ clear_between at_ n (efrom e) (eto e)) ->
  forall e, In e (turned_loop cs) -> efrom e < n /\ eto e < n /\ clear_between at_ n (efrom e) (eto e).
Proof.
  intros H e I. apply in_map_iff in I. destruct I as (f & <- & I). destruct (H f I) as (A & B & C). cbn [turned_edge efrom eto].
  split; [exact B|]. split; [exact A|]. intros v s V S (K1 & K2). apply (C v (1 - s)%Q V); [lra|].
  unfold along in *. cbn [fst snd] in *. split; cbn [fst snd]; [rewrite K1|rewrite K2]; ring.
Qed.

(** A polygon and the same polygon taken backwards. *)
Lemma polygon_both {E : Env} (vs : list vertex) at_ bound fuel n a b c d cs :
  exact_input vs at_ bound -> 2 * lenN vs + 2 <= idmax ->
  ((2 * length vs + 4) * (2 * length vs + 4) <= fuel)%nat -> (1 <= bound)%Z ->
  lenN vs = n + 4 -> Permutation [a; b; c; d] [n; n + 1; n + 2; n + 3] ->
  box_corners (at_ a) (at_ b) (at_ c) (at_ d) ->
  (forall v, v < n -> in_box (at_ a) (at_ c) (at_ v)) ->
  (forall e, In e cs -> efrom e < lenN vs /\ eto e < lenN vs /\ clear_between at_ (lenN vs) (efrom e) (eto e)) ->
  simple_polygon at_ cs -> cs <> [] ->
  exists out out', constrained_triangulation_from_2d_vertices fuel 1 vs cs = Ret out /\
    constrained_triangulation_from_2d_vertices fuel 1 vs (turned_loop cs) = Ret out' /\
    forall p, ~ on_constraint at_ cs p -> in_box (at_ a) (at_ c) p -> (covered at_ out' p <-> ~ covered at_ out p).
Proof.
  intros G Hid Hf Hb Hn Pm Bx Hin Hcs SP NE.
  assert (I0 : exists e0, In e0 cs) by (destruct cs as [|e0 l]; [destruct (NE eq_refl)|exists e0; now left]).
  destruct I0 as (e0 & I0). destruct (some_turn at_ cs (proj1 SP) e0 I0) as (p0 & N0 & W0). clear e0 I0.
  assert (K : forall L, (forall e, In e L -> efrom e < lenN vs /\ eto e < lenN vs /\ clear_between at_ (lenN vs) (efrom e) (eto e)) ->
    simple_polygon at_ L -> ~ on_constraint at_ L p0 -> winding at_ L p0 <> 0%Z ->
    exists out z, constrained_triangulation_from_2d_vertices fuel 1 vs L = Ret out /\ (z = 0 \/ z = 1)%Z /\
      forall p, ~ on_constraint at_ L p -> (winding at_ L p = z \/ winding at_ L p = z - 1)%Z /\
        (covered at_ out p <-> in_box (at_ a) (at_ c) p /\ winding at_ L p = z)).
  { intros L HL SPL NL WL. destruct (Z.lt_total (winding at_ L p0) 0) as [W|[W|W]]; [|contradiction|].
    - destruct (polygon_outside_box vs at_ bound fuel n a b c d G Hid Hf Hb Hn Pm Bx Hin L HL SPL (ex_intro _ p0 (conj NL W))) as (out & R & C).
      exists out, 0%Z. auto.
    - assert (I0 : exists e0, In e0 L) by (destruct L as [|e0 l]; [cbn in W; lia|exists e0; now left]). destruct I0 as (e0 & I0).
      destruct (value_box vs at_ bound fuel n a b c d G Hid Hf Hb Hn Pm Bx Hin L HL 1 e0 (proj1 SPL) I0
        (polygon_inside at_ L (proj1 SPL) (proj2 SPL) (ex_intro _ p0 (conj NL W)))) as (out & R & C).
      exists out, 1%Z. auto. }
  destruct (K cs Hcs SP N0 W0) as (out & z & R & Z & C).
  destruct (K (turned_loop cs) (turned_clear at_ _ cs Hcs) (turned_polygon at_ cs SP)) as (out' & z' & R' & Z' & C').
  { rewrite turned_on. exact N0. } { rewrite turned_winding. lia. }
  exists out, out'. split; [exact R|]. split; [exact R'|]. intros p Nc B.
  assert (Nc' : ~ on_constraint at_ (turned_loop cs) p) by (rewrite turned_on; exact Nc).
  destruct (C p Nc) as (V & D), (C' p Nc') as (V' & D'). destruct (C p0 N0) as (V0 & _).
  assert (N0' : ~ on_constraint at_ (turned_loop cs) p0) by (rewrite turned_on; exact N0).
  destruct (C' p0 N0') as (V0' & _).
  rewrite D, D', !turned_winding in *. clear - B V V' Z Z' V0 V0' W0. intuition lia.
Qed.
