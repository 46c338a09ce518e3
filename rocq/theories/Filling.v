(** * Filling: a simple polygon with k sides filled with triangles on its corners has k - 2 of them. *)

From Coq Require Import ZArith NArith List Bool QArith Qminmax Lqa Lia Permutation.
From Verif Require Import Types Spec SpecDomain SpecWinding Winding Inside TallyGrid Tally Tube Polygon Jordan Ring Diagonal.
Import ListNotations.
Local Open Scope Q_scope.

Section Filling.
Variable at_ : N -> point.
Local Notation "'src' e" := (at_ (efrom e)) (at level 5, e at level 4).
Local Notation "'dst' e" := (at_ (eto e)) (at level 5, e at level 4).

Lemma square_same p r : 0 < r -> square p r p.
Proof. intros R. unfold square. repeat split; lra. Qed.

(** The winding number around a point off the loops. *)
Lemma winding_around cs p : simple_loops at_ cs -> ~ on_constraint at_ cs p ->
  exists r, 0 < r /\ forall q, square p r q -> ~ on_constraint at_ cs q /\ winding at_ cs q = winding at_ cs p.
Proof.
  intros SL Nc. destruct (clear_around at_ cs p Nc) as (r & R & K). exists r. split; [exact R|]. intros q Sq. split; [exact (K q Sq)|].
  symmetry. apply (winding_step at_ cs (simple_closed at_ cs SL)). intros s S. apply K. now apply square_along.
Qed.

(** A point on the right of a side. *)
Lemma right_point cs e s z r0 : simple_loops at_ cs -> In e cs -> 0 < s < 1 -> near at_ cs e s z -> 0 < r0 ->
  exists q, square (along (src e) (dst e) s) r0 q /\ ~ on_constraint at_ cs q /\ winding at_ cs q = z /\ orient (src e) (dst e) q < 0.
Proof.
  intros SL I S (r & R & K) R0. destruct (clear_but at_ cs SL e s I S) as (r' & R' & C).
  set (m := along (src e) (dst e) s) in *. set (k := (fst m + (snd (dst e) - snd (src e)), snd m - (fst (dst e) - fst (src e)))).
  assert (Rm : 0 < Qmin r0 (Qmin r r')). { destruct (Q.min_spec r0 (Qmin r r')) as [(_ & ->)|(_ & ->)]; [exact R0|]. destruct (Q.min_spec r r') as [(_ & ->)|(_ & ->)]; assumption. }
  destruct (toward m k _ Rm) as (t & T & Sq). set (q := along m k t) in *.
  pose proof (Q.le_min_l r0 (Qmin r r')) as L1. pose proof (Q.le_min_r r0 (Qmin r r')) as L2. pose proof (Q.le_min_l r r') as L3. pose proof (Q.le_min_r r r') as L4.
  assert (O : orient (src e) (dst e) q < 0).
  { unfold q. rewrite orient_along. assert (Z : orient (src e) (dst e) m == 0) by apply orient_on. rewrite Z.
    assert (D : orient (src e) (dst e) k == orient (src e) (dst e) m - dot (src e) (dst e) (dst e)) by (unfold orient, k, dot; cbn [fst snd]; ring).
    rewrite D, Z. pose proof (square_pos _ _ (sl_proper _ _ SL e I)). destruct T. nra. }
  exists q. split; [exact (square_less _ _ _ _ L1 Sq)|]. split; [|split; [apply K; [apply (square_less _ (Qmin r0 (Qmin r r'))); [lra|exact Sq]|exact O]|exact O]].
  intros (f & u & J & _ & U & X). destruct (edge_dec f e) as [->|N].
  - rewrite (orient_place _ _ _ _ X), orient_on in O. lra.
  - apply (C q (square_less _ _ _ _ (Qle_trans _ _ _ L2 L4) Sq) f u J N U X).
Qed.

Lemma near_unique cs e s z z' : simple_loops at_ cs -> In e cs -> 0 < s < 1 -> near at_ cs e s z -> near at_ cs e s z' -> z = z'.
Proof.
  intros SL I S K (r & R & K'). destruct (right_point cs e s z r SL I S K R) as (q & Sq & _ & W & O). rewrite <- W. exact (proj1 (K' q Sq) O).
Qed.

Lemma simple_near cs e z : simple_polygon at_ cs -> In e cs -> near at_ cs e (1#2) z -> (0 < z)%Z ->
  z = 1%Z /\ forall f s, In f cs -> 0 < s < 1 -> near at_ cs f s 1%Z.
Proof.
  intros (SL & One) I K Z. destruct (right_point cs e (1#2) z 1 SL I half K ltac:(reflexivity)) as (q & _ & Nq & W & _).
  pose proof (polygon_inside at_ cs SL One (ex_intro _ q (conj Nq (eq_ind_r (fun x => (0 < x)%Z) Z W)))) as H.
  split; [exact (near_unique cs e (1#2) z 1 SL I half K (H e I))|]. intros f s J S. exact (near_along at_ cs SL f (1#2) s 1 J half S (H f J)).
Qed.

Lemma on_place cs p q : same_place p q -> on_constraint at_ cs p -> on_constraint at_ cs q.
Proof. intros K (e & s & I & P & S & X). exists e, s. split; [exact I|]. split; [exact P|]. split; [exact S|]. exact (place_trans _ _ _ (place_sym _ _ K) X). Qed.

Lemma tri_on_place t p q : same_place p q -> tri_inside_or_on at_ t p -> tri_inside_or_on at_ t q.
Proof. destruct t as ((a, b), c). intros K. unfold tri_inside_or_on, inside_or_on. rewrite !(orient_place _ _ _ _ K). auto. Qed.
Lemma tri_in_place t p q : same_place p q -> tri_inside at_ t p -> tri_inside at_ t q.
Proof. destruct t as ((a, b), c). intros K. unfold tri_inside, strictly_inside. rewrite !(orient_place _ _ _ _ K). auto. Qed.

Lemma corner_on t c : tri_clockwise at_ t -> tri_corner t c -> tri_inside_or_on at_ t (at_ c).
Proof.
  destruct t as ((x, y), z). unfold tri_clockwise, clockwise, tri_corner, tri_inside_or_on, inside_or_on.
  intros K [->|[->| ->]]; unfold orient in *; repeat split; lra.
Qed.

Lemma start_near A B : A < 0 -> exists s0, 0 < s0 <= 1 /\ forall s, 0 <= s <= s0 -> (1 - s) * A + s * B < 0.
Proof.
  intros H. destruct (Qlt_le_dec 0 B) as [L|L].
  - exists (- A / (2 * (B - A))). assert (E : - A / (2 * (B - A)) * (2 * (B - A)) == - A) by (field; lra).
    assert (S0 : 0 < - A / (2 * (B - A))) by (apply Qlt_shift_div_l; lra). assert (S1 : - A / (2 * (B - A)) <= 1) by (apply Qle_shift_div_r; lra).
    set (s0 := - A / (2 * (B - A))) in *. clearbody s0. split; [split; assumption|]. intros s (P & Q). nra.
  - exists (1#2). split; [split; [reflexivity|discriminate]|]. intros s (P & Q). nra.
Qed.

(** The inside of a triangle is open. *)
Lemma open_toward t p k : tri_inside at_ t p -> exists s0, 0 < s0 <= 1 /\ forall s, 0 <= s <= s0 -> tri_inside at_ t (along p k s).
Proof.
  destruct t as ((a, b), c). unfold tri_inside, strictly_inside. intros (A & B & C).
  destruct (start_near _ (orient (at_ a) (at_ b) k) A) as (s1 & S1 & K1). destruct (start_near _ (orient (at_ b) (at_ c) k) B) as (s2 & S2 & K2).
  destruct (start_near _ (orient (at_ c) (at_ a) k) C) as (s3 & S3 & K3).
  exists (Qmin s1 (Qmin s2 s3)). pose proof (Q.le_min_l s1 (Qmin s2 s3)). pose proof (Q.le_min_r s1 (Qmin s2 s3)). pose proof (Q.le_min_l s2 s3). pose proof (Q.le_min_r s2 s3).
  split; [split; [|lra]; destruct (Q.min_spec s1 (Qmin s2 s3)) as [(_ & ->)|(_ & ->)]; [lra|]; destruct (Q.min_spec s2 s3) as [(_ & ->)|(_ & ->)]; lra|].
  intros s S. rewrite !orient_along. repeat split; [apply K1|apply K2|apply K3]; lra.
Qed.

(** ** One of the two parts *)
Section Half.
Variables (cs P P' : list edge) (m : list (N * N * N)).
Hypothesis SL : simple_loops at_ cs.
Hypothesis FI : fills at_ cs m.
Hypothesis Vals : forall p, ~ on_constraint at_ cs p -> winding at_ cs p = 0%Z \/ winding at_ cs p = 1%Z.
Hypothesis SP : simple_loops at_ P.
Hypothesis SP' : simple_loops at_ P'.
Hypothesis NP : forall e s, In e P -> 0 < s < 1 -> near at_ P e s 1%Z.
Hypothesis NP' : forall e s, In e P' -> 0 < s < 1 -> near at_ P' e s 1%Z.
Hypothesis W : forall p, winding at_ cs p = (winding at_ P p + winding at_ P' p)%Z.
Hypothesis On : forall p, on_constraint at_ cs p -> on_constraint at_ P p \/ on_constraint at_ P' p.
Hypothesis Co : forall e, In e cs -> In e P \/ In e P'.
Hypothesis Hend : forall e f r, In e cs -> In f P -> 0 < r < 1 -> ~ same_place (src e) (along (src f) (dst f) r).
Hypothesis Odiag : forall t p, In t m -> tri_inside at_ t p -> ~ on_constraint at_ P p.
Hypothesis Hsrc : forall e, In e P -> exists f, In f cs /\ same_place (src e) (src f).
Hypothesis Some_ : exists e, In e P.

Definition half_of : list (N * N * N) := filter (fun t => Z.eqb (winding at_ P (mid at_ t)) 1) m.

Lemma half_inside t p q : In t m -> tri_inside at_ t p -> tri_inside at_ t q -> winding at_ P p = winding at_ P q.
Proof.
  intros I A B. apply (winding_step at_ P (simple_closed at_ P SP)). intros s S. apply (Odiag t); [exact I|]. now apply inside_along.
Qed.

Lemma half_off p : ~ on_constraint at_ P p -> winding at_ P p = 1%Z -> ~ on_constraint at_ P' p.
Proof.
  intros Np Wp (e & u & I & Pe & U & K). destruct (winding_around P p SP Np) as (r & R & A).
  destruct (toward p (along (src e) (dst e) (1#2)) r R) as (s & S & Sq).
  set (v := u + s * ((1#2) - u)). assert (V : 0 < v < 1) by (unfold v; destruct S, U; split; nra).
  assert (Pl : same_place (along p (along (src e) (dst e) (1#2)) s) (along (src e) (dst e) v)).
  { destruct K as (K1 & K2). unfold same_place, along in *. cbn [fst snd] in *. rewrite K1, K2. unfold v. split; ring. }
  set (p' := along p (along (src e) (dst e) (1#2)) s) in *. destruct (A p' Sq) as (Np' & Wp').
  destruct (winding_around P p' SP Np') as (r' & R' & A').
  destruct (right_point P' e v 1 r' SP' I V (NP' e v I V) R') as (q & Sq' & Nq & Wq & _).
  assert (Sq2 : square p' r' q). { destruct Pl as (X & Y). unfold square in *. rewrite X, Y. exact Sq'. }
  destruct (A' q Sq2) as (Nq' & Wq').
  destruct (Vals q) as [Z|Z]; [intros X; destruct (On q X); contradiction| |]; rewrite W in Z; lia.
Qed.

Lemma half_fills : fills at_ P half_of.
Proof.
  assert (Sub : forall t, In t half_of -> In t m /\ winding at_ P (mid at_ t) = 1%Z).
  { intros t I. apply filter_In in I. destruct I as (I & Z). split; [exact I|]. now apply Z.eqb_eq. }
  assert (NrV : forall p, ~ on_constraint at_ P' p -> winding at_ P' p = 0%Z \/ winding at_ P' p = 1%Z).
  { intros p. apply (near_values at_ P' SP'). intros e I. exact (NP' e (1#2) I half). }
  assert (Around : forall t p, In t m -> tri_inside_or_on at_ t p -> ~ on_constraint at_ P p -> winding at_ P (mid at_ t) = winding at_ P p).
  { intros t p I O Np. destruct (winding_around P p SP Np) as (r & R & A). destruct (toward p (mid at_ t) r R) as (s & S & Sq).
    pose proof (mid_inside at_ t (fi_clockwise _ _ _ FI t I)) as M. destruct (A _ Sq) as (_ & E). rewrite <- E.
    apply (half_inside t); [exact I|exact M|]. now apply inward. }
  constructor.
  - intros t I. exact (fi_clockwise _ _ _ FI t (proj1 (Sub t I))).
  - intros s t p I J. exact (fi_disjoint _ _ _ FI s t p (proj1 (Sub s I)) (proj1 (Sub t J))).
  - apply NoDup_filter. exact (fi_once _ _ _ FI).
  - intros t c I C. destruct (Sub t I) as (It & Wt). destruct (fi_corner _ _ _ FI t c It C) as (e & Ie & K).
    destruct (Co e Ie) as [Ip|Ip]; [exists e; auto|].
    assert (Oc : tri_inside_or_on at_ t (at_ c)) by (apply corner_on; [exact (fi_clockwise _ _ _ FI t It)|exact C]).
    assert (Dec : on_constraint at_ P (at_ c) \/ ~ on_constraint at_ P (at_ c)) by (apply on_constraint_dec).
    destruct Dec as [(f & r & If & Pf & R & Kf)|Np].
    + assert (Z : r == 0 \/ r == 1).
      { destruct (Q_dec r 0) as [[L|L]|L]; [lra| |now left]. destruct (Q_dec r 1) as [[M|M]|M]; [|lra|now right].
        exfalso. apply (Hend e f r Ie If (conj L M)). exact (place_trans _ _ _ (place_sym _ _ K) Kf). }
      destruct Z as [Z|Z].
      * exists f. split; [exact If|]. eapply place_trans; [exact Kf|]. now apply along_zero.
      * destruct (sl_next _ _ SP f If) as (g & Ig & Vg). exists g. split; [exact Ig|]. eapply place_trans; [exact Kf|].
        eapply place_trans; [now apply along_one|exact Vg].
    + exfalso. apply (half_off (at_ c) Np).
      * rewrite <- (Around t (at_ c) It Oc Np). exact Wt.
      * exists e, 0. split; [exact Ip|]. split; [exact (sl_proper _ _ SP' e Ip)|]. split; [lra|].
        eapply place_trans; [exact K|]. apply place_sym. now apply along_zero.
  - intros t p I Q. destruct (Sub t I) as (It & Wt). split; [exact (Odiag t p It Q)|]. rewrite <- Wt. apply (half_inside t); [exact It|exact Q|].
    exact (mid_inside at_ t (fi_clockwise _ _ _ FI t It)).
  - intros p Np Wp. pose proof (half_off p Np Wp) as Np'.
    assert (Nc : ~ on_constraint at_ cs p) by (intros X; destruct (On p X); contradiction).
    assert (Wc : winding at_ cs p = 1%Z). { pose proof (W p). destruct (Vals p Nc); destruct (NrV p Np'); lia. }
    destruct (fi_all _ _ _ FI p Nc Wc) as (t & I & O). exists t. split; [|exact O]. apply filter_In. split; [exact I|].
    apply Z.eqb_eq. rewrite (Around t p I O Np). exact Wp.
  - intros t e I Ie O. destruct (Sub t I) as (It & _). destruct (Hsrc e Ie) as (f & If & K).
    destruct (fi_empty _ _ _ FI t f It If (tri_on_place t _ _ K O)) as (c & C & Kc). exists c. split; [exact C|]. exact (place_trans _ _ _ Kc (place_sym _ _ K)).
Qed.

Lemma half_some : half_of <> [].
Proof.
  destruct Some_ as (e & I). destruct (right_point P e (1#2) 1 1 SP I half (NP e (1#2) I half) ltac:(reflexivity)) as (q & _ & Nq & Wq & _).
  destruct (fi_all _ _ _ half_fills q Nq Wq) as (t & It & _). intros Z. rewrite Z in It. destruct It.
Qed.
End Half.

(** ** A triangle whose edges are all sides *)
Lemma side_dec cs x y : (exists e, In e cs /\ same_place (src e) (at_ x) /\ same_place (dst e) (at_ y)) \/
  (forall e, In e cs -> same_place (src e) (at_ x) -> ~ same_place (dst e) (at_ y)).
Proof.
  induction cs as [|f l [(e & I & K)|IH]]; [right; intros e []|left; exists e; split; [now right|exact K]|].
  destruct (same_place_dec' (src f) (at_ x)) as [A|A]; [destruct (same_place_dec' (dst f) (at_ y)) as [B|B]|].
  - left. exists f. split; [now left|auto].
  - right. intros e [<-|I]; [auto|exact (IH e I)].
  - right. intros e [<-|I]; [contradiction|exact (IH e I)].
Qed.

Lemma one_triangle cs m t x y z : simple_polygon at_ cs -> fills at_ cs m -> In t m -> turned t x y z ->
  (exists e, In e cs /\ same_place (src e) (at_ x) /\ same_place (dst e) (at_ y)) ->
  (exists e, In e cs /\ same_place (src e) (at_ y) /\ same_place (dst e) (at_ z)) ->
  (exists e, In e cs /\ same_place (src e) (at_ z) /\ same_place (dst e) (at_ x)) ->
  length cs = 3%nat /\ length m = 1%nat.
Proof.
  intros (SL & One) FI It Tu (e1 & I1 & A1 & B1) (e2 & I2 & A2 & B2) (e3 & I3 & A3 & B3).
  pose proof (turned_clockwise at_ _ _ _ _ Tu (fi_clockwise _ _ _ FI t It)) as Cw. unfold clockwise in Cw.
  assert (Nxy : ~ same_place (at_ x) (at_ y)). { intros (A & B). unfold orient in Cw. rewrite A, B in Cw. lra. }
  assert (Nyz : ~ same_place (at_ y) (at_ z)). { intros (A & B). unfold orient in Cw. rewrite A, B in Cw. lra. }
  assert (Nzx : ~ same_place (at_ z) (at_ x)). { intros (A & B). unfold orient in Cw. rewrite A, B in Cw. lra. }
  assert (All : forall f, In f cs -> f = e1 \/ f = e2 \/ f = e3).
  { intros f If. pose proof (One e1 f I1 If) as L. clear If. induction L as [|f g L IH J V]; [now left|]. destruct IH as [->|[->| ->]].
    - right. left. apply (sl_start _ _ SL g e2 J I2). apply (place_trans _ _ _ (place_sym _ _ V)). exact (place_trans _ _ _ B1 (place_sym _ _ A2)).
    - right. right. apply (sl_start _ _ SL g e3 J I3). apply (place_trans _ _ _ (place_sym _ _ V)). exact (place_trans _ _ _ B2 (place_sym _ _ A3)).
    - left. apply (sl_start _ _ SL g e1 J I1). apply (place_trans _ _ _ (place_sym _ _ V)). exact (place_trans _ _ _ B3 (place_sym _ _ A1)). }
  split.
  - assert (D : NoDup [e1; e2; e3]).
    { repeat constructor; cbn [In]; intros K; repeat destruct K as [K|K]; try contradiction; subst;
        [apply Nxy; exact (place_trans _ _ _ (place_sym _ _ A1) A2)|apply Nzx; exact (place_trans _ _ _ (place_sym _ _ A3) A1)|apply Nyz; exact (place_trans _ _ _ (place_sym _ _ A2) A3)]. }
    change 3%nat with (length [e1; e2; e3]). apply Permutation_length. apply NoDup_Permutation; [exact (sl_once _ _ SL)|exact D|].
    intros f. split; [intros I; destruct (All f I) as [->|[->| ->]]; cbn; auto|]. cbn [In]. intros [<-|[<-|[<-|[]]]]; assumption.
  - assert (Same : forall s, In s m -> s = t).
    { intros s Is. symmetry. apply (fi_disjoint _ _ _ FI t s (mid at_ t) It Is (mid_inside at_ t (fi_clockwise _ _ _ FI t It))).
      pose proof (mid_inside at_ t (fi_clockwise _ _ _ FI t It)) as M. apply (turned_inside at_ _ _ _ _ _ Tu) in M. set (g := mid at_ t) in *. clearbody g.
      assert (Pl : forall c, tri_corner s c -> same_place (at_ c) (at_ x) \/ same_place (at_ c) (at_ y) \/ same_place (at_ c) (at_ z)).
      { intros c C. destruct (fi_corner _ _ _ FI s c Is C) as (e & Ie & K). destruct (All e Ie) as [->|[->| ->]];
          [left|right; left|right; right]; eapply place_trans; eassumption. }
      pose proof (fi_clockwise _ _ _ FI s Is) as Cs. destruct s as ((a, b), c). cbn [tri_clockwise tri_inside] in *. unfold clockwise in Cs. unfold strictly_inside in *.
      pose proof (Pl a ltac:(cbn; auto)) as Pa. pose proof (Pl b ltac:(cbn; auto)) as Pb. pose proof (Pl c ltac:(cbn; auto)) as Pc.
      clear - Cs M Cw Pa Pb Pc. destruct M as (M1 & M2 & M3). unfold orient in *.
      destruct Pa as [(a1 & a2)|[(a1 & a2)|(a1 & a2)]]; destruct Pb as [(b1 & b2)|[(b1 & b2)|(b1 & b2)]]; destruct Pc as [(c1 & c2)|[(c1 & c2)|(c1 & c2)]];
        rewrite a1, a2, b1, b2, c1, c2 in *; first [exfalso; lra|repeat split; lra]. }
    pose proof (fi_once _ _ _ FI) as D. destruct m as [|s [|s' r]]; [destruct It|reflexivity|].
    exfalso. inversion D as [|? ? K _]; subst. apply K. left. rewrite (Same s ltac:(now left)), (Same s' ltac:(right; now left)). reflexivity.
Qed.

(** ** Cutting along an edge that is not a side *)
Lemma filter_both {A} (f g : A -> bool) l : (forall a, In a l -> f a = negb (g a)) -> length l = (length (filter f l) + length (filter g l))%nat.
Proof.
  intros H. induction l as [|a l IH]; [reflexivity|]. cbn [filter length]. rewrite (H a (or_introl eq_refl)), IH; [|intros b I; apply H; now right].
  destruct (g a); cbn [negb length]; lia.
Qed.

Lemma cut cs m t x y z : simple_polygon at_ cs -> fills at_ cs m -> In t m -> turned t x y z ->
  (forall e, In e cs -> same_place (src e) (at_ x) -> ~ same_place (dst e) (at_ y)) ->
  exists P1 P2 m1 m2, simple_polygon at_ P1 /\ simple_polygon at_ P2 /\ fills at_ P1 m1 /\ fills at_ P2 m2 /\ m1 <> [] /\ m2 <> [] /\
    length m = (length m1 + length m2)%nat /\ (length P1 + length P2 = length cs + 2)%nat /\ (length P1 < length cs)%nat /\ (length P2 < length cs)%nat.
Proof.
  intros (SL & One) FI It Tu Ns.
  pose proof (fi_clockwise _ _ _ FI t It) as Ct. pose proof (turned_clockwise at_ _ _ _ _ Tu Ct) as Cw.
  pose proof (mid_inside at_ t Ct) as Mt. destruct (fi_inside _ _ _ FI t _ It Mt) as (Nm & Wm).
  assert (N1 : forall e, In e cs -> near at_ cs e (1#2) 1%Z). { apply (polygon_inside at_ cs SL One). exists (mid at_ t). split; [exact Nm|lia]. }
  assert (NR : forall e s, In e cs -> 0 < s < 1 -> near at_ cs e s 1%Z). { intros e s I S. exact (near_along at_ cs SL e (1#2) s 1 I half S (N1 e I)). }
  assert (Vals : forall p, ~ on_constraint at_ cs p -> winding at_ cs p = 0%Z \/ winding at_ cs p = 1%Z) by (intros p; exact (near_values at_ cs SL p N1)).
  assert (Nxy : ~ same_place (at_ x) (at_ y)). { unfold clockwise in Cw. intros (A & B). unfold orient in Cw. rewrite A, B in Cw. lra. }
  assert (Nyx : ~ same_place (at_ y) (at_ x)) by (intros K; apply Nxy; now apply place_sym).
  destruct (fi_corner _ _ _ FI t x It) as (ex & Ix & Kx); [apply (turned_corner at_ _ _ _ _ _ Tu); auto|].
  destruct (fi_corner _ _ _ FI t y It) as (ey & Iy & Ky); [apply (turned_corner at_ _ _ _ _ _ Tu); auto|].
  destruct (cut_ring at_ cs SL ex ey One Ix Iy) as (l1 & l2 & Pm & Q1 & Q2).
  { intros K. apply Nxy. exact (place_trans _ _ _ Kx (place_trans _ _ _ K (place_sym _ _ Ky))). }
  apply (path_ext at_ _ _ _ _ l1 (place_sym _ _ Kx) (place_sym _ _ Ky)) in Q1. apply (path_ext at_ _ _ _ _ l2 (place_sym _ _ Ky) (place_sym _ _ Kx)) in Q2.
  assert (Nr : forall e, In e cs -> same_place (src e) (at_ y) -> ~ same_place (dst e) (at_ x)) by (intros e I; exact (no_reverse at_ cs m FI NR e t x y z I It Tu)).
  pose proof (clear_edge at_ cs m SL FI NR t x y z It Tu Ns) as Clear.
  assert (Clear' : forall s, 0 < s < 1 -> ~ on_constraint at_ cs (along (at_ y) (at_ x) s)).
  { intros s S K. apply (Clear (1 - s) ltac:(lra)). exact (on_place cs _ _ (along_back _ _ _) K). }
  assert (Pm' : Permutation (l2 ++ l1) cs) by (rewrite Permutation_app_comm; exact Pm).
  pose proof (part_polygon at_ cs SL x y l1 l2 Pm Q1 Q2 Nxy Nr Clear') as SP1.
  pose proof (part_polygon at_ cs SL y x l2 l1 Pm' Q2 Q1 Nyx Ns Clear) as SP2.
  set (P1 := Edge y x :: l1) in *. set (P2 := Edge x y :: l2) in *.
  assert (Ws : forall p, winding at_ cs p = (winding at_ P1 p + winding at_ P2 p)%Z) by (intros p; exact (winding_cut at_ cs x y l1 l2 p Pm)).
  assert (D1 : In (Edge y x) P1) by now left. assert (D2 : In (Edge x y) P2) by now left.
  (* both parts are clockwise *)
  destruct (near_exists at_ P1 (proj1 SP1) (Edge y x) (1#2) D1 half) as (z1 & K1). destruct (near_exists at_ P2 (proj1 SP2) (Edge x y) (1#2) D2 half) as (z2 & K2).
  assert (Sum : (z1 + z2 = 2)%Z).
  { destruct K1 as (r1 & R1 & K1). destruct K2 as (r2 & R2 & K2). cbn [efrom eto] in K1, K2.
    assert (R : 0 < Qmin r1 r2) by (destruct (Q.min_spec r1 r2) as [(_ & ->)|(_ & ->)]; assumption).
    destruct (toward (along (at_ x) (at_ y) (1#2)) (mid at_ t) _ R) as (s & S & Sq).
    assert (Oe : tri_inside_or_on at_ t (along (at_ x) (at_ y) (1#2))). { apply (turned_on at_ _ _ _ _ _ Tu). apply along_between; [exact Cw|lra]. }
    pose proof (inward at_ t _ _ s Oe Mt S) as Iq. set (q := along (along (at_ x) (at_ y) (1#2)) (mid at_ t) s) in *.
    destruct (fi_inside _ _ _ FI t q It Iq) as (_ & Wq). apply (turned_inside at_ _ _ _ _ _ Tu) in Iq. destruct Iq as (O & _).
    destruct (K2 q (square_less _ _ _ _ (Q.le_min_r r1 r2) Sq)) as (A2 & _). specialize (A2 O).
    destruct (K1 q) as (_ & A1).
    { apply (square_less _ _ _ _ (Q.le_min_l r1 r2)) in Sq. destruct (along_back (at_ y) (at_ x) (1#2)) as (X & Y).
      assert (H : 1 - (1#2) == (1#2)) by reflexivity. unfold square, along in *. cbn [fst snd] in *. rewrite H in X, Y. rewrite X, Y. exact Sq. }
    assert (O' : orient (at_ y) (at_ x) q == - orient (at_ x) (at_ y) q) by (unfold orient; ring).
    specialize (A1 ltac:(lra)). rewrite Ws, A1, A2 in Wq. lia. }
  assert (Nears : (forall f s, In f P1 -> 0 < s < 1 -> near at_ P1 f s 1%Z) /\ (forall f s, In f P2 -> 0 < s < 1 -> near at_ P2 f s 1%Z)).
  { destruct (Z_lt_le_dec 0 z1) as [L|L].
    - destruct (simple_near P1 _ z1 SP1 D1 K1 L) as (E1 & H1). destruct (simple_near P2 _ z2 SP2 D2 K2 ltac:(lia)) as (_ & H2). auto.
    - destruct (simple_near P2 _ z2 SP2 D2 K2 ltac:(lia)) as (E2 & H2). destruct (simple_near P1 _ z1 SP1 D1 K1 ltac:(lia)) as (_ & H1). auto. }
  destruct Nears as (NP1 & NP2).
  assert (On12 : forall p, on_constraint at_ cs p -> on_constraint at_ P1 p \/ on_constraint at_ P2 p).
  { intros p (e & s & I & K). apply (Permutation_in _ (Permutation_sym Pm)) in I. apply in_app_or in I.
    destruct I as [I|I]; [left|right]; exists e, s; (split; [now right|exact K]). }
  assert (Co : forall e, In e cs -> In e P1 \/ In e P2).
  { intros e I. apply (Permutation_in _ (Permutation_sym Pm)) in I. apply in_app_or in I. destruct I as [I|I]; [left|right]; now right. }
  assert (In1 : forall e, In e l1 -> In e cs) by exact (part_in1 cs l1 l2 Pm). assert (In2 : forall e, In e l2 -> In e cs) by exact (part_in2 cs l1 l2 Pm).
  assert (Onsrc : forall e, In e cs -> on_constraint at_ cs (src e)).
  { intros e I. exists e, 0. split; [exact I|]. split; [exact (sl_proper _ _ SL e I)|]. split; [lra|]. apply place_sym. now apply along_zero. }
  assert (Onxy : on_constraint at_ cs (at_ x) /\ on_constraint at_ cs (at_ y)).
  { split; [exact (on_place cs _ _ (place_sym _ _ Kx) (Onsrc ex Ix))|exact (on_place cs _ _ (place_sym _ _ Ky) (Onsrc ey Iy))]. }
  assert (Hend1 : forall e f r, In e cs -> In f P1 -> 0 < r < 1 -> ~ same_place (src e) (along (src f) (dst f) r)).
  { intros e f r I [<-|J] R K; [exact (Clear' r R (on_place cs _ _ K (Onsrc e I)))|]. exact (corner_not_in at_ cs SL f e r _ (In1 f J) I R (place_refl _) K). }
  assert (Hend2 : forall e f r, In e cs -> In f P2 -> 0 < r < 1 -> ~ same_place (src e) (along (src f) (dst f) r)).
  { intros e f r I [<-|J] R K; [exact (Clear r R (on_place cs _ _ K (Onsrc e I)))|]. exact (corner_not_in at_ cs SL f e r _ (In2 f J) I R (place_refl _) K). }
  assert (Od : forall t' p s, In t' m -> tri_inside at_ t' p -> 0 <= s <= 1 -> ~ same_place p (along (at_ x) (at_ y) s)).
  { intros t' p s I Q S K. assert (Nc : ~ on_constraint at_ cs p) by exact (proj1 (fi_inside _ _ _ FI t' p I Q)).
    destruct (Q_dec s 0) as [[L|L]|L]; [lra| |].
    - destruct (Q_dec s 1) as [[M|M]|M]; [|lra|].
      + destruct (open_toward t' p (mid at_ t) Q) as (s0 & S0 & H). pose proof (H s0 ltac:(lra)) as Q'.
        assert (Op : tri_inside_or_on at_ t p).
        { apply (tri_on_place t _ _ (place_sym _ _ K)). apply (turned_on at_ _ _ _ _ _ Tu). apply along_between; [exact Cw|exact S]. }
        pose proof (inward at_ t p (mid at_ t) s0 Op Mt ltac:(lra)) as Q''.
        pose proof (fi_disjoint _ _ _ FI t' t _ I It Q' Q''). subst t'. apply (turned_inside at_ _ _ _ _ _ Tu) in Q. destruct Q as (O & _).
        rewrite (orient_place _ _ _ _ K), orient_along in O.
        assert (A : orient (at_ x) (at_ y) (at_ x) == 0) by (unfold orient; ring). assert (B : orient (at_ x) (at_ y) (at_ y) == 0) by (unfold orient; ring).
        rewrite A, B in O. lra.
      + apply Nc. apply (on_place cs (at_ y)); [|exact (proj2 Onxy)]. apply place_sym. eapply place_trans; [exact K|]. now apply along_one.
    - apply Nc. apply (on_place cs (at_ x)); [|exact (proj1 Onxy)]. apply place_sym. eapply place_trans; [exact K|]. now apply along_zero. }
  assert (Od1 : forall t' p, In t' m -> tri_inside at_ t' p -> ~ on_constraint at_ P1 p).
  { intros t' p I Q (e & s & [<-|J] & Pe & S & K).
    - apply (Od t' p (1 - s) I Q ltac:(lra)). exact (place_trans _ _ _ K (along_back _ _ _)).
    - apply (proj1 (fi_inside _ _ _ FI t' p I Q)). exists e, s. split; [exact (In1 e J)|]. auto. }
  assert (Od2 : forall t' p, In t' m -> tri_inside at_ t' p -> ~ on_constraint at_ P2 p).
  { intros t' p I Q (e & s & [<-|J] & Pe & S & K).
    - exact (Od t' p s I Q S K).
    - apply (proj1 (fi_inside _ _ _ FI t' p I Q)). exists e, s. split; [exact (In2 e J)|]. auto. }
  assert (Hs1 : forall e, In e P1 -> exists f, In f cs /\ same_place (src e) (src f)).
  { intros e [<-|J]; [exists ey; auto|exists e; split; [exact (In1 e J)|apply place_refl]]. }
  assert (Hs2 : forall e, In e P2 -> exists f, In f cs /\ same_place (src e) (src f)).
  { intros e [<-|J]; [exists ex; auto|exists e; split; [exact (In2 e J)|apply place_refl]]. }
  assert (Ws' : forall p, winding at_ cs p = (winding at_ P2 p + winding at_ P1 p)%Z) by (intros p; rewrite Ws; lia).
  assert (On21 : forall p, on_constraint at_ cs p -> on_constraint at_ P2 p \/ on_constraint at_ P1 p) by (intros p K; destruct (On12 p K); auto).
  assert (Co' : forall e, In e cs -> In e P2 \/ In e P1) by (intros e K; destruct (Co e K); auto).
  assert (E1 : exists e, In e P1) by (exists (Edge y x); exact D1). assert (E2 : exists e, In e P2) by (exists (Edge x y); exact D2).
  exists P1, P2, (half_of P1 m), (half_of P2 m). split; [exact SP1|]. split; [exact SP2|].
  split; [exact (half_fills cs P1 P2 m FI Vals (proj1 SP1) (proj1 SP2) NP2 Ws On12 Co Hend1 Od1 Hs1)|].
  split; [exact (half_fills cs P2 P1 m FI Vals (proj1 SP2) (proj1 SP1) NP1 Ws' On21 Co' Hend2 Od2 Hs2)|].
  split; [exact (half_some cs P1 P2 m FI Vals (proj1 SP1) (proj1 SP2) NP1 NP2 Ws On12 Co Hend1 Od1 Hs1 E1)|].
  split; [exact (half_some cs P2 P1 m FI Vals (proj1 SP2) (proj1 SP1) NP2 NP1 Ws' On21 Co' Hend2 Od2 Hs2 E2)|].
  assert (Len : (length cs = length l1 + length l2)%nat) by (rewrite <- (Permutation_length Pm), app_length; reflexivity).
  assert (L1 : (2 <= length l1)%nat).
  { destruct l1 as [|e [|e' r]]; [exfalso; apply Nxy; exact Q1| |cbn [length]; lia].
    exfalso. destruct Q1 as (A & B). exact (Ns e (In1 e (or_introl eq_refl)) (place_sym _ _ A) B). }
  assert (L2 : (2 <= length l2)%nat).
  { destruct l2 as [|e [|e' r]]; [exfalso; apply Nyx; exact Q2| |cbn [length]; lia].
    exfalso. destruct Q2 as (A & B). exact (Nr e (In2 e (or_introl eq_refl)) (place_sym _ _ A) B). }
  split; [|unfold P1, P2; cbn [length]; lia].
  apply filter_both. intros s Is. pose proof (mid_inside at_ s (fi_clockwise _ _ _ FI s Is)) as Ms.
  destruct (fi_inside _ _ _ FI s _ Is Ms) as (_ & Wsum). rewrite Ws in Wsum.
  destruct (near_values at_ P1 (proj1 SP1) _ (fun e I => NP1 e (1#2) I half) (Od1 s _ Is Ms)) as [Z|Z]; rewrite Z in *;
    [assert (Z2 : winding at_ P2 (mid at_ s) = 1%Z) by lia|assert (Z2 : winding at_ P2 (mid at_ s) = 0%Z) by lia]; rewrite Z2; reflexivity.
Qed.

(** Two triangles less than sides. *)
Theorem filling_count : forall k cs m, (length cs <= k)%nat -> simple_polygon at_ cs -> fills at_ cs m -> m <> [] -> (length m + 2 = length cs)%nat.
Proof.
  induction k as [|k IH]; intros cs m Hk SP FI Ne.
  - exfalso. destruct m as [|((x, y), z) r]; [contradiction|].
    destruct (fi_corner _ _ _ FI (x, y, z) x ltac:(now left) ltac:(cbn; auto)) as (e & I & _). destruct cs; [destruct I|cbn [length] in Hk; lia].
  - destruct m as [|t r] eqn:Em; [contradiction|]. rewrite <- Em in *. assert (It : In t m) by (rewrite Em; now left). destruct t as ((x, y), z).
    assert (Step : forall x' y' z', turned (x, y, z) x' y' z' -> (forall e, In e cs -> same_place (src e) (at_ x') -> ~ same_place (dst e) (at_ y')) ->
      (length m + 2 = length cs)%nat).
    { intros x' y' z' Tu Ns. destruct (cut cs m _ x' y' z' SP FI It Tu Ns) as (P1 & P2 & m1 & m2 & S1 & S2 & F1 & F2 & N1 & N2 & Lm & Lp & L1 & L2).
      pose proof (IH P1 m1 ltac:(lia) S1 F1 N1). pose proof (IH P2 m2 ltac:(lia) S2 F2 N2). lia. }
    destruct (side_dec cs x y) as [A|A]; [|apply (Step x y z); [left; reflexivity|exact A]].
    destruct (side_dec cs y z) as [B|B]; [|apply (Step y z x); [right; left; reflexivity|exact B]].
    destruct (side_dec cs z x) as [C|C]; [|apply (Step z x y); [right; right; reflexivity|exact C]].
    destruct (one_triangle cs m (x, y, z) x y z SP FI It (or_introl eq_refl) A B C). lia.
Qed.
End Filling.
