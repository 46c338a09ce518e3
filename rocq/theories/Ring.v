(** * Ring: the sides of a simple polygon in order, and the two polygons a diagonal cuts it into. *)

From Coq Require Import ZArith NArith List Bool QArith Lqa Lia Permutation.
From Verif Require Import Types Spec SpecDomain SpecWinding Winding Polygon.
Import ListNotations.
Local Open Scope Q_scope.

Lemma place_refl p : same_place p p. Proof. split; reflexivity. Qed.
Lemma place_sym p q : same_place p q -> same_place q p. Proof. intros (A & B). split; now symmetry. Qed.
Lemma place_trans p q r : same_place p q -> same_place q r -> same_place p r.
Proof. intros (A & B) (C & D). split; [now rewrite A|now rewrite B]. Qed.

Lemma along_back p q s : same_place (along p q s) (along q p (1 - s)).
Proof. unfold same_place, along. cbn [fst snd]. split; ring. Qed.

Lemma along_zero p q s : s == 0 -> same_place (along p q s) p.
Proof. intros Z. unfold same_place, along. cbn [fst snd]. rewrite Z. split; ring. Qed.
Lemma along_one p q s : s == 1 -> same_place (along p q s) q.
Proof. intros Z. unfold same_place, along. cbn [fst snd]. rewrite Z. split; ring. Qed.

Lemma along_start p q s : same_place p (along p q s) -> ~ same_place p q -> s == 0.
Proof.
  unfold same_place, along. cbn [fst snd]. intros (A & B) N. destruct (Qeq_dec s 0) as [Z|Z]; [exact Z|]. exfalso. apply N.
  assert (A' : s * (fst q - fst p) == 0) by lra. assert (B' : s * (snd q - snd p) == 0) by lra.
  destruct (Qmult_integral _ _ A'); [contradiction|]. destruct (Qmult_integral _ _ B'); [contradiction|]. split; lra.
Qed.

Section Ring.
Variable at_ : N -> point.
Local Notation "'src' e" := (at_ (efrom e)) (at level 5, e at level 4).
Local Notation "'dst' e" := (at_ (eto e)) (at level 5, e at level 4).

(** The edges of [l] lead one after the other from [p] to [q]. *)
Fixpoint path (p : point) (l : list edge) (q : point) : Prop :=
  match l with
  | [] => same_place p q
  | e :: r => same_place p (src e) /\ path (dst e) r q
  end.

Lemma path_ext p p' q q' l : same_place p p' -> same_place q q' -> path p l q -> path p' l q'.
Proof.
  revert p p'. induction l as [|e l IH]; intros p p' P Q; cbn [path].
  - intros K. eapply place_trans; [apply place_sym; exact P|]. eapply place_trans; [exact K|exact Q].
  - intros (A & B). split; [eapply place_trans; [apply place_sym; exact P|exact A]|]. exact (IH _ _ (place_refl _) Q B).
Qed.

Lemma path_app p l1 l2 q : path p (l1 ++ l2) q <-> exists m, path p l1 m /\ path m l2 q.
Proof.
  revert p. induction l1 as [|e l1 IH]; intros p; cbn [app path].
  - split; [intros K; exists p; split; [apply place_refl|exact K]|]. intros (m & A & B). exact (path_ext _ _ _ _ _ (place_sym _ _ A) (place_refl _) B).
  - rewrite IH. split; [intros (A & m & B & C); exists m; auto|intros (m & (A & B) & C); split; [exact A|exists m; auto]].
Qed.

Lemma path_at p l1 e l2 q : path p (l1 ++ e :: l2) q -> path p l1 (src e) /\ path (dst e) l2 q.
Proof.
  intros K. apply path_app in K. destruct K as (m & A & B & C). split; [|exact C]. exact (path_ext _ _ _ _ _ (place_refl _) B A).
Qed.

Lemma path_last p l q : path p l q -> l <> [] -> exists e, In e l /\ same_place (dst e) q.
Proof.
  revert p. induction l as [|e l IH]; intros p K N; [contradiction|]. destruct K as (A & B). destruct l as [|f l].
  - exists e. split; [now left|exact B].
  - destruct (IH _ B ltac:(discriminate)) as (g & I & D). exists g. split; [now right|exact D].
Qed.

Lemma same_loop_trans cs e f g : same_loop at_ cs e f -> same_loop at_ cs f g -> same_loop at_ cs e g.
Proof. intros A B. induction B as [|g h B IH J V]; [exact A|]. exact (loop_next _ _ _ _ _ IH J V). Qed.

Lemma path_loop cs c l : forall g q, path (dst g) l q -> incl l cs -> same_loop at_ cs c g ->
  (forall f, In f l -> same_loop at_ cs c f) /\ exists h, same_loop at_ cs c h /\ same_place (dst h) q.
Proof.
  induction l as [|e l IH]; intros g q K I L.
  - split; [intros f []|]. exists g. split; [exact L|exact K].
  - destruct K as (A & B). pose proof (loop_next _ _ _ _ _ L (I e (or_introl eq_refl)) A) as Le.
    destruct (IH e q B (fun f J => I f (or_intror J)) Le) as (X & Y). split; [|exact Y]. intros f [<-|J]; [exact Le|exact (X f J)].
Qed.

Section One.
Variable cs : list edge.
Hypothesis SL : simple_loops at_ cs.

(** Following a loop backwards until it closes. *)
Lemma grow e0 : In e0 cs -> forall k, exists h l, NoDup (h :: l) /\ incl (h :: l) cs /\ path (src h) (h :: l) (dst e0) /\
  (same_place (src h) (dst e0) \/ length l = k).
Proof.
  intros I k. induction k as [|k (h & l & D & J & P & C)].
  - exists e0, []. split; [repeat constructor; intros []|]. split; [intros f [<-|[]]; exact I|]. split; [split; apply place_refl|now right].
  - destruct C as [C|C]; [exists h, l; auto|].
    destruct (sl_prev _ _ SL h (J h (or_introl eq_refl))) as (g & Ig & V).
    destruct (in_dec edge_dec g (h :: l)) as [In_|Out].
    + exists h, l. split; [exact D|]. split; [exact J|]. split; [exact P|]. left.
      apply in_split in In_. destruct In_ as (l1 & l2 & Eq). rewrite Eq in P, D, J. destruct (path_at _ _ _ _ _ P) as (_ & P2).
      destruct l2 as [|f l2]; [cbn [path] in P2; eapply place_trans; [apply place_sym; exact V|exact P2]|].
      exfalso. destruct P2 as (P2 & _).
      assert (If : In f cs) by (apply J; apply in_or_app; right; right; left; reflexivity).
      assert (Ih : In h cs). { apply J. rewrite <- Eq. now left. }
      assert (K : f = h) by (apply (sl_start _ _ SL f h If Ih); eapply place_trans; [apply place_sym; exact P2|exact V]). subst f.
      destruct l1 as [|x l1]; cbn [app] in Eq, D; injection Eq as ? ?; subst; inversion D as [|? ? N _]; subst; apply N; [now left|].
      apply in_or_app. right. right. now left.
    + exists g, (h :: l). split; [constructor; assumption|]. split; [intros f [<-|K]; [exact Ig|exact (J f K)]|].
      split; [|right; cbn [length]; lia]. cbn [path]. split; [apply place_refl|]. destruct P as (_ & P). split; assumption.
Qed.

Lemma closed_ring e0 : In e0 cs -> exists l, NoDup l /\ incl l cs /\ l <> [] /\ exists p, path p l p.
Proof.
  intros I. destruct (grow e0 I (length cs)) as (h & l & D & J & P & C). exists (h :: l). split; [exact D|]. split; [exact J|]. split; [discriminate|].
  destruct C as [C|C].
  - exists (src h). exact (path_ext _ _ _ _ _ (place_refl _) (place_sym _ _ C) P).
  - pose proof (NoDup_incl_length D J). cbn [length] in *. lia.
Qed.

Lemma ring : (forall e f, In e cs -> In f cs -> same_loop at_ cs e f) -> cs <> [] -> exists l p, Permutation l cs /\ path p l p.
Proof.
  intros One Ne. destruct cs as [|e0 cs'] eqn:Ec; [contradiction|]. rewrite <- Ec in *. clear Ne.
  destruct (closed_ring e0) as (l & D & J & Nl & p & P); [rewrite Ec; now left|]. exists l, p. split; [|exact P].
  apply NoDup_Permutation; [exact D|exact (sl_once _ _ SL)|]. intros f. split; [apply J|]. intros If.
  destruct l as [|h l]; [contradiction|]. assert (Ih : In h (h :: l)) by now left.
  pose proof (One h f (J h Ih) If) as L. induction L as [|f g L IH Ig V]; [exact Ih|].
  assert (K : In f cs) by (inversion L; subst; [apply J; now left|assumption]). specialize (IH K).
  apply in_split in IH. destruct IH as (l1 & l2 & Eq). rewrite Eq in P. destruct (path_at _ _ _ _ _ P) as (P1 & P2).
  destruct l2 as [|f' l2].
  - cbn [path] in P2. assert (Z : same_place (src g) (src h)).
    { destruct l1 as [|x l1]; cbn [app] in Eq; injection Eq as ? ?; subst.
      - destruct P as (P & _). eapply place_trans; [apply place_sym; exact V|]. eapply place_trans; [exact P2|exact P].
      - destruct P1 as (P1 & _). eapply place_trans; [apply place_sym; exact V|]. eapply place_trans; [exact P2|exact P1]. }
    rewrite (sl_start _ _ SL g h Ig (J h Ih) Z). exact Ih.
  - destruct P2 as (P2 & _). assert (If' : In f' (h :: l)) by (rewrite Eq; apply in_or_app; right; right; now left).
    rewrite (sl_start _ _ SL g f' Ig (J f' If')); [exact If'|]. eapply place_trans; [apply place_sym; exact V|exact P2].
Qed.

(** The ring cut at two corners. *)
Lemma cut_ring ex ey : (forall e f, In e cs -> In f cs -> same_loop at_ cs e f) -> In ex cs -> In ey cs -> ~ same_place (src ex) (src ey) ->
  exists l1 l2, Permutation (l1 ++ l2) cs /\ path (src ex) l1 (src ey) /\ path (src ey) l2 (src ex).
Proof.
  intros One Ix Iy N. destruct (ring One) as (l & p & Pm & P); [intros ->; destruct Ix|].
  pose proof (Permutation_in _ (Permutation_sym Pm) Ix) as Jx. apply in_split in Jx. destruct Jx as (l1 & l2 & Eq). rewrite Eq in P.
  apply path_app in P. destruct P as (m & A & B & C).
  assert (K : path (src ex) (ex :: l2 ++ l1) (src ex)).
  { split; [apply place_refl|]. apply path_app. exists p. split; [exact C|]. exact (path_ext _ _ _ _ _ (place_refl _) B A). }
  assert (Pm' : Permutation (ex :: l2 ++ l1) cs).
  { rewrite <- Pm, Eq. apply (Permutation_app_comm (ex :: l2) l1). }
  pose proof (Permutation_in _ (Permutation_sym Pm') Iy) as Jy. apply in_split in Jy. destruct Jy as (m1 & m2 & Eq2).
  exists m1, (ey :: m2). rewrite <- Eq2. split; [exact Pm'|]. rewrite Eq2 in K. destruct (path_at _ _ _ _ _ K) as (K1 & K2).
  split; [exact K1|]. split; [apply place_refl|exact K2].
Qed.

(** A corner is not between the ends of a side. *)
Lemma corner_not_in e f u p : In e cs -> In f cs -> 0 < u < 1 -> same_place p (src f) -> ~ same_place p (along (src e) (dst e) u).
Proof.
  intros I J U K L. destruct (sl_meet _ _ SL e f u 0 I J ltac:(lra) ltac:(lra)) as [Z|(Z & _)].
  - eapply place_trans; [apply place_sym; exact L|]. eapply place_trans; [exact K|]. apply place_sym. now apply along_zero.
  - subst f. assert (Z : u == 0); [|lra]. apply (along_start (src e) (dst e)); [|exact (sl_proper _ _ SL e I)].
    eapply place_trans; [apply place_sym; exact K|exact L].
  - destruct Z; lra.
Qed.

Section Part.
Variables (x y : N) (l1 l2 : list edge).
Hypothesis Pm : Permutation (l1 ++ l2) cs.
Hypothesis P1 : path (at_ x) l1 (at_ y).
Hypothesis P2 : path (at_ y) l2 (at_ x).
Hypothesis Nxy : ~ same_place (at_ x) (at_ y).
Hypothesis Nside : forall e, In e cs -> same_place (src e) (at_ y) -> ~ same_place (dst e) (at_ x).
Hypothesis Clear : forall s, 0 < s < 1 -> ~ on_constraint at_ cs (along (at_ y) (at_ x) s).

Lemma part_in1 e : In e l1 -> In e cs.
Proof. intros I. apply (Permutation_in _ Pm). apply in_or_app. now left. Qed.
Lemma part_in2 e : In e l2 -> In e cs.
Proof. intros I. apply (Permutation_in _ Pm). apply in_or_app. now right. Qed.
Lemma part_not e : In e l1 -> In e l2 -> False.
Proof.
  intros I J. pose proof (Permutation_NoDup (Permutation_sym Pm) (sl_once _ _ SL)) as D.
  apply in_split in I. destruct I as (a & b & ->). rewrite <- app_assoc in D. cbn [app] in D. apply NoDup_remove_2 in D. apply D.
  apply in_or_app. right. apply in_or_app. now right.
Qed.

Lemma part_heads : exists e f, In e l1 /\ same_place (at_ x) (src e) /\ In f l2 /\ same_place (at_ y) (src f).
Proof.
  destruct l1 as [|e r]; [exfalso; apply Nxy; exact P1|]. destruct l2 as [|f r']; [exfalso; apply Nxy; apply place_sym; exact P2|].
  destruct P1 as (A & _). destruct P2 as (B & _). exists e, f. repeat split; try (now left); [apply A|apply A|apply B|apply B].
Qed.

Lemma part_polygon : simple_polygon at_ (Edge y x :: l1).
Proof.
  destruct part_heads as (h1 & h2 & I1 & H1 & I2 & H2).
  assert (Dm : ~ In (Edge y x) cs). { intros K. apply (Nside _ K); apply place_refl. }
  assert (Ends : forall f s r, In f l1 -> 0 <= s <= 1 -> 0 <= r <= 1 -> same_place (along (at_ y) (at_ x) s) (along (src f) (dst f) r) ->
    (s == 0 \/ s == 1) /\ (r == 0 \/ r == 1)).
  { intros f s r I S R K. pose proof (part_in1 f I) as If.
    assert (Zs : s == 0 \/ s == 1).
    { destruct (Q_dec s 0) as [[L|L]|L]; [lra| |now left]. destruct (Q_dec s 1) as [[M|M]|M]; [|lra|now right].
      exfalso. apply (Clear s (conj L M)). exists f, r. split; [exact If|]. split; [exact (sl_proper _ _ SL f If)|]. split; assumption. }
    split; [exact Zs|]. destruct (Q_dec r 0) as [[L|L]|L]; [lra| |now left]. destruct (Q_dec r 1) as [[M|M]|M]; [|lra|now right]. exfalso.
    destruct Zs as [Z|Z].
    - apply (corner_not_in f h2 r (at_ y) If (part_in2 _ I2) (conj L M) H2).
      eapply place_trans; [|exact K]. apply place_sym. now apply along_zero.
    - apply (corner_not_in f h1 r (at_ x) If (part_in1 _ I1) (conj L M) H1).
      eapply place_trans; [|exact K]. apply place_sym. now apply along_one. }
  split.
  - constructor.
    + constructor; [intros K; exact (Dm (part_in1 _ K))|]. pose proof (Permutation_NoDup (Permutation_sym Pm) (sl_once _ _ SL)) as D.
      clear - D. induction l1 as [|a l IH]; [constructor|]. cbn [app] in D. inversion D as [|? ? A B]; subst.
      constructor; [|exact (IH B)]. intros K. apply A. apply in_or_app. now left.
    + intros e [<-|I]; [intros K; exact (Nxy (place_sym _ _ K))|exact (sl_proper _ _ SL e (part_in1 e I))].
    + intros e [<-|I]; [exists h1; split; [now right|exact H1]|]. apply in_split in I. destruct I as (a & b & Eq). pose proof P1 as P. rewrite Eq in P.
      destruct (path_at _ _ _ _ _ P) as (_ & K). destruct b as [|f b]; [exists (Edge y x); split; [now left|exact K]|].
      destruct K as (K & _). exists f. split; [|exact K]. right. rewrite Eq. apply in_or_app. right. right. now left.
    + intros f [<-|I].
      * destruct (path_last _ _ _ P1) as (e & Ie & K); [intros Z; rewrite Z in I1; destruct I1|]. exists e. split; [now right|exact K].
      * apply in_split in I. destruct I as (a & b & Eq). pose proof P1 as P. rewrite Eq in P. destruct (path_at _ _ _ _ _ P) as (K & _).
        destruct a as [|e a]; [exists (Edge y x); split; [now left|exact K]|].
        destruct (path_last _ _ _ K ltac:(discriminate)) as (g & Ig & Kg). exists g. split; [|exact Kg]. right. rewrite Eq. apply in_or_app. now left.
    + intros e f [<-|I] [<-|J] K; [reflexivity| | |exact (sl_start _ _ SL e f (part_in1 _ I) (part_in1 _ J) K)]; exfalso.
      * apply (part_not h2); [|exact I2]. rewrite (sl_start _ _ SL h2 f (part_in2 _ I2) (part_in1 _ J)); [exact J|].
        eapply place_trans; [apply place_sym; exact H2|exact K].
      * apply (part_not h2); [|exact I2]. rewrite (sl_start _ _ SL h2 e (part_in2 _ I2) (part_in1 _ I)); [exact I|].
        eapply place_trans; [apply place_sym; exact H2|apply place_sym; exact K].
    + destruct (path_last _ _ _ P2) as (g & Ig & Kg); [intros Z; rewrite Z in I2; destruct I2|].
      intros e f [<-|I] [<-|J] K; [reflexivity| | |exact (sl_end _ _ SL e f (part_in1 _ I) (part_in1 _ J) K)]; exfalso.
      * apply (part_not g); [|exact Ig]. rewrite (sl_end _ _ SL g f (part_in2 _ Ig) (part_in1 _ J)); [exact J|]. exact (place_trans _ _ _ Kg K).
      * apply (part_not g); [|exact Ig]. rewrite (sl_end _ _ SL g e (part_in2 _ Ig) (part_in1 _ I)); [exact I|].
        exact (place_trans _ _ _ Kg (place_sym _ _ K)).
    + intros e f s r [<-|I] [<-|J] S R K; [now left| | |].
      * right. exact (Ends f s r J S R K).
      * right. destruct (Ends e r s I R S (place_sym _ _ K)). split; assumption.
      * exact (sl_meet _ _ SL e f s r (part_in1 _ I) (part_in1 _ J) S R K).
  - set (P := Edge y x :: l1). assert (Inc : incl l1 P) by (intros e I; now right).
    assert (F : forall f, In f P -> same_loop at_ P (Edge y x) f).
    { destruct (path_loop P (Edge y x) l1 (Edge y x) (at_ y) P1 Inc (loop_here _ _ _)) as (F & _).
      intros f [<-|I]; [apply loop_here|exact (F f I)]. }
    assert (B : forall e, In e P -> same_loop at_ P e (Edge y x)).
    { intros e [<-|I]; [apply loop_here|]. apply in_split in I. destruct I as (a & b & Eq). pose proof P1 as Pp. rewrite Eq in Pp.
      destruct (path_at _ _ _ _ _ Pp) as (_ & K).
      destruct (path_loop P e b e (at_ y) K) as (_ & h & L & V); [intros g J; apply Inc; rewrite Eq; apply in_or_app; right; now right|apply loop_here|].
      apply (loop_next _ _ _ h); [exact L|now left|exact V]. }
    intros e f I J. exact (same_loop_trans P _ _ _ (B e I) (F f J)).
Qed.
End Part.

Lemma total_perm l l' : Permutation l l' -> total l = total l'.
Proof. intros P. induction P; rewrite ?total_cons in *; lia. Qed.

Lemma winding_cut x y l1 l2 p : Permutation (l1 ++ l2) cs ->
  winding at_ cs p = (winding at_ (Edge y x :: l1) p + winding at_ (Edge x y :: l2) p)%Z.
Proof.
  intros Pm. unfold winding. change (fold_right Z.add 0%Z) with total. rewrite <- (total_perm _ _ (Permutation_map _ Pm)), map_app, total_app.
  cbn [map]. rewrite !total_cons. cbn [efrom eto]. rewrite (crossing_flip (at_ x) (at_ y)). lia.
Qed.
End One.
End Ring.
