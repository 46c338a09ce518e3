(** * BaseFacts: lemmas about the result monad and list access. *)

From Coq Require Import NArith List Bool Lia Permutation.
From Verif Require Import Base.
Import ListNotations.
Local Open Scope N_scope.

Lemma bind_Ret {A B} (m : res A) (f : A -> res B) b :
  bind m f = Ret b -> exists a, m = Ret a /\ f a = Ret b.
Proof. destruct m; simpl; intros; try discriminate; eauto. Qed.

Ltac inv_Ret H :=
  let a := fresh "a" in
  let Ha := fresh "Hm" in
  apply bind_Ret in H; destruct H as (a & Ha & H).

Lemma getN_Ret {A} (l : list A) i x : getN l i = Ret x <-> nthN l i = Some x.
Proof. unfold getN; destruct (nthN l i); split; intros; congruence. Qed.

Lemma getN_Some {A} (l : list A) i x : nthN l i = Some x -> getN l i = Ret x.
Proof. apply getN_Ret. Qed.

Lemma setN_Ret {A} (l : list A) i (x : A) l' :
  setN l i x = Ret l' <-> (nthN l i <> None /\ l' = updN l i x).
Proof.
  unfold setN; destruct (nthN l i); split; intros H.
  - inversion H; subst; split; [congruence | reflexivity].
  - destruct H; subst; reflexivity.
  - discriminate.
  - destruct H; congruence.
Qed.

Lemma setN_Some {A} (l : list A) i (x y : A) :
  nthN l i = Some y -> setN l i x = Ret (updN l i x).
Proof. unfold setN; intros ->; reflexivity. Qed.

Lemma lenN_nil {A} : lenN (@nil A) = 0.
Proof. reflexivity. Qed.

Lemma lenN_cons {A} (x : A) l : lenN (x :: l) = lenN l + 1.
Proof. unfold lenN; simpl length; lia. Qed.

Lemma lenN_app {A} (l1 l2 : list A) : lenN (l1 ++ l2) = lenN l1 + lenN l2.
Proof. unfold lenN; rewrite app_length; lia. Qed.

Lemma nthN_nth_error {A} (l : list A) i : nthN l i = nth_error l (N.to_nat i).
Proof.
  revert i; induction l as [|x l IH]; intros i; simpl.
  - now destruct (N.to_nat i).
  - destruct (N.eqb_spec i 0) as [->|n]; [reflexivity|].
    replace (N.to_nat i) with (S (N.to_nat (N.pred i))) by lia.
    simpl; apply IH.
Qed.

Lemma nthN_lt {A} (l : list A) i x : nthN l i = Some x -> i < lenN l.
Proof.
  rewrite nthN_nth_error; intros H.
  assert (N.to_nat i < length l)%nat by (apply nth_error_Some; congruence).
  unfold lenN; lia.
Qed.

Lemma nthN_Some {A} (l : list A) i : i < lenN l -> exists x, nthN l i = Some x.
Proof.
  intros H. rewrite nthN_nth_error.
  destruct (nth_error l (N.to_nat i)) eqn:E; eauto.
  apply nth_error_None in E. unfold lenN in H; lia.
Qed.

Lemma nthN_None {A} (l : list A) i : nthN l i = None <-> lenN l <= i.
Proof.
  rewrite nthN_nth_error, nth_error_None. unfold lenN. lia.
Qed.

Lemma nthN_In {A} (l : list A) i x : nthN l i = Some x -> In x l.
Proof. rewrite nthN_nth_error; apply nth_error_In. Qed.

Lemma In_nthN {A} (l : list A) x : In x l -> exists i, nthN l i = Some x.
Proof.
  intros H; apply In_nth_error in H; destruct H as [n H].
  exists (N.of_nat n). rewrite nthN_nth_error, Nnat.Nat2N.id. exact H.
Qed.

Lemma length_updN {A} (l : list A) i x : length (updN l i x) = length l.
Proof.
  revert i; induction l; intros; simpl; [reflexivity|].
  destruct (i =? 0); simpl; auto.
Qed.

Lemma lenN_updN {A} (l : list A) i x : lenN (updN l i x) = lenN l.
Proof. unfold lenN; now rewrite length_updN. Qed.

Lemma nthN_updN_same {A} (l : list A) i x : i < lenN l -> nthN (updN l i x) i = Some x.
Proof.
  revert i; induction l as [|y l IH]; intros i H.
  - unfold lenN in H; simpl in H; lia.
  - simpl. destruct (N.eqb_spec i 0) as [->|n]; [reflexivity|].
    simpl. destruct (N.eqb_spec i 0); [contradiction|].
    apply IH. rewrite lenN_cons in H; lia.
Qed.

Lemma nthN_updN_other {A} (l : list A) i j x : i <> j -> nthN (updN l i x) j = nthN l j.
Proof.
  revert i j; induction l as [|y l IH]; intros i j H; simpl; [reflexivity|].
  destruct (N.eqb_spec i 0) as [->|n]; simpl.
  - destruct (N.eqb_spec j 0); [congruence | reflexivity].
  - destruct (N.eqb_spec j 0); [reflexivity|]. apply IH; lia.
Qed.

Lemma nthN_updN {A} (l : list A) i j x :
  nthN (updN l i x) j
  = if i =? j then match nthN l i with Some _ => Some x | None => None end else nthN l j.
Proof.
  destruct (N.eqb_spec i j) as [<-|n].
  - destruct (nthN l i) eqn:E.
    + apply nthN_updN_same. eapply nthN_lt; eauto.
    + apply nthN_None. rewrite lenN_updN. now apply nthN_None.
  - now apply nthN_updN_other.
Qed.

Lemma nthN_app1 {A} (l1 l2 : list A) i : i < lenN l1 -> nthN (l1 ++ l2) i = nthN l1 i.
Proof.
  rewrite !nthN_nth_error; unfold lenN; intros; apply nth_error_app1; lia.
Qed.

Lemma nthN_app2 {A} (l1 l2 : list A) i :
  lenN l1 <= i -> nthN (l1 ++ l2) i = nthN l2 (i - lenN l1).
Proof.
  rewrite !nthN_nth_error; unfold lenN; intros.
  rewrite nth_error_app2 by lia. f_equal; lia.
Qed.

Lemma nthN_app_last {A} (l : list A) x : nthN (l ++ [x]) (lenN l) = Some x.
Proof. rewrite nthN_app2 by lia. rewrite N.sub_diag. reflexivity. Qed.

Lemma In_updN {A} (l : list A) i x y : In y (updN l i x) -> y = x \/ In y l.
Proof.
  revert i; induction l as [|z l IH]; intros i; simpl; [tauto|].
  destruct (i =? 0); simpl; [intuition|].
  intros [->|H]; [tauto|]. apply IH in H; tauto.
Qed.

Lemma updN_app1 {A} (l1 l2 : list A) i x :
  i < lenN l1 -> updN (l1 ++ l2) i x = updN l1 i x ++ l2.
Proof.
  revert i; induction l1 as [|y l1 IH]; intros i H.
  - unfold lenN in H; simpl in H; lia.
  - simpl. destruct (N.eqb_spec i 0); [reflexivity|].
    simpl. rewrite IH; [reflexivity|]. rewrite lenN_cons in H; lia.
Qed.

Lemma nthN_ext {A} (l1 l2 : list A) : (forall i, nthN l1 i = nthN l2 i) -> l1 = l2.
Proof.
  revert l2; induction l1 as [|x l1 IH]; intros [|y l2] H; auto.
  - specialize (H 0); discriminate.
  - specialize (H 0); discriminate.
  - pose proof (H 0) as H0; simpl in H0. inversion H0; subst. f_equal.
    apply IH; intros i. specialize (H (N.succ i)); simpl in H.
    destruct (N.eqb_spec (N.succ i) 0); [lia|].
    now rewrite N.pred_succ in H.
Qed.

Lemma nthN_repeat {A} (x : A) n i : i < N.of_nat n -> nthN (repeat x n) i = Some x.
Proof.
  rewrite nthN_nth_error; intros. apply nth_error_repeat; lia.
Qed.

Lemma nthN_repeat_inv {A} (x y : A) n i : nthN (repeat x n) i = Some y -> y = x.
Proof. intros H; apply nthN_In in H; apply repeat_spec in H; auto. Qed.

Lemma lenN_repeat {A} (x : A) n : lenN (repeat x n) = N.of_nat n.
Proof. unfold lenN; now rewrite repeat_length. Qed.

Lemma nthN_map {A B} (f : A -> B) l i : nthN (map f l) i = option_map f (nthN l i).
Proof. rewrite !nthN_nth_error; apply nth_error_map. Qed.

Lemma lenN_map {A B} (f : A -> B) l : lenN (map f l) = lenN l.
Proof. unfold lenN; now rewrite map_length. Qed.

Lemma nthN_rangeN start n i :
  i < N.of_nat n -> nthN (rangeN start n) i = Some (start + i).
Proof.
  revert start i; induction n as [|n IH]; intros start i H; [lia|].
  simpl. destruct (N.eqb_spec i 0) as [->|Hi]; [f_equal; lia|].
  rewrite IH by lia. f_equal; lia.
Qed.

Lemma length_rangeN start n : length (rangeN start n) = n.
Proof. revert start; induction n; intros; simpl; auto. Qed.

Lemma In_rangeN start n x : In x (rangeN start n) <-> start <= x < start + N.of_nat n.
Proof.
  revert start; induction n as [|n IH]; intros start; simpl.
  - split; [tauto | lia].
  - rewrite IH. split; [intros [<-|H]; lia|]. intros H.
    destruct (N.eq_dec start x); [auto | right; lia].
Qed.

Lemma NoDup_rangeN start n : NoDup (rangeN start n).
Proof.
  revert start; induction n as [|n IH]; intros start; simpl; constructor; auto.
  rewrite In_rangeN; lia.
Qed.

Lemma foldM_app {A S} (f : S -> A -> res S) l1 l2 s :
  foldM f (l1 ++ l2) s = bind (foldM f l1 s) (fun s' => foldM f l2 s').
Proof.
  revert s; induction l1 as [|x l1 IH]; intros s; simpl; [reflexivity|].
  destruct (f s x); simpl; auto.
Qed.

Lemma foldM_invariant {A S} (f : S -> A -> res S) (P : S -> Prop) (Q : A -> Prop) :
  (forall s x s', P s -> Q x -> f s x = Ret s' -> P s') ->
  forall l s s', (forall x, In x l -> Q x) -> P s -> foldM f l s = Ret s' -> P s'.
Proof.
  intros Hstep l; induction l as [|x l IH]; intros s s' HQ HP H; simpl in H.
  - inversion H; subst; auto.
  - inv_Ret H. eapply IH; [| |exact H].
    + intros y Hy; apply HQ; now right.
    + eapply Hstep; eauto. apply HQ; now left.
Qed.
