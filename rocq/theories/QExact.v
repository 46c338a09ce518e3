(** * QExact: exact rational arithmetic satisfies the rounding laws of [Rep.v]. *)

From Coq Require Import ZArith NArith List Bool Lia QArith Qabs Qround Lqa.
From Verif Require Import Base Arith Types Rep QEnv.
Local Open Scope Q_scope.

Lemma qlt_iff a b : qlt a b = true <-> a < b.
Proof.
  unfold qlt. rewrite negb_true_iff. split; intros H.
  - destruct (Qlt_le_dec a b) as [|K]; auto. apply Qle_bool_iff in K. congruence.
  - destruct (Qle_bool b a) eqn:K; auto. apply Qle_bool_iff in K. lra.
Qed.

Definition any (_ : Q) : Prop := True.

Lemma rounds_any e q : q == e -> rounds any e q.
Proof. intros H l _. rewrite H. auto. Qed.

Lemma Q_rep maxid : @Rep (envQ maxid) Qeq any 50 (1 # 4503599627370496).
Proof.
  constructor; cbn [F fadd fsub fmul fdiv fneg fabs flt fle feq fmax fmin fis_nan fis_finite f0 feps fMAX fMIN f099 fdelta f_of_N f_to_N envQ].
  - lia.
  - split; [reflexivity|discriminate].
  - intros x a b H K. lra.
  - exact (fun _ _ _ _ => I).
  - intros x y a b A B _. eexists. split; [reflexivity|]. apply rounds_any. rewrite Qred_correct, A, B. reflexivity.
  - intros x y a b A B _. eexists. split; [reflexivity|]. apply rounds_any. rewrite Qred_correct, A, B. reflexivity.
  - intros x y a b A B _. eexists. split; [reflexivity|]. apply rounds_any. rewrite Qred_correct, A, B. reflexivity.
  - intros x y a b A B _ _. eexists. split; [reflexivity|]. apply rounds_any. rewrite Qred_correct, A, B. reflexivity.
  - intros x a A. rewrite A. reflexivity.
  - intros x a A. rewrite A. reflexivity.
  - intros x y a b A B. rewrite qlt_iff, A, B. reflexivity.
  - intros x y a b A B. rewrite Qle_bool_iff, A, B. reflexivity.
  - intros x y a b A B. rewrite Qeq_bool_iff, A, B. reflexivity.
  - intros x y a b A B. destruct (qlt x y) eqn:K.
    + apply qlt_iff in K. split; intros; lra.
    + assert (K' : ~ x < y) by (rewrite <- qlt_iff; congruence). split; intros; lra.
  - intros x y a b A B. destruct (qlt y x) eqn:K.
    + apply qlt_iff in K. split; intros; lra.
    + assert (K' : ~ y < x) by (rewrite <- qlt_iff; congruence). split; intros; lra.
  - reflexivity.
  - reflexivity.
  - exists (142 # 100). split; [reflexivity|]. split; discriminate.
  - exists (99 # 100). split; [reflexivity|]. split; discriminate.
  - eexists. split; [reflexivity|]. discriminate.
  - eexists. split; [reflexivity|]. discriminate.
  - intros n _. reflexivity.
  - intros x a A _ _. rewrite A. reflexivity.
  - exact (fun _ _ => I).
  - intros x y x' y' a b a' b' A B A' B' _ _ H. apply Qle_bool_iff. rewrite !Qred_correct, A, B, A', B'. exact H.
  - intros x y a b A B H. exists (a - b). split; [exact I|]. split; lra.
  - auto.
Qed.
