(** * OneBin: with one bin the vertices are inserted from the last one to the first one. *)

From Coq Require Import ZArith NArith List Bool Lia.
From Verif Require Import Base BaseFacts Arith Types Utils Triangulation AnyDT.
Import ListNotations.
Local Open Scope N_scope.

Lemma rangeN_app s i j : rangeN s (i + j) = rangeN s i ++ rangeN (s + N.of_nat i) j.
Proof.
  revert s. induction i as [|i IH]; intros s; cbn [rangeN app Nat.add].
  - now rewrite N.add_0_r.
  - f_equal. rewrite IH. do 2 f_equal. lia.
Qed.

Section WithEnv.
Context {E : Env}.

Lemma nthN_one {A} (x : A) i y : nthN [x] i = Some y -> i = 0.
Proof. intros H. apply nthN_lt in H. unfold lenN in H. cbn in H. lia. Qed.

Lemma count_one bins vs k idx cs : count_bins bins vs [k] = Ret (idx, cs) ->
  idx = repeat 0 (length vs) /\ cs = [k + lenN vs].
Proof.
  revert k idx cs. induction vs as [|v vs IH]; intros k idx cs H; cbn [count_bins] in H.
  - injection H as <- <-. unfold lenN. cbn. rewrite N.add_0_r. auto.
  - destruct (bin_index_from_vertex bins v) as [b|]; [|discriminate].
    unfold getN, setN in H. destruct (nthN [k] b) as [y|] eqn:Hy; [|discriminate].
    pose proof (nthN_one _ _ _ Hy) as ->. cbn [nthN N.eqb] in Hy. injection Hy as <-.
    cbn [bind nthN N.eqb updN] in H.
    destruct (count_bins bins vs [k + 1]) as [(idx', cs')| | |] eqn:Hc; try discriminate. cbn [bind] in H.
    injection H as <- <-. destruct (IH _ _ _ Hc) as (-> & ->). split; [reflexivity|].
    unfold lenN. cbn [length]. f_equal. lia.
Qed.

Lemma set_last {A} (l1 : list A) y l2 x : setN (l1 ++ y :: l2) (lenN l1) x = Ret (l1 ++ x :: l2).
Proof.
  unfold setN. induction l1 as [|z l1 IH]; [reflexivity|].
  cbn [app nthN updN]. unfold lenN. cbn [length]. rewrite Nat2N.inj_succ, (proj2 (N.eqb_neq _ _)) by lia.
  rewrite N.pred_succ. fold (lenN l1).
  destruct (nthN (l1 ++ y :: l2) (lenN l1)) eqn:H; [|discriminate]. injection IH as ->. reflexivity.
Qed.

Lemma place_one m vid done : vid + N.of_nat m <= idmax + 1 ->
  place_vertices (repeat 0 m) vid [N.of_nat m] (repeat 0 m ++ done) = Ret (rev (rangeN vid m) ++ done).
Proof.
  revert vid done. induction m as [|m IH]; intros vid done H; [reflexivity|].
  cbn [repeat place_vertices]. unfold getN. cbn [nthN N.eqb bind].
  rewrite (proj2 (N.eqb_neq _ _)) by lia. unfold setN at 1. cbn [nthN N.eqb updN bind].
  replace (N.of_nat (S m) - 1) with (N.of_nat m) by lia.
  change (0 :: repeat 0 m) with (repeat 0 (S m)). 
  replace (repeat 0 (S m) ++ done) with (repeat 0 m ++ 0 :: done).
  2: { change (0 :: done) with ([0] ++ done). rewrite app_assoc. f_equal. symmetry. apply (repeat_cons m 0). }
  assert (Hl : lenN (repeat 0 m) = N.of_nat m) by (unfold lenN; now rewrite repeat_length).
  pose proof (set_last (repeat 0 m) 0 done (as_id vid)) as K. rewrite Hl in K. rewrite K. cbn [bind]. rewrite as_id_small by lia.
  replace (vid + 1) with (N.succ vid) by lia. rewrite IH by lia.
  cbn [rangeN rev]. rewrite <- app_assoc. reflexivity.
Qed.

Lemma one_bin vs order : lenN vs <= idmax + 1 -> bin_sort 1 vs = Ret order -> order = rev (rangeN 0 (length vs)).
Proof.
  intros H. unfold bin_sort. change (repeat 0 (N.to_nat (1 * 1))) with [0].
  destruct (count_bins 1 vs [0]) as [(idx, cs)| | |] eqn:Hc; try discriminate. cbn [bind].
  destruct (count_one _ _ _ _ _ Hc) as (-> & ->). cbn [prefix_sums]. rewrite N.add_0_l, N.add_0_l.
  replace (repeat 0 (length vs)) with (repeat 0 (length vs) ++ []) at 2 by apply app_nil_r.
  unfold lenN. rewrite place_one by (unfold lenN in H; lia). rewrite app_nil_r. now intros [= <-].
Qed.
End WithEnv.
