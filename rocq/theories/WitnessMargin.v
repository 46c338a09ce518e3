(** * WitnessMargin: inputs of the circumcircle checker whose corners are clear of the circles. *)

From Coq Require Import ZArith NArith List Bool QArith Reals SpecFloat.
From Verif Require Import Base Arith F64 Types Spec GridSpec Refuted SpecQuality QualityFacts SpecMargin RoundCircleApi WitnessLawson WitnessQuality.
Import ListNotations.
Local Open Scope N_scope.

Lemma lcrowd_range : checker_range 53 1024 4.
Proof. constructor. split; discriminate. Qed.

Ltac points := split;
  [repeat constructor; simpl; try reflexivity
  |intros p Hp; simpl in Hp; repeat (destruct Hp as [<-|Hp]; [split; discriminate|]); contradiction].

Lemma lcrowd_points : int_points 53 1024 4 (pts lcrowd) lcrowd.
Proof. points. Qed.

Lemma lcrowd_ids : ids_in_range tcrowd lcrowd.
Proof. intros t v [<-|[<-|[]]] [->|[->| ->]]; reflexivity. Qed.

Lemma lcrowd_not_flat a b c : In (a, b, c) tcrowd -> ~ (orient (zpoint lcrowd a) (zpoint lcrowd b) (zpoint lcrowd c) == 0)%Q.
Proof. intros [Q|[Q|[]]]; injection Q as <- <- <-; vm_compute; discriminate. Qed.

Lemma lcrowd_clear : clear_mesh 53 4 (real_points lcrowd) tcrowd.
Proof. apply zclear_mesh_ok; [discriminate|]. vm_compute. reflexivity. Qed.

Lemma lq_range : checker_range 53 1024 8.
Proof. constructor. split; discriminate. Qed.

Lemma lq_points : int_points 53 1024 8 (pts lq) lq.
Proof. points. Qed.

Lemma lq_clear : clear_mesh 53 8 (real_points lq) out_q.
Proof. apply zclear_mesh_ok; [discriminate|]. vm_compute. reflexivity. Qed.
