(** * WitnessCount: the places of the vertices of [lbox]. *)

From Coq Require Import ZArith NArith List Bool QArith Lia Lqa.
From Verif Require Import Base Spec GridSpec DTOut GridApi Refuted Witness WitnessBox SpecCount.
Import ListNotations.
Local Open Scope N_scope.

(** Ten vertices at eight places. *)
Lemma lbox_places : different_places (zpoint lbox) 10 8.
Proof.
  exists [0; 2; 4; 5; 6; 7; 8; 9]. split; [reflexivity|]. split; [intros v; cbn [In]; lia|]. split.
  - repeat constructor; intros (A & B); vm_compute in A, B; discriminate.
  - intros v Hv. destruct lbox_points as (P0 & P1 & P2 & P3 & P4 & P5 & P6 & P7 & P8 & P9).
    assert (K : v = 0 \/ v = 1 \/ v = 2 \/ v = 3 \/ v = 4 \/ v = 5 \/ v = 6 \/ v = 7 \/ v = 8 \/ v = 9) by lia.
    decompose [or] K; subst v;
      [exists 0|exists 6|exists 2|exists 0|exists 4|exists 5|exists 6|exists 7|exists 8|exists 9];
      (split; [cbn [In]; lia|]);
      rewrite ?P0, ?P1, ?P2, ?P3, ?P4, ?P5, ?P6, ?P7, ?P8, ?P9; split; reflexivity.
Qed.

(** The four corners and the vertex on a side. *)
Lemma lbox_hull : hull_places (zpoint lbox) 10 5.
Proof.
  destruct lbox_points as (P0 & P1 & P2 & P3 & P4 & P5 & P6 & P7 & P8 & P9).
  assert (W : forall v, v < 10 -> v = 0 \/ v = 1 \/ v = 2 \/ v = 3 \/ v = 4 \/ v = 5 \/ v = 6 \/ v = 7 \/ v = 8 \/ v = 9)
    by (intros v Hv; lia).
  exists [5; 6; 7; 8; 9]. split; [reflexivity|]. split; [|split].
  - intros v Hv. split; [cbn [In] in Hv; lia|].
    destruct Hv as [<-|[<-|[<-|[<-|[<-|[]]]]]];
      [exists 0%Q, (-1)%Q|exists 1%Q, 1%Q|exists (-1)%Q, (-1)%Q|exists (-1)%Q, 1%Q|exists 1%Q, (-1)%Q];
      (split; [intros (A & B); vm_compute in A, B; discriminate|]);
      intros w Hw; destruct (W w Hw) as [->|[->|[->|[->|[->|[->|[->|[->|[->| ->]]]]]]]]];
      rewrite ?P0, ?P1, ?P2, ?P3, ?P4, ?P5, ?P6, ?P7, ?P8, ?P9; vm_compute; discriminate.
  - repeat constructor; intros (A & B); vm_compute in A, B; discriminate.
  - intros v Hv (dx & dy & Hd & K).
    pose proof (K 6 eq_refl) as K6. pose proof (K 7 eq_refl) as K7. pose proof (K 8 eq_refl) as K8. pose proof (K 9 eq_refl) as K9.
    destruct (W v Hv) as [->|[->|[->|[->|[->|[->|[->|[->|[->| ->]]]]]]]]];
      [exfalso|exists 6|exfalso|exfalso|exfalso|exists 5|exists 6|exists 7|exists 8|exists 9];
      try (split; [cbn [In]; lia|]; rewrite ?P0, ?P1, ?P2, ?P3, ?P4, ?P5, ?P6, ?P7, ?P8, ?P9; split; reflexivity);
      rewrite ?P0, ?P2, ?P3, ?P4, P6, P7, P8, P9 in *; cbn [fst snd] in *; apply Hd; split; lra.
Qed.
