(** * WitnessQuality: the circumcircle checker in floating point. *)

From Coq Require Import ZArith NArith List Bool QArith SpecFloat Reals Lqa.
From Verif Require Import Base Arith F64 Types Utils Triangulation Spec GridSpec Refuted Space3d Quality SpecQuality.
Import ListNotations.
Local Open Scope N_scope.

Definition optimal64 (ts : list (N * N * N)) (l : list (Z * Z)) : res (N * N * N) :=
  check_delaunay_optimal (E := env64) (sf_sqrt 53 1024) ts (pts l).

(** Two triangles with four corners on one circle. *)
Definition lcirc : list (Z * Z) := [(4,1); (1,1); (3,4); (2,4)]%Z.
Definition tcirc : list (N * N * N) := [(0, 1, 2); (1, 3, 2)].

(** Two triangles, the circle of the first contains the fourth vertex. *)
Definition lmiss : list (Z * Z) := [(105755,10); (8245891,6); (6840334,3); (3551705,2)]%Z.
Definition tmiss : list (N * N * N) := [(0, 1, 2); (0, 2, 3)].

Lemma false_alarm : exists l ts, ids_in_range ts l /\
  (forall a b c, In (a, b, c) ts -> zorient (zat l a) (zat l b) (zat l c) < 0 /\
     forall v, ~ zin_circumcircle (zat l a) (zat l b) (zat l c) (zat l v))%Z /\
  optimal64 ts l = Ret (0, 0, 1).
Proof.
  exists lcirc, tcirc. split; [|split].
  - intros t v [<-|[<-|[]]] [->|[->| ->]]; reflexivity.
  - assert (K : forall v, In (zat lcirc v) ((0, 0)%Z :: lcirc)).
    { intros v. unfold zat. destruct (nth_in_or_default (N.to_nat v) lcirc (0, 0)%Z) as [H|H]; [now right|left; auto]. }
    intros a b c [Q|[Q|[]]]; injection Q as <- <- <-; (split; [reflexivity|]); intros v; specialize (K v);
      remember (zat lcirc v) as p; clear Heqp; simpl in K; repeat (destruct K as [<-|K]); try contradiction; unfold zin_circumcircle; vm_compute; discriminate.
  - vm_compute. reflexivity.
Qed.

Lemma missed : exists l a b c d, let ts := [(a, b, c); (a, c, d)] in
  (zorient (zat l a) (zat l b) (zat l c) < 0 /\ zorient (zat l a) (zat l c) (zat l d) < 0)%Z /\
  zin_circumcircle (zat l a) (zat l b) (zat l c) (zat l d) /\
  optimal64 ts l = Ret (0, 0, 0).
Proof.
  exists lmiss, 0, 1, 2, 3. split; [split; reflexivity|]. split; vm_compute; reflexivity.
Qed.

(** Real positions. *)
Definition rpts (l : list (Z * Z)) : list rpoint := map (fun p => (IZR (fst p), IZR (snd p))) l.

Lemma rpts_at l v : rat (rpts l) v = (IZR (fst (zat l v)), IZR (snd (zat l v))).
Proof. unfold rat, rpts, zat. now rewrite <- (map_nth (fun p => (IZR (fst p), IZR (snd p)))). Qed.

Lemma rpts_real l : real_positions (zpoint l) (lenN l) (rpts l).
Proof.
  split; [unfold lenN, rpts; now rewrite map_length|]. intros v _. rewrite rpts_at. unfold rpt, zpoint, zat, Q2R; simpl.
  f_equal; rewrite Rinv_1, Rmult_1_r; reflexivity.
Qed.

Definition lcrowd : list (Z * Z) := [(0,0); (0,4); (4,0); (3,3)]%Z.
Definition tcrowd : list (N * N * N) := [(0, 1, 2); (1, 3, 2)].

Lemma lcrowd_case : ids_in_range tcrowd (rpts lcrowd) /\
  (forall a b c, In (a, b, c) tcrowd -> not_flat (rat (rpts lcrowd) a) (rat (rpts lcrowd) b) (rat (rpts lcrowd) c)) /\
  crowded (rpts lcrowd) tcrowd (0, 1, 2).
Proof.
  split; [|split].
  - intros t v [<-|[<-|[]]] [->|[->| ->]]; reflexivity.
  - intros a b c [Q|[Q|[]]]; injection Q as <- <- <-; rewrite !rpts_at; unfold not_flat; simpl; Lra.lra.
  - exists (1, 3, 2), 3. split; [right; left; reflexivity|]. split; [simpl; auto|]. split; [simpl; intuition discriminate|].
    exists (2, 2)%R. rewrite !rpts_at. unfold rsqdist. simpl. repeat split; Lra.lra.
Qed.
