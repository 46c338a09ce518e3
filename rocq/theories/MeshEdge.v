(** * Points of the edges of a mesh. *)

From Coq Require Import ZArith NArith List Bool Lia QArith Lqa.
From Verif Require Import Base BaseFacts Arith Types Utils Infinite Triangulation Geom Mesh MeshVerts Exact DTExact.
Import ListNotations.
Local Open Scope N_scope.

Lemma closed_corner a b c : (det a b c < 0)%Q -> in_closed a b c a /\ in_closed a b c b /\ in_closed a b c c.
Proof.
  intros C. pose proof (det_rot3 a b c) as (R1 & R2).
  assert (Z : forall x y, (det x y x == 0 /\ det x y y == 0)%Q) by (intros; unfold det; split; ring).
  pose proof (Z a b) as (Z1 & Z2). pose proof (Z b c) as (Z3 & Z4). pose proof (Z c a) as (Z5 & Z6).
  repeat split; lra.
Qed.

Section WithEnv.
Context {E : Env}.
Variables px py : N -> Q.
Notation pos := (hpos px py).
Notation D a b c := (det (pos a) (pos b) (pos c)).
Notation Mesh := (Mesh pos).

Definition toward (p d : pt3) (t : Q) : pt3 := P3 (hx p + t * hx d) (hy p + t * hy d) (hw p + t * hw d).

Lemma det_toward a b p d t : (det a b (toward p d t) == det a b p + t * det a b d)%Q.
Proof. unfold det, toward; simpl. ring. Qed.

(** A point in the relative interior of an edge is in the two triangles of the edge only. *)
Lemma edge_excl ts i u v c x y z q j : Mesh ts -> view ts i u v c x y z -> (0 < hw q)%Q ->
  (det (pos u) (pos v) q == 0)%Q -> (det (pos v) (pos c) q < 0)%Q -> (det (pos c) (pos u) q < 0)%Q ->
  inC pos ts j q -> j = i \/ j = x.
Proof.
  intros M V Hq Z G1 G2 Hj.
  pose proof (edge_point_neighbor px py ts i u v c x y z q M V Hq Z) as Nx.
  destruct (view_he _ _ _ _ _ _ _ _ V) as (H1 & _). pose proof (glue_some _ _ M _ _ _ _ H1 Nx) as H2.
  destruct H2 as (d & n4 & n5 & V'). pose proof (M_cw _ _ M _ _ _ _ _ _ _ V) as C. pose proof (M_cw _ _ M _ _ _ _ _ _ _ V') as C'.
  destruct (split2_other _ _ _ q C Z G1 G2 (pos d) C') as (O1 & O2).
  destruct Hj as (a & b & e & m1 & m2 & m3 & Vj & Hc). pose proof (M_cw _ _ M _ _ _ _ _ _ _ Vj) as Cj.
  assert (Hw : exists w, in_closed (pos a) (pos b) (pos e) w /\ ~ (det (pos u) (pos v) w == 0)%Q).
  { destruct (closed_corner _ _ _ Cj) as (K1 & K2 & K3).
    destruct (Qeq_dec (D u v a) 0) as [Qa|]; [|eauto]. destruct (Qeq_dec (D u v b) 0) as [Qb|]; [|eauto].
    destruct (Qeq_dec (D u v e) 0) as [Qe|]; [|eauto]. exfalso.
    pose proof (cramer (pos a) (pos b) (pos e) (pos c) (pos u) (pos v)) as Cr. rewrite Qa, Qb, Qe in Cr. nra. }
  destruct Hw as (w & Hw & Nw).
  destruct (small_delta [(det (pos v) (pos c) q, det (pos v) (pos c) w); (det (pos c) (pos u) q, det (pos c) (pos u) w);
                         (det (pos u) (pos d) q, det (pos u) (pos d) w); (det (pos d) (pos v) q, det (pos d) (pos v) w)]) as (t & Ht & Hall).
  { simpl. intros xy [<-|[<-|[<-|[<-|[]]]]]; auto. }
  specialize (Hall t Ht (Qle_refl t)).
  pose proof (Hall _ (or_introl eq_refl)) as N1. pose proof (Hall _ (or_intror (or_introl eq_refl))) as N2.
  pose proof (Hall _ (or_intror (or_intror (or_introl eq_refl)))) as N3.
  pose proof (Hall _ (or_intror (or_intror (or_intror (or_introl eq_refl))))) as N4. cbn [fst snd] in *. clear Hall.
  rewrite <- det_toward in N1, N2, N3, N4.
  assert (Cl : inC pos ts j (toward q w t)).
  { apply (inC_view _ _ _ _ _ _ _ _ _ _ Vj). destruct Hc as (h1 & h2 & h3), Hw as (k1 & k2 & k3).
    repeat split; rewrite det_toward; nra. }
  pose proof (det_toward (pos u) (pos v) q w t) as Q. rewrite Z in Q.
  destruct (Qlt_le_dec (det (pos u) (pos v) w) 0) as [L|L].
  - left. symmetry. apply (open_closed_excl _ _ M i j (toward q w t)); auto.
    apply (inT_view _ _ _ _ _ _ _ _ _ _ V). repeat split; auto. nra.
  - right. symmetry. apply (open_closed_excl _ _ M x j (toward q w t)); auto.
    apply (inT_view _ _ _ _ _ _ _ _ _ _ V'). repeat split; auto.
    pose proof (det_swap (pos u) (pos v) (toward q w t)) as Sw.
    assert (0 < det (pos u) (pos v) w)%Q by (apply Qle_lteq in L; destruct L as [|L]; [auto|symmetry in L; contradiction]).
    nra.
Qed.

End WithEnv.
