(** * Lifted: planes over the paraboloid.

    The point of the paraboloid over a vertex v is at height [z v]; a vertex is strictly
    inside the circumcircle of a triangle exactly when its point of the paraboloid is
    strictly below the plane through the points over the corners.  This file has the
    algebra of that correspondence; [Lawson.v] uses it for the insertion of a vertex. *)

From Coq Require Import NArith List Bool Lia QArith Lqa.
From Verif Require Import Base BaseFacts Arith Types Utils Infinite Triangulation Geom Mesh
  Exact Spec.
Import ListNotations.
Local Open Scope N_scope.

Section WithEnv.
Context {E : Env}.
Variables px py : N -> Q.
Notation pos := (hpos px py).
Notation D a b c := (det (pos a) (pos b) (pos c)).
Notation fin v := (is_finite v = true).
Local Notation at_ := (fun v : N => (px v, py v)).

Definition z (v : N) : Q := (px v * px v + py v * py v)%Q.

Record plane : Type := Plane { p_x : Q; p_y : Q; p_0 : Q }.

Definition ev (f : plane) (v : N) : Q := (p_x f * px v + p_y f * py v + p_0 f)%Q.

(** The plane through the points over a, b, c is nowhere above the point over d. *)
Definition ldel (a b c d : N) : Prop :=
  forall f, (ev f a == z a)%Q -> (ev f b == z b)%Q -> (ev f c == z c)%Q -> (ev f d <= z d)%Q.

Lemma ldel_circle a b c d :
  ldel a b c d <-> ~ in_circumcircle (at_ a) (at_ b) (at_ c) (at_ d).
Proof.
  split.
  - intros H ((ox, oy) & H1 & H2 & H3). unfold sqdist in *; cbn [fst snd] in *.
    set (R := ((ox - px a) * (ox - px a) + (oy - py a) * (oy - py a))%Q) in *.
    specialize (H (Plane (2 * ox) (2 * oy) (R - ox * ox - oy * oy))%Q).
    unfold ev, z in H; cbn [p_x p_y p_0] in H.
    assert ((2 * ox * px d + 2 * oy * py d + (R - ox * ox - oy * oy) <= px d * px d + py d * py d)%Q).
    { apply H; unfold R in *; lra. }
    lra.
  - intros H f A B C. destruct (Qlt_le_dec (z d) (ev f d)) as [L|L]; auto. exfalso. apply H.
    exists (p_x f / 2, p_y f / 2)%Q. unfold ev, z, sqdist in *; cbn [fst snd].
    assert (Hx : (p_x f / 2 * 2 == p_x f)%Q) by field. assert (Hy : (p_y f / 2 * 2 == p_y f)%Q) by field.
    set (u := (p_x f / 2)%Q) in *. set (v := (p_y f / 2)%Q) in *.
    rewrite <- Hx, <- Hy in A, B, C, L.
    repeat split; lra.
Qed.

Lemma ldel_rot a b c d : ldel a b c d -> ldel b c a d.
Proof. intros H f A B C. now apply H. Qed.

(** ** Affine functions *)

Lemma bary f a b c d : fin a -> fin b -> fin c -> fin d ->
  (ev f d * D a b c == ev f a * D d b c + ev f b * D a d c + ev f c * D a b d)%Q.
Proof.
  intros A B C F. rewrite (hpos_fin px py a A), (hpos_fin px py b B), (hpos_fin px py c C), (hpos_fin px py d F).
  unfold ev, det; simpl. ring.
Qed.

Definition psub (f g : plane) : plane := Plane (p_x f - p_x g)%Q (p_y f - p_y g)%Q (p_0 f - p_0 g)%Q.

Lemma ev_sub f g v : (ev (psub f g) v == ev f v - ev g v)%Q.
Proof. unfold ev, psub; cbn [p_x p_y p_0]. ring. Qed.

(** The plane through the points over a triangle that is not flat. *)
Lemma plane_exists a b c : fin a -> fin b -> fin c -> ~ (D a b c == 0)%Q ->
  exists f, (ev f a == z a)%Q /\ (ev f b == z b)%Q /\ (ev f c == z c)%Q.
Proof.
  intros A B C H. rewrite (hpos_fin px py a A), (hpos_fin px py b B), (hpos_fin px py c C) in H.
  unfold det in H; simpl in H.
  set (d := ((px b - px a) * (py c - py a) - (py b - py a) * (px c - px a))%Q).
  assert (Hd : ~ (d == 0)%Q).
  { intros Q. apply H. rewrite <- Q. unfold d. ring. }
  set (zb := (z b - z a)%Q). set (zc := (z c - z a)%Q).
  set (p := ((zb * (py c - py a) - zc * (py b - py a)) / d)%Q).
  set (q := ((zc * (px b - px a) - zb * (px c - px a)) / d)%Q).
  exists (Plane p q (z a - p * px a - q * py a)%Q). unfold ev; cbn [p_x p_y p_0].
  assert (Kb : (p * (px b - px a) + q * (py b - py a) == zb)%Q).
  { unfold p, q. transitivity ((zb * d) / d)%Q; [unfold d; field; exact Hd|field; exact Hd]. }
  assert (Kc : (p * (px c - px a) + q * (py c - py a) == zc)%Q).
  { unfold p, q. transitivity ((zc * d) / d)%Q; [unfold d; field; exact Hd|field; exact Hd]. }
  unfold zb, zc in *. repeat split; lra.
Qed.

(** The in-circle determinant in terms of the plane. *)
Lemma incircle_plane f a b c d : fin a -> fin b -> fin c -> fin d ->
  (ev f a == z a)%Q -> (ev f b == z b)%Q -> (ev f c == z c)%Q ->
  (incircle (px a) (py a) (px b) (py b) (px c) (py c) (px d) (py d) == (ev f d - z d) * D a b c)%Q.
Proof.
  intros Fa Fb Fc Fd A B C.
  assert (Id : (incircle (px a) (py a) (px b) (py b) (px c) (py c) (px d) (py d) ==
     (ev f d - z d) * D a b c - (ev f a - z a) * D d b c - (ev f b - z b) * D a d c - (ev f c - z c) * D a b d)%Q).
  { rewrite (hpos_fin px py a Fa), (hpos_fin px py b Fb), (hpos_fin px py c Fc), (hpos_fin px py d Fd).
    unfold incircle, ev, z, det; simpl. ring. }
  rewrite Id, A, B, C. ring.
Qed.

Lemma qmul_sign a b : (a <= 0 -> b <= 0 -> 0 <= a * b)%Q.
Proof. intros A B. nra. Qed.

Lemma qmul_neg a d : (d < 0 -> 0 <= a * d -> a <= 0)%Q.
Proof. intros A B. destruct (Qlt_le_dec 0 a); auto. nra. Qed.

Lemma qmul_pos a d : (d < 0 -> a * d <= 0 -> 0 <= a)%Q.
Proof. intros A B. destruct (Qlt_le_dec a 0); auto. nra. Qed.

(** Symmetry: two clockwise triangles on an edge see each other the same way. *)
Lemma ldel_sym a b c d : fin a -> fin b -> fin c -> fin d ->
  (D a b c < 0)%Q -> (D b a d < 0)%Q -> ldel a b c d -> ldel b a d c.
Proof.
  intros A B C F H1 H2 L f Eb Ea Ed.
  destruct (plane_exists a b c A B C) as (k & Ka & Kb & Kc); [lra|].
  pose proof (L k Ka Kb Kc) as Kd.
  pose proof (bary (psub k f) a b c d A B C F) as Q. rewrite !ev_sub in Q.
  assert (Q1 : (ev k a - ev f a == 0)%Q) by lra. assert (Q2 : (ev k b - ev f b == 0)%Q) by lra.
  rewrite Q1, Q2 in Q. rewrite Ed, Kc in Q.
  pose proof (det_swap (pos a) (pos b) (pos d)) as S.
  assert (Q' : ((ev k d - z d) * D a b c == (z c - ev f c) * D a b d)%Q) by lra.
  assert (P1 : (0 <= (ev k d - z d) * D a b c)%Q) by (apply qmul_sign; lra).
  rewrite Q' in P1. assert (0 < D a b d)%Q by lra.
  destruct (Qlt_le_dec (z c) (ev f c)); [|lra]. nra.
Qed.

(** ** A point inside a triangle *)

(** Jensen on the paraboloid: a point of a closed triangle is not above its plane. *)
Lemma inside_below f a b c d : fin a -> fin b -> fin c -> fin d ->
  (D a b c < 0)%Q -> (D d b c <= 0)%Q -> (D a d c <= 0)%Q -> (D a b d <= 0)%Q ->
  (ev f a == z a)%Q -> (ev f b == z b)%Q -> (ev f c == z c)%Q -> (z d <= ev f d)%Q.
Proof.
  intros Fa Fb Fc Fd H H1 H2 H3 A B C.
  pose proof (bary f a b c d Fa Fb Fc Fd) as Qb. rewrite A, B, C in Qb.
  rewrite (hpos_fin px py a Fa), (hpos_fin px py b Fb), (hpos_fin px py c Fc), (hpos_fin px py d Fd) in *.
  unfold det in *; simpl in *. unfold z in *.
  set (xa := px a) in *. set (ya := py a) in *. set (xb := px b) in *. set (yb := py b) in *.
  set (xc := px c) in *. set (yc := py c) in *. set (xd := px d) in *. set (yd := py d) in *.
  set (S := (xa * (yb * 1 - 1 * yc) - ya * (xb * 1 - 1 * xc) + 1 * (xb * yc - yb * xc))%Q) in *.
  set (l1 := (xd * (yb * 1 - 1 * yc) - yd * (xb * 1 - 1 * xc) + 1 * (xb * yc - yb * xc))%Q) in *.
  set (l2 := (xa * (yd * 1 - 1 * yc) - ya * (xd * 1 - 1 * xc) + 1 * (xd * yc - yd * xc))%Q) in *.
  set (l3 := (xa * (yb * 1 - 1 * yd) - ya * (xb * 1 - 1 * xd) + 1 * (xb * yd - yb * xd))%Q) in *.
  set (dd := (xd * xd + yd * yd)%Q).
  assert (Id : (S * (ev f d * S) - S * S * dd ==
      l1 * l2 * ((xa - xb) * (xa - xb) + (ya - yb) * (ya - yb)) +
      l1 * l3 * ((xa - xc) * (xa - xc) + (ya - yc) * (ya - yc)) +
      l2 * l3 * ((xb - xc) * (xb - xc) + (yb - yc) * (yb - yc)))%Q).
  { rewrite Qb. unfold S, l1, l2, l3, dd. ring. }
  assert (Sq : forall t : Q, (0 <= t * t)%Q) by (intros t; destruct (Qlt_le_dec t 0); nra).
  assert (N : forall u v s t, (u <= 0 -> v <= 0 -> 0 <= u * v * (s * s + t * t))%Q).
  { intros u v s t Hu Hv. apply Qmult_le_0_compat; [now apply qmul_sign|].
    pose proof (Sq s). pose proof (Sq t). lra. }
  pose proof (N l1 l2 (xa - xb)%Q (ya - yb)%Q H1 H2).
  pose proof (N l1 l3 (xa - xc)%Q (ya - yc)%Q H1 H3).
  pose proof (N l2 l3 (xb - xc)%Q (yb - yc)%Q H2 H3).
  assert (K : (0 <= S * S * (ev f d - dd))%Q).
  { assert (K : (S * S * (ev f d - dd) == S * (ev f d * S) - S * S * dd)%Q) by ring. rewrite K. lra. }
  assert (SS : (0 < S * S)%Q) by nra.
  destruct (Qlt_le_dec (ev f d) dd) as [L|L]; [|exact L]. nra.
Qed.

(** ** The edges from the new vertex *)

(** x is a vertex of the star of P, between w and y; h is a plane through the point over x
    that is not above the points over w and y and not below the one over P. *)
Lemma spoke h P w x y : fin P -> fin w -> fin x -> fin y ->
  (D P x y < 0)%Q -> (D P w x < 0)%Q ->
  (ev h x == z x)%Q -> (ev h w <= z w)%Q -> (ev h y <= z y)%Q -> (z P <= ev h P)%Q ->
  ldel P x y w.
Proof.
  intros FP Fw Fx Fy H1 H2 Hx Hw Hy HP f EP Ex Ey.
  pose proof (det_swap (pos w) (pos x) (pos y)) as S1.
  pose proof (det_swap23 (pos P) (pos w) (pos x)) as S2.
  destruct (Qlt_le_dec (D x w y) 0) as [N|N].
  - (* x is inside the triangle P w y *)
    destruct (Qlt_le_dec (z w) (ev f w)) as [L|L]; auto. exfalso.
    assert (T : (D P w y == D x w y + D P x y + D P w x)%Q).
    { rewrite (hpos_fin px py P FP), (hpos_fin px py w Fw), (hpos_fin px py x Fx), (hpos_fin px py y Fy).
      unfold det; simpl. ring. }
    destruct (plane_exists P w y FP Fw Fy) as (k & KP & Kw & Ky); [lra|].
    pose proof (inside_below k P w y x FP Fw Fy Fx) as J.
    assert (J' : (z x <= ev k x)%Q) by (apply J; auto; lra).
    pose proof (bary (psub f k) P w y x FP Fw Fy Fx) as Q. rewrite !ev_sub in Q.
    assert (Q1 : (ev f P - ev k P == 0)%Q) by lra. assert (Q2 : (ev f y - ev k y == 0)%Q) by lra.
    rewrite Q1, Q2, Ex, Kw in Q.
    assert (P1 : (0 <= (z x - ev k x) * D P w y)%Q) by (apply qmul_sign; lra).
    assert (P2 : ((ev f w - z w) * D P x y < 0)%Q) by nra.
    lra.
  - pose proof (bary (psub f h) P x y w FP Fx Fy Fw) as Q. rewrite !ev_sub in Q.
    assert (Q1 : (ev f x - ev h x == 0)%Q) by lra. rewrite Q1 in Q.
    assert (P1 : (0 <= (ev f P - ev h P) * D w x y)%Q) by (apply qmul_sign; lra).
    assert (P2 : (0 <= (ev f y - ev h y) * D P x w)%Q) by (apply Qmult_le_0_compat; lra).
    assert (P3 : (0 <= (ev f w - ev h w) * D P x y)%Q) by lra.
    apply qmul_neg in P3; lra.
Qed.

(** ** One swap *)

(** g: plane of the edge ab of the star, c the vertex across, h: plane of the vertex a. *)
Lemma swap_vertex g h P a b c : fin P -> fin a -> fin b -> fin c ->
  (D P a b < 0)%Q -> (D b a c < 0)%Q -> (D P a c < 0)%Q ->
  (ev g a == z a)%Q -> (ev g b == z b)%Q -> (ev g c <= z c)%Q ->
  (ev h a == z a)%Q -> (ev h b <= z b)%Q -> (ev g P <= ev h P)%Q -> (ev h c <= z c)%Q.
Proof.
  intros FP Fa Fb Fc H1 H2 H3 Ga Gb Gc Ha Hb HP.
  pose proof (bary (psub g h) P a b c FP Fa Fb Fc) as Q. rewrite !ev_sub in Q.
  assert (Q1 : (ev g a - ev h a == 0)%Q) by lra. rewrite Q1 in Q.
  pose proof (det_swap13 (pos b) (pos a) (pos c)) as S1.
  assert (P1 : ((ev g P - ev h P) * D c a b <= 0)%Q) by nra.
  assert (P2 : ((ev g b - ev h b) * D P a c <= 0)%Q) by nra.
  assert (P3 : ((ev g c - ev h c) * D P a b <= 0)%Q) by lra.
  apply qmul_pos in P3; lra.
Qed.

(** The same for the other end of the edge. *)
Lemma swap_vertex2 g h P a b c : fin P -> fin a -> fin b -> fin c ->
  (D P a b < 0)%Q -> (D b a c < 0)%Q -> (D P c b < 0)%Q ->
  (ev g a == z a)%Q -> (ev g b == z b)%Q -> (ev g c <= z c)%Q ->
  (ev h b == z b)%Q -> (ev h a <= z a)%Q -> (ev g P <= ev h P)%Q -> (ev h c <= z c)%Q.
Proof.
  intros FP Fa Fb Fc H1 H2 H3 Ga Gb Gc Hb Ha HP.
  pose proof (bary (psub g h) P a b c FP Fa Fb Fc) as Q. rewrite !ev_sub in Q.
  assert (Q1 : (ev g b - ev h b == 0)%Q) by lra. rewrite Q1 in Q.
  pose proof (det_swap13 (pos b) (pos a) (pos c)) as S1.
  assert (P1 : ((ev g P - ev h P) * D c a b <= 0)%Q) by nra.
  assert (P2 : ((ev g a - ev h a) * D P c b <= 0)%Q) by nra.
  assert (P3 : ((ev g c - ev h c) * D P a b <= 0)%Q) by lra.
  apply qmul_pos in P3; lra.
Qed.

(** The plane of the swapped triangle is not above the one of the edge over P. *)
Lemma swap_edge g k P a b c : fin P -> fin a -> fin b -> fin c ->
  (D P a b < 0)%Q -> (D b a c < 0)%Q ->
  (ev g a == z a)%Q -> (ev g b == z b)%Q -> (ev g c <= z c)%Q ->
  (ev k a == z a)%Q -> (ev k b == z b)%Q -> (ev k c == z c)%Q -> (ev k P <= ev g P)%Q.
Proof.
  intros FP Fa Fb Fc H1 H2 Ga Gb Gc Ka Kb Kc.
  pose proof (bary (psub k g) P a b c FP Fa Fb Fc) as Q. rewrite !ev_sub in Q.
  assert (Q1 : (ev k a - ev g a == 0)%Q) by lra. assert (Q2 : (ev k b - ev g b == 0)%Q) by lra.
  rewrite Q1, Q2 in Q. pose proof (det_swap13 (pos b) (pos a) (pos c)) as S1.
  assert (P1 : ((ev k c - ev g c) * D P a b <= 0)%Q) by nra.
  assert (P2 : ((ev k P - ev g P) * D c a b <= 0)%Q) by lra.
  assert (0 < D c a b)%Q by lra.
  destruct (Qlt_le_dec (ev g P) (ev k P)); [|lra]. nra.
Qed.

End WithEnv.
