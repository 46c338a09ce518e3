(** * Exact: positions of the vertex ids, and what it means for the predicates of the
    code to be exact on a given vertex list.

    The mesh theorems are stated for every arithmetic and every input on which the few
    sign tests the algorithm evaluates agree with the sign of the real number they
    approximate ([Exact]).  [QExact.v] and [Grid64.v] prove [Exact] for concrete classes of
    inputs. *)

From Coq Require Import NArith List Bool Lia QArith Lqa.
From Verif Require Import Base BaseFacts Arith Types Utils Infinite Triangulation Geom Mesh.
Import ListNotations.
Local Open Scope N_scope.

(** ** The circumcircle determinant

    [incircle a b c d > 0] iff d lies strictly inside the circumcircle of the
    counter-clockwise triangle a, b, c (the usual lifted 3x3 determinant). *)
Definition incircle (ax ay bx by_ cx cy dx dy : Q) : Q :=
  let adx := (ax - dx)%Q in let ady := (ay - dy)%Q in
  let bdx := (bx - dx)%Q in let bdy := (by_ - dy)%Q in
  let cdx := (cx - dx)%Q in let cdy := (cy - dy)%Q in
  let al := (adx * adx + ady * ady)%Q in
  let bl := (bdx * bdx + bdy * bdy)%Q in
  let cl := (cdx * cdx + cdy * cdy)%Q in
  (adx * (bdy * cl - bl * cdy) - ady * (bdx * cl - bl * cdx) + al * (bdx * cdy - bdy * cdx))%Q.

(** If [q4] is inside the circumcircle of (q1, q2, q3), on the other side of q1 q2 than
    q3, then the quad is strictly convex. *)
Lemma incircle_convex x1 y1 x2 y2 x3 y3 x4 y4 :
  (det (P3 x4 y4 1) (P3 x1 y1 1) (P3 x2 y2 1) < 0)%Q ->
  (det (P3 x2 y2 1) (P3 x1 y1 1) (P3 x3 y3 1) < 0)%Q ->
  (0 < incircle x1 y1 x2 y2 x3 y3 x4 y4)%Q ->
  (det (P3 x4 y4 1) (P3 x1 y1 1) (P3 x3 y3 1) < 0)%Q /\
  (det (P3 x4 y4 1) (P3 x3 y3 1) (P3 x2 y2 1) < 0)%Q.
Proof.
  intros H1 H2 I.
  set (sa := (- det (P3 x2 y2 1) (P3 x1 y1 1) (P3 x3 y3 1))%Q) in *.
  set (sb := (- det (P3 x4 y4 1) (P3 x1 y1 1) (P3 x2 y2 1))%Q) in *.
  assert (A : (0 < sa)%Q) by (unfold sa; lra). assert (B : (0 < sb)%Q) by (unfold sb; lra).
  set (L := ((x2 - x1) * (x2 - x1) + (y2 - y1) * (y2 - y1))%Q).
  set (d14 := ((x4 - x1) * (x4 - x1) + (y4 - y1) * (y4 - y1))%Q).
  set (d13 := ((x3 - x1) * (x3 - x1) + (y3 - y1) * (y3 - y1))%Q).
  set (d24 := ((x4 - x2) * (x4 - x2) + (y4 - y2) * (y4 - y2))%Q).
  set (d23 := ((x3 - x2) * (x3 - x2) + (y3 - y2) * (y3 - y2))%Q).
  assert (Z : forall a : Q, (0 <= a * a)%Q) by (intros a; destruct (Qlt_le_dec a 0); nra).
  assert (P13 : (0 <= d13)%Q) by (unfold d13; pose proof (Z (x3 - x1)%Q); pose proof (Z (y3 - y1)%Q); lra).
  assert (P14 : (0 <= d14)%Q) by (unfold d14; pose proof (Z (x4 - x1)%Q); pose proof (Z (y4 - y1)%Q); lra).
  assert (P23 : (0 <= d23)%Q) by (unfold d23; pose proof (Z (x3 - x2)%Q); pose proof (Z (y3 - y2)%Q); lra).
  assert (P24 : (0 <= d24)%Q) by (unfold d24; pose proof (Z (x4 - x2)%Q); pose proof (Z (y4 - y2)%Q); lra).
  assert (PL : (0 <= L)%Q) by (unfold L; pose proof (Z (x2 - x1)%Q); pose proof (Z (y2 - y1)%Q); lra).
  assert (M1 : (0 <= sa * d14)%Q) by (apply Qmult_le_0_compat; lra).
  assert (M2 : (0 <= sb * d13)%Q) by (apply Qmult_le_0_compat; lra).
  assert (M3 : (0 <= sa * d24)%Q) by (apply Qmult_le_0_compat; lra).
  assert (M4 : (0 <= sb * d23)%Q) by (apply Qmult_le_0_compat; lra).
  assert (Id1 : (- incircle x1 y1 x2 y2 x3 y3 x4 y4
            == sa * d14 + sb * d13 + det (P3 x4 y4 1) (P3 x1 y1 1) (P3 x3 y3 1) * L)%Q).
  { unfold incircle, sa, sb, d14, d13, L, det; simpl. ring. }
  assert (Id2 : (- incircle x1 y1 x2 y2 x3 y3 x4 y4
            == sa * d24 + sb * d23 + det (P3 x4 y4 1) (P3 x3 y3 1) (P3 x2 y2 1) * L)%Q).
  { unfold incircle, sa, sb, d24, d23, L, det; simpl. ring. }
  split.
  - destruct (Qlt_le_dec (det (P3 x4 y4 1) (P3 x1 y1 1) (P3 x3 y3 1)) 0) as [|Hn]; auto.
    pose proof (Qmult_le_0_compat _ _ Hn PL). lra.
  - destruct (Qlt_le_dec (det (P3 x4 y4 1) (P3 x3 y3 1) (P3 x2 y2 1)) 0) as [|Hn]; auto.
    pose proof (Qmult_le_0_compat _ _ Hn PL). lra.
Qed.

Section WithEnv.
Context {E : Env}.

(** ** Positions

    An input vertex is an ordinary point; the four infinite ids are the directions left,
    up, right, down (src/infinite.rs:9-24). *)
Definition hpos (px py : N -> Q) (v : N) : pt3 :=
  if is_finite v then P3 (px v) (py v) 1
  else if v =? INF0 then P3 (-1) 0 0
  else if v =? INF1 then P3 0 1 0
  else if v =? INF2 then P3 1 0 0
  else P3 0 (-1) 0.

Lemma inf_not_fin v : is_infinite v = negb (is_finite v).
Proof.
  unfold is_infinite, is_finite. destruct (N.leb_spec INF0 v), (N.ltb_spec v INF0); auto; lia.
Qed.

Section Pos.
Variables px py : N -> Q.
Notation pos := (hpos px py).
Notation D a b c := (det (pos a) (pos b) (pos c)).

Lemma hpos_fin v : is_finite v = true -> pos v = P3 (px v) (py v) 1.
Proof. intros H. unfold hpos. now rewrite H. Qed.

Lemma hw_fin v : is_finite v = true -> hw (pos v) = 1%Q.
Proof. intros H. now rewrite hpos_fin. Qed.

Lemma hw_inf v : is_finite v = false -> hw (pos v) = 0%Q.
Proof.
  intros H. unfold hpos. rewrite H.
  destruct (v =? INF0), (v =? INF1), (v =? INF2); reflexivity.
Qed.

Lemma hw_cases v : (is_finite v = true /\ hw (pos v) == 1)%Q \/ (is_finite v = false /\ hw (pos v) == 0)%Q.
Proof.
  destruct (is_finite v) eqn:H; [left|right]; split; auto.
  - now rewrite hw_fin.
  - now rewrite hw_inf.
Qed.

(** A clockwise triangle has a finite corner. *)
Lemma three_inf a b c :
  is_finite a = false -> is_finite b = false -> is_finite c = false -> (D a b c == 0)%Q.
Proof.
  intros A B C. unfold det. rewrite (hw_inf a A), (hw_inf b B), (hw_inf c C). ring.
Qed.

(** With two infinite corners the orientation does not depend on the finite one. *)
Lemma two_inf a b c d :
  is_finite a = false -> is_finite b = false -> is_finite c = true -> is_finite d = true ->
  (D a b c == D a b d)%Q.
Proof.
  intros A B C F. unfold det.
  rewrite (hw_inf a A), (hw_inf b B), (hw_fin c C), (hw_fin d F). ring.
Qed.

(** With one infinite corner the orientation is additive. *)
Lemma one_inf a k b c :
  is_finite k = false -> is_finite a = true -> is_finite b = true -> is_finite c = true ->
  (D a k c == D a k b + D b k c)%Q.
Proof.
  intros K A B C. unfold det.
  rewrite (hw_inf k K), (hw_fin a A), (hw_fin b B), (hw_fin c C). ring.
Qed.

End Pos.

(** ** Exact predicates *)

Definition samepos (px py : N -> Q) (a b : N) : Prop := (px a == px b /\ py a == py b)%Q.

Record Exact (vs : list vertex) (px py : N -> Q) : Prop := {
  (** a finite id is a valid index and conversely *)
  X_len : lenN vs <= INF0;
  X_idmax : 3 <= idmax;
  (** the side of an edge between two input vertices *)
  X_side : forall a b p va vb vp,
    nthN vs a = Some va -> nthN vs b = Some vb -> nthN vs p = Some vp ->
    let s := test_point_edge_side (va, vb) vp in
    let d := det (hpos px py a) (hpos px py b) (hpos px py p) in
    (is_on_left_side s = true <-> 0 < d)%Q /\
    (is_near_edge s = true <-> d == 0)%Q;
  (** the side of an edge from an input vertex to an infinite vertex *)
  X_semi : forall a k q p va vp,
    nthN vs a = Some va -> infinite_vertex_local_quad_index k = Some q -> nthN vs p = Some vp ->
    let s := test_point_edge_side (edge_from_semi_infinite_edge va q) vp in
    let d := det (hpos px py a) (hpos px py k) (hpos px py p) in
    (is_on_left_side s = true <-> 0 < d)%Q /\
    (is_on_right_side s = true <-> d < 0)%Q /\
    (is_near_edge s = true <-> d == 0)%Q;
  (** the strict side test used for half planes *)
  X_strict : forall a b p va vb vp,
    nthN vs a = Some va -> nthN vs b = Some vb -> nthN vs p = Some vp ->
    is_point_strictly_on_right_side_of_edge (va, vb) vp = true <->
    (det (hpos px py a) (hpos px py b) (hpos px py p) < 0)%Q;
  (** the circumcircle test, on the quads it is called with *)
  X_circle : forall a b c d va vb vc vd,
    nthN vs a = Some va -> nthN vs b = Some vb -> nthN vs c = Some vc -> nthN vs d = Some vd ->
    (det (hpos px py d) (hpos px py a) (hpos px py b) < 0)%Q ->
    (det (hpos px py b) (hpos px py a) (hpos px py c) < 0)%Q ->
    is_vertex_in_triangle_circumcircle va vb vc vd = true <->
    (0 < incircle (px a) (py a) (px b) (py b) (px c) (py c) (px d) (py d))%Q;
  (** vertices are merged only when they coincide *)
  X_close : forall a p va vp,
    nthN vs a = Some va -> nthN vs p = Some vp ->
    is_vertex_pair_too_close va vp = true <-> samepos px py a p
}.

End WithEnv.
