(** * Spec: the vocabulary used to state the properties, independent of the model.

    Nothing here refers to the model of the code.  Positions are exact numbers. *)

From Coq Require Import ZArith NArith QArith List.
Import ListNotations.

(** ** Integer positions (used for the concrete counterexamples) *)
Section Integers.
Local Open Scope Z_scope.

(** Twice the signed area of the triangle a b c: positive iff counter-clockwise. *)
Definition zorient (a b c : Z * Z) : Z :=
  (fst b - fst a) * (snd c - snd a) - (snd b - snd a) * (fst c - fst a).

Definition zsq (a : Z * Z) (d : Z * Z) : Z :=
  (fst a - fst d) * (fst a - fst d) + (snd a - snd d) * (snd a - snd d).

(** The usual in-circle determinant: for a clockwise triangle a b c it is negative iff d
    is strictly inside the circumcircle. *)
Definition zincircle (a b c d : Z * Z) : Z :=
  (fst a - fst d) * ((snd b - snd d) * zsq c d - (snd c - snd d) * zsq b d)
  - (snd a - snd d) * ((fst b - fst d) * zsq c d - (fst c - fst d) * zsq b d)
  + zsq a d * ((fst b - fst d) * (snd c - snd d) - (fst c - fst d) * (snd b - snd d)).

(** d is strictly inside the circumcircle of the (non flat) triangle a b c. *)
Definition zin_circumcircle (a b c d : Z * Z) : Prop :=
  zorient a b c * zincircle a b c d > 0.

Definition zcollinear (l : list (Z * Z)) : Prop :=
  forall a b c, In a l -> In b l -> In c l -> zorient a b c = 0.

(** The open segments a b and c d cross at a point interior to both. *)
Definition zcrossing (a b c d : Z * Z) : Prop :=
  zorient a b c * zorient a b d < 0 /\ zorient c d a * zorient c d b < 0.
End Integers.

(** ** Edges of a list of triangles *)

(** The directed edges of a triangle given as three vertex indices. *)
Definition tri_edges (t : N * N * N) : list (N * N) :=
  let '(a, b, c) := t in [(a, b); (b, c); (c, a)].

Definition directed_edges (out : list (N * N * N)) : list (N * N) := flat_map tri_edges out.

(** ** Rational positions *)
Section Rationals.
Local Open Scope Q_scope.

Definition point : Type := (Q * Q)%type.

(** Twice the signed area of the triangle a b c: positive iff counter-clockwise. *)
Definition orient (a b c : point) : Q :=
  (fst b - fst a) * (snd c - snd a) - (snd b - snd a) * (fst c - fst a).

(** Two points at the same place. *)
Definition same_place (a b : point) : Prop := fst a == fst b /\ snd a == snd b.

(** The triangle a b c, in this order, is clockwise and not flat. *)
Definition clockwise (a b c : point) : Prop := orient a b c < 0.

(** p is strictly inside the clockwise triangle a b c / inside or on its border. *)
Definition strictly_inside (a b c p : point) : Prop :=
  orient a b p < 0 /\ orient b c p < 0 /\ orient c a p < 0.
Definition inside_or_on (a b c p : point) : Prop :=
  orient a b p <= 0 /\ orient b c p <= 0 /\ orient c a p <= 0.

(** The open segments a b and c d meet in a single point interior to both. *)
Definition segments_cross (a b c d : point) : Prop :=
  orient a b c * orient a b d < 0 /\ orient c d a * orient c d b < 0.

(** c lies on the closed segment a b. *)
Definition on_closed_segment (a b c : point) : Prop :=
  orient a b c == 0 /\
  ((fst a <= fst c /\ fst c <= fst b) \/ (fst b <= fst c /\ fst c <= fst a)) /\
  ((snd a <= snd c /\ snd c <= snd b) \/ (snd b <= snd c /\ snd c <= snd a)).

Definition sqdist (a b : point) : Q :=
  (fst a - fst b) * (fst a - fst b) + (snd a - snd b) * (snd a - snd b).

(** p is strictly inside the circle through the (not collinear) points a, b, c: closer
    than a to some point equidistant from the three. *)
Definition in_circumcircle (a b c p : point) : Prop :=
  exists o, sqdist o a == sqdist o b /\ sqdist o b == sqdist o c /\ sqdist o p < sqdist o a.

(** The point at parameter s of the segment from a to b. *)
Definition along (a b : point) (s : Q) : point :=
  (fst a + s * (fst b - fst a), snd a + s * (snd b - snd a)).

(** A corner of a triangle of the mesh: an ordinary point or a direction (one of the four
    vertices at infinity).  In homogeneous coordinates (x, y, 1) and (dx, dy, 0). *)
Inductive site : Type := Place (p : point) | Toward (d : point).

Definition homogeneous (s : site) : Q * Q * Q :=
  match s with Place p => (fst p, snd p, 1) | Toward d => (fst d, snd d, 0) end.

(** The 3x3 determinant of the homogeneous coordinates.  For three points it is [orient];
    for two points a, c and a direction d it tells the side of the ray from a towards d on
    which c lies. *)
Definition turn (a b c : site) : Q :=
  let '(ax, ay, aw) := homogeneous a in
  let '(bx, by_, bw) := homogeneous b in
  let '(cx, cy, cw) := homogeneous c in
  ax * (by_ * cw - bw * cy) - ay * (bx * cw - bw * cx) + aw * (bx * cy - by_ * cx).

End Rationals.

(** ** Meshes given as a list of index triples and positions *)
Section Meshes.
Variable at_ : N -> point.

Definition tri_clockwise (t : N * N * N) : Prop :=
  let '(a, b, c) := t in clockwise (at_ a) (at_ b) (at_ c).
Definition tri_inside (t : N * N * N) (p : point) : Prop :=
  let '(a, b, c) := t in strictly_inside (at_ a) (at_ b) (at_ c) p.
Definition tri_inside_or_on (t : N * N * N) (p : point) : Prop :=
  let '(a, b, c) := t in inside_or_on (at_ a) (at_ b) (at_ c) p.
Definition tri_corner (t : N * N * N) (v : N) : Prop :=
  let '(a, b, c) := t in v = a \/ v = b \/ v = c.

(** Flat and counter-clockwise triangles, as booleans (for counting). *)
Definition tri_flat (t : N * N * N) : bool :=
  let '(a, b, c) := t in Qeq_bool (orient (at_ a) (at_ b) (at_ c)) 0.
Definition tri_ccw (t : N * N * N) : bool :=
  let '(a, b, c) := t in negb (Qle_bool (orient (at_ a) (at_ b) (at_ c)) 0).

(** A valid (partial) triangulation of the vertices 0..n-1: clockwise triangles with
    disjoint interiors, every directed edge used at most once, and no vertex in a triangle
    except at its corners. *)
Record valid_mesh (n : N) (out : list (N * N * N)) : Prop := {
  vm_clockwise : forall t, In t out -> tri_clockwise t;
  vm_disjoint : forall i j s t p, i <> j -> nth_error out i = Some s -> nth_error out j = Some t ->
      tri_inside s p -> tri_inside t p -> False;
  vm_edges : NoDup (directed_edges out);
  vm_empty : forall t v, In t out -> (v < n)%N -> tri_inside_or_on t (at_ v) ->
      exists c, tri_corner t c /\ same_place (at_ c) (at_ v);
  vm_merged : forall s t u v, In s out -> In t out -> tri_corner s u -> tri_corner t v ->
      same_place (at_ u) (at_ v) -> u = v
}.

(** The triangles [out] respect the segment from vertex f to vertex g: no edge of a triangle
    crosses it, a triangle that reaches a point between its ends has it as one of its edges,
    and none of the vertices 0..n-1 lies between its ends. *)
Record respects (n : N) (out : list (N * N * N)) (f g : N) : Prop := {
  rs_uncrossed : forall t u v, In t out -> In (u, v) (tri_edges t) ->
      ~ segments_cross (at_ f) (at_ g) (at_ u) (at_ v);
  rs_edge : forall t s, In t out -> (0 < s < 1)%Q -> tri_inside_or_on t (along (at_ f) (at_ g) s) ->
      exists u v, tri_corner t u /\ tri_corner t v /\ u <> v /\
        same_place (at_ u) (at_ f) /\ same_place (at_ v) (at_ g);
  rs_empty : forall w s, (w < n)%N -> (0 < s < 1)%Q -> ~ same_place (at_ w) (along (at_ f) (at_ g) s)
}.

(** None of the vertices 0..n-1 lies strictly between the vertices f and g. *)
Definition clear_between (n f g : N) : Prop :=
  forall v s, (v < n)%N -> (0 < s < 1)%Q -> ~ same_place (at_ v) (along (at_ f) (at_ g) s).

(** Every point strictly between the vertices f and g lies in a triangle of [out]. *)
Definition covers_between (out : list (N * N * N)) (f g : N) : Prop :=
  forall s, (0 < s < 1)%Q -> exists t, In t out /\ tri_inside_or_on t (along (at_ f) (at_ g) s).
End Meshes.

(** The triangle a b c occurs in the list, up to rotation of its corners. *)
Definition is_tri (out : list (N * N * N)) (a b c : N) : Prop :=
  In (a, b, c) out \/ In (b, c, a) out \/ In (c, a, b) out.

(** ** The area of a list of triangles, and the Delaunay property *)
Section Area.
Variable at_ : N -> point.
Variable out : list (N * N * N).

(** p is in a triangle or on its border. *)
Definition covered (p : point) : Prop := exists t, In t out /\ tri_inside_or_on at_ t p.

(** p is in the interior of the area of the triangles: a small square around p is covered. *)
Definition surrounded (p : point) : Prop :=
  exists r, (0 < r)%Q /\
    forall q, (- r <= fst q - fst p <= r)%Q -> (- r <= snd q - snd p <= r)%Q -> covered q.

(** No triangle has in its circumcircle the opposite corner of a triangle it shares an edge
    with. *)
Definition locally_delaunay : Prop :=
  forall a b c d, is_tri out a b c -> is_tri out b a d ->
    ~ in_circumcircle (at_ a) (at_ b) (at_ c) (at_ d).

(** The area of the triangles is convex. *)
Definition convex_area : Prop :=
  forall p q s, covered p -> covered q -> (0 <= s <= 1)%Q -> covered (along p q s).

(** The four directions along the axes, and the ray that leaves p in direction d. *)
Definition axes : list point := [(-1, 0); (0, 1); (1, 0); (0, -1)]%Q.
Definition on_ray (p d : point) (t : Q) : point := (fst p + t * fst d, snd p + t * snd d)%Q.

(** The triangles leave no hole: from a point outside of them one of the four rays meets none. *)
Definition no_holes : Prop :=
  forall p, ~ covered p -> exists d, In d axes /\ forall t, (0 <= t)%Q -> ~ covered (on_ray p d t).

End Area.
