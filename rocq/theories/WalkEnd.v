(** * WalkEnd: the point location walk ends when the vertex is in a convex, locally Delaunay
    area.

    Every move crosses an edge with the vertex strictly on its other side.  Between triangles of
    the area the height over the vertex of the plane through the lifted corners does not
    decrease; it stays the same only between triangles with the same circumcircle, where the
    part of the disc beyond the crossed edge shrinks.  From outside the area the walk turns around
    one vertex, then enters the area and never leaves it, or follows the line of an edge of the
    border that contains the vertex, towards it. *)

From Coq Require Import ZArith NArith List Bool Lia QArith Lqa Relations.
From Verif Require Import Base BaseFacts Arith Types Utils Infinite Triangulation Geom Mesh MeshOps MeshVerts Exact
  AnyDT Walk Insert DTExact Spec Lifted MeshEdge Lawson LawsonApi Holes.
Import ListNotations.
Local Open Scope N_scope.

Section WithEnv.
Context {E : Env}.
Variable vs : list vertex.
Variables px py : N -> Q.
Notation pos := (hpos px py).
Notation D a b c := (det (pos a) (pos b) (pos c)).
Notation Mesh := (Mesh pos).
Notation fin v := (is_finite v = true).
Notation inf v := (is_infinite v = true).
Notation tri3 := (tri3).
Notation reg := (reg px py).

Notation all_ldel := (all_ldel px py).
Notation ev := (ev px py).
Notation z := (z px py).
Notation ldel := (ldel px py).
Notation MInv := (MInv vs px py).

Lemma inf_fin_false v : inf v -> fin v -> False.
Proof. intros A B. rewrite inf_not_fin, B in A. discriminate. Qed.

Lemma fin_or_inf v : fin v \/ inf v.
Proof. rewrite inf_not_fin. destruct (is_finite v); auto. Qed.

(** ** Points of one circle *)

Lemma sq_pos (t : Q) : (0 <= t * t)%Q.
Proof. destruct (Qlt_le_dec t 0); nra. Qed.

Lemma sum3_zero (a b c x y w : Q) : (0 <= a -> 0 <= b -> 0 < c -> 0 <= x -> 0 <= y -> 0 <= w ->
  a * x + b * y + c * w == 0 -> w == 0)%Q.
Proof.
  intros A B C X Y W H.
  assert (0 <= a * x)%Q by (apply Qmult_le_0_compat; auto).
  assert (0 <= b * y)%Q by (apply Qmult_le_0_compat; auto).
  destruct (Qlt_le_dec 0 w) as [L|L]; [|lra].
  assert (0 < c * w)%Q by (apply Qmult_lt_0_compat; auto). lra.
Qed.

Lemma sq_zero (x y : Q) : (x * x + y * y == 0 -> x == 0 /\ y == 0)%Q.
Proof.
  intros H. pose proof (sq_pos x). pose proof (sq_pos y).
  assert (X : (x * x == 0)%Q) by lra. assert (Y : (y * y == 0)%Q) by lra.
  apply Qmult_integral in X. apply Qmult_integral in Y. tauto.
Qed.

(** w is not beyond an edge of u v d on the other side of u v. *)
Lemma circ_nest1 f u v d w : fin u -> fin v -> fin d -> fin w -> (0 < D u v d)%Q ->
  (ev f u == z u)%Q -> (ev f v == z v)%Q -> (ev f d == z d)%Q -> (ev f w == z w)%Q ->
  (0 <= D u d w)%Q -> (0 <= D u v w)%Q.
Proof.
  intros Fu Fv Fd Fw H Eu Ev Ed Ew G. destruct (Qlt_le_dec (D u v w) 0) as [L|L]; auto. exfalso.
  pose proof (bary px py f w v d u Fw Fv Fd Fu) as K. rewrite Eu, Ev, Ed, Ew in K.
  rewrite (hpos_fin px py u Fu), (hpos_fin px py v Fv), (hpos_fin px py d Fd), (hpos_fin px py w Fw) in *.
  unfold Lifted.z in K.
  assert (Id : (det (P3 (px u) (py u) 1) (P3 (px v) (py v) 1) (P3 (px d) (py d) 1) * ((px w - px u) * (px w - px u) + (py w - py u) * (py w - py u))
     + det (P3 (px u) (py u) 1) (P3 (px d) (py d) 1) (P3 (px w) (py w) 1) * ((px v - px u) * (px v - px u) + (py v - py u) * (py v - py u))
     + (- det (P3 (px u) (py u) 1) (P3 (px v) (py v) 1) (P3 (px w) (py w) 1)) * ((px d - px u) * (px d - px u) + (py d - py u) * (py d - py u)) == 0)%Q).
  { unfold det in *; simpl in *.
    match type of K with (?l == ?r)%Q => assert (K' : (r - l == 0)%Q) by lra end. rewrite <- K'. ring. }
  apply sum3_zero in Id; try lra.
  2-4: match goal with |- (0 <= ?a * ?a + ?b * ?b)%Q => pose proof (sq_pos a); pose proof (sq_pos b); lra end.
  apply sq_zero in Id. destruct Id as (I1 & I2).
  assert (Q1 : (px d == px u)%Q) by lra. assert (Q2 : (py d == py u)%Q) by lra.
  unfold det in H; simpl in H. rewrite Q1, Q2 in H. lra.
Qed.

Lemma circ_nest2 f u v d w : fin u -> fin v -> fin d -> fin w -> (0 < D u v d)%Q ->
  (ev f u == z u)%Q -> (ev f v == z v)%Q -> (ev f d == z d)%Q -> (ev f w == z w)%Q ->
  (0 <= D d v w)%Q -> (0 <= D u v w)%Q.
Proof.
  intros Fu Fv Fd Fw H Eu Ev Ed Ew G. destruct (Qlt_le_dec (D u v w) 0) as [L|L]; auto. exfalso.
  pose proof (bary px py f u w d v Fu Fw Fd Fv) as K. rewrite Eu, Ev, Ed, Ew in K.
  rewrite (hpos_fin px py u Fu), (hpos_fin px py v Fv), (hpos_fin px py d Fd), (hpos_fin px py w Fw) in *.
  unfold Lifted.z in K.
  assert (Id : (det (P3 (px u) (py u) 1) (P3 (px v) (py v) 1) (P3 (px d) (py d) 1) * ((px w - px v) * (px w - px v) + (py w - py v) * (py w - py v))
     + det (P3 (px d) (py d) 1) (P3 (px v) (py v) 1) (P3 (px w) (py w) 1) * ((px u - px v) * (px u - px v) + (py u - py v) * (py u - py v))
     + (- det (P3 (px u) (py u) 1) (P3 (px v) (py v) 1) (P3 (px w) (py w) 1)) * ((px d - px v) * (px d - px v) + (py d - py v) * (py d - py v)) == 0)%Q).
  { unfold det in *; simpl in *.
    match type of K with (?l == ?r)%Q => assert (K' : (r - l == 0)%Q) by lra end. rewrite <- K'. ring. }
  apply sum3_zero in Id; try lra.
  2-4: match goal with |- (0 <= ?a * ?a + ?b * ?b)%Q => pose proof (sq_pos a); pose proof (sq_pos b); lra end.
  apply sq_zero in Id. destruct Id as (I1 & I2).
  assert (Q1 : (px d == px v)%Q) by lra. assert (Q2 : (py d == py v)%Q) by lra.
  unfold det in H; simpl in H. rewrite Q1, Q2 in H. lra.
Qed.

(** ** Planes of neighbors *)

Lemma plane_step u v c d f g w : fin u -> fin v -> fin c -> fin d -> fin w ->
  (0 < D u v d)%Q -> ldel u v c d ->
  (ev f u == z u)%Q -> (ev f v == z v)%Q -> (ev f c == z c)%Q ->
  (ev g u == z u)%Q -> (ev g v == z v)%Q -> (ev g d == z d)%Q ->
  ((ev f d < z d -> 0 < D u v w -> ev f w < ev g w) /\ (ev f d == z d -> ev g w == ev f w))%Q.
Proof.
  intros Fu Fv Fc Fd Fw H L Fu' Fv' Fc' Gu Gv Gd.
  pose proof (bary px py (psub g f) u v d w Fu Fv Fd Fw) as K. rewrite !ev_sub in K.
  assert (Q1 : (ev g u - ev f u == 0)%Q) by lra. assert (Q2 : (ev g v - ev f v == 0)%Q) by lra.
  rewrite Q1, Q2, Gd in K.
  assert (K' : ((ev g w - ev f w) * D u v d == (z d - ev f d) * D u v w)%Q) by lra.
  split; intros Q.
  - intros Hw. assert (0 < (z d - ev f d) * D u v w)%Q by (apply Qmult_lt_0_compat; lra).
    destruct (Qlt_le_dec (ev f w) (ev g w)); auto. exfalso. nra.
  - assert (Z : ((ev g w - ev f w) * D u v d == 0)%Q) by (rewrite K', Q; ring).
    apply Qmult_integral in Z. destruct Z; lra.
Qed.

Lemma plane_same a b c f g w : fin a -> fin b -> fin c -> fin w -> ~ (D a b c == 0)%Q ->
  (ev f a == ev g a)%Q -> (ev f b == ev g b)%Q -> (ev f c == ev g c)%Q -> (ev f w == ev g w)%Q.
Proof.
  intros Fa Fb Fc Fw H A B C.
  pose proof (bary px py (psub f g) a b c w Fa Fb Fc Fw) as K. rewrite !ev_sub in K.
  assert (Qa : (ev f a - ev g a == 0)%Q) by lra. assert (Qb : (ev f b - ev g b == 0)%Q) by lra.
  assert (Qc : (ev f c - ev g c == 0)%Q) by lra. rewrite Qa, Qb, Qc in K.
  assert (Z : ((ev f w - ev g w) * D a b c == 0)%Q) by lra. apply Qmult_integral in Z. destruct Z; [lra|contradiction].
Qed.

(** ** The area and its border *)
Section Area.
Variable ts : list tri.
Hypothesis MI : MInv ts.
Hypothesis AL : all_ldel ts.
Hypothesis Cvx : forall x y x' y' t, reg ts (P3 x y 1) -> reg ts (P3 x' y' 1) -> (0 <= t)%Q -> (t <= 1)%Q ->
  reg ts (P3 (x + t * (x' - x)) (y + t * (y' - y)) 1).
Hypothesis Cov : forall w, fin w -> hascorner ts w -> reg ts (P3 (px w) (py w) 1).
Variable P : N.
Hypothesis FP : fin P.
Hypothesis InP : reg ts (P3 (px P) (py P) 1).

Definition finT (i : N) : Prop := exists a b c, tri3 ts i a b c /\ fin a /\ fin b /\ fin c.

Lemma M : Mesh ts.
Proof. exact (I_mesh _ _ _ _ MI). Qed.

Lemma tri3_edge_he i a b c : tri3 ts i a b c -> exists n, he ts i a b n.
Proof. intros (x & y & w & V). exists x, c, y, w. exact V. Qed.

Lemma finT_no_inf i a b c : finT i -> tri3 ts i a b c -> inf c -> False.
Proof.
  intros (u & v & w & T & F1 & F2 & F3) T' Ic.
  destruct (tri3_fun _ _ _ _ _ _ _ _ T T') as [Q|[Q|Q]]; destruct Q as (-> & -> & ->); eapply inf_fin_false; eauto.
Qed.

(** The middle of an edge. *)
Lemma mid_edge a b c : fin a -> fin b -> (D a b c < 0)%Q ->
  let q := P3 (px a + (1 # 2) * (px b - px a)) (py a + (1 # 2) * (py b - py a)) 1 in
  (det (pos a) (pos b) q == 0 /\ det (pos b) (pos c) q < 0 /\ det (pos c) (pos a) q < 0)%Q.
Proof.
  intros Fa Fb H q.
  assert (Q : forall u v, (det u v q == (1 # 2) * det u v (pos a) + (1 # 2) * det u v (pos b))%Q).
  { intros u v. rewrite (hpos_fin px py a Fa), (hpos_fin px py b Fb). unfold q, det; simpl. ring. }
  rewrite !Q. assert (Z : forall u v, (det u v u == 0 /\ det u v v == 0)%Q) by (intros; unfold det; split; ring).
  destruct (Z (pos a) (pos b)) as (z1 & z2). destruct (Z (pos b) (pos c)) as (z3 & _). destruct (Z (pos c) (pos a)) as (_ & z4).
  pose proof (det_rot3 (pos a) (pos b) (pos c)) as R1. pose proof (det_rot3 (pos b) (pos c) (pos a)) as R2.
  rewrite z1, z2, z3, z4. split; [ring|]. split; lra.
Qed.

Lemma mid_reg i a b c : tri3 ts i a b c -> fin a -> fin b ->
  reg ts (P3 (px a + (1 # 2) * (px b - px a)) (py a + (1 # 2) * (py b - py a)) 1).
Proof.
  intros (x & y & w & V) Fa Fb. destruct (view_he _ _ _ _ _ _ _ _ V) as (h1 & h2 & _).
  apply Cvx; try lra; apply Cov; auto; exists i; [exists b, x|exists c, y]; auto.
Qed.

(** An edge between finite vertices has a triangle of the area on at least one side. *)
Lemma border_neighbor i a b c n : tri3 ts i a b c -> he ts i a b n -> fin a -> fin b -> inf c -> finT n.
Proof.
  intros T Hn Fa Fb Ic. pose proof M as Ms.
  pose proof (tri3_cw px py _ _ _ _ _ Ms T) as C. destruct (mid_edge a b c Fa Fb C) as (Z & G1 & G2).
  pose proof (mid_reg i a b c T Fa Fb) as R. set (q := P3 (px a + _) _ _) in *.
  destruct R as (j & u & v & w & Tj & F1 & F2 & F3 & Hc).
  assert (Fj : finT j) by (exists u, v, w; auto).
  destruct T as (x & y & w' & V). assert (Q : n = x).
  { destruct (view_he _ _ _ _ _ _ _ _ V) as (h1 & _). exact (he_fun _ _ Ms _ _ _ _ _ Hn h1). }
  subst x.
  assert (Hj : inC pos ts j q) by (destruct Tj as (m1 & m2 & m3 & Vj); now apply (inC_view _ _ _ _ _ _ _ _ _ _ Vj)).
  assert (Hq : (0 < hw q)%Q) by (unfold q; simpl; lra).
  destruct (edge_excl px py ts i a b c n y w' q j Ms V Hq Z G1 G2 Hj) as [->| ->]; auto.
  exfalso. apply (finT_no_inf i a b c Fj); auto. exists n, y, w'. auto.
Qed.

(** The area is on one side of every edge of its border. *)
Lemma border_side i a b c x y : tri3 ts i a b c -> fin a -> fin b -> inf c -> reg ts (P3 x y 1) ->
  (0 <= det (pos a) (pos b) (P3 x y 1))%Q.
Proof.
  intros T Fa Fb Ic R'. pose proof M as Ms.
  pose proof (tri3_cw px py _ _ _ _ _ Ms T) as C. destruct (mid_edge a b c Fa Fb C) as (Z & G1 & G2).
  pose proof (mid_reg i a b c T Fa Fb) as R. set (q := P3 (px a + _) _ _) in *.
  destruct (Qlt_le_dec (det (pos a) (pos b) (P3 x y 1)) 0) as [Neg|]; auto. exfalso.
  destruct T as (n1 & n2 & n3 & V).
  set (p' := P3 x y 1) in *.
  destruct (small_delta [(det (pos b) (pos c) q, det (pos b) (pos c) p' - det (pos b) (pos c) q)%Q;
                         (det (pos c) (pos a) q, det (pos c) (pos a) p' - det (pos c) (pos a) q)%Q]) as (t & Ht & Hall).
  { simpl. intros xy [<-|[<-|[]]]; auto. }
  set (s := if Qlt_le_dec t 1 then t else 1%Q).
  assert (Hs : (0 < s /\ s <= t /\ s <= 1)%Q) by (unfold s; destruct (Qlt_le_dec t 1); lra).
  destruct Hs as (S0 & S1 & S2). specialize (Hall s S0 S1).
  pose proof (Hall _ (or_introl eq_refl)) as N1. pose proof (Hall _ (or_intror (or_introl eq_refl))) as N2. cbn [fst snd] in *.
  pose proof (Cvx _ _ x y s R R' (Qlt_le_weak _ _ S0) S2) as Rs.
  set (m := P3 _ _ _) in Rs.
  assert (Dm : forall u v, (det u v m == (1 - s) * det u v q + s * det u v p')%Q).
  { intros u v. unfold m, q, p', det; simpl. ring. }
  destruct Rs as (j & u & v & w & Tj & F1 & F2 & F3 & Hc).
  assert (j = i).
  { symmetry. apply (open_closed_excl _ _ Ms i j m).
    - apply (inT_view _ _ _ _ _ _ _ _ _ _ V). split; [|split]; rewrite Dm; [rewrite Z; nra|lra|lra].
    - destruct Tj as (m1 & m2 & m3 & Vj). now apply (inC_view _ _ _ _ _ _ _ _ _ _ Vj). }
  subst j. apply (finT_no_inf i a b c); [exists u, v, w; auto| |auto]. exists n1, n2, n3; auto.
Qed.

Lemma border_vertex i a b c w : tri3 ts i a b c -> fin a -> fin b -> inf c -> fin w -> hascorner ts w -> (0 <= D a b w)%Q.
Proof. intros T Fa Fb Ic Fw Hw. rewrite (hpos_fin px py w Fw). apply (border_side i a b c); auto. Qed.

Lemma border_P : wborder px py ts P.
Proof.
  intros i a b c T Fa Fb Ic. rewrite (hpos_fin px py P FP). apply (border_side i a b c); auto.
  rewrite inf_not_fin. now rewrite Ic.
Qed.

Lemma border_P' i a b c : tri3 ts i a b c -> fin a -> fin b -> inf c -> (0 <= D a b P)%Q.
Proof. intros T Fa Fb Ic. apply (border_P i a b c); auto. rewrite inf_not_fin in Ic. now apply negb_true_iff. Qed.

(** ** Moves *)
Definition move (i j : N) : Prop :=
  exists u v, he ts i u v j /\ (0 < D u v P)%Q /\
    forall a b c, tri3 ts i a b c -> fin a -> fin b -> inf c -> (0 < D a b P)%Q -> he ts i a b j.

Lemma he_tri3 i u v n : he ts i u v n -> exists c, tri3 ts i u v c.
Proof. intros (c & y & w & V). exists c, n, y, w. exact V. Qed.

Lemma move_some i j u v : he ts i u v j -> (0 < D u v P)%Q -> j <> NONE.
Proof.
  intros H L Q. subst j. destruct (glue_none _ _ M _ _ _ H) as (A & B). rewrite inf_not_fin in A, B. apply negb_true_iff in A, B.
  destruct (he_tri3 _ _ _ _ H) as (c & T). pose proof (tri3_cw px py _ _ _ _ _ M T) as C.
  destruct (is_finite c) eqn:F.
  - pose proof (two_inf px py _ _ _ _ A B F FP). lra.
  - pose proof (three_inf px py _ _ _ A B F). lra.
Qed.

Lemma move_back i j u v : he ts i u v j -> (0 < D u v P)%Q -> exists d, tri3 ts j v u d.
Proof.
  intros H L. pose proof (glue_some _ _ M _ _ _ _ H (move_some _ _ _ _ H L)) as G. exact (he_tri3 _ _ _ _ G).
Qed.

Lemma move_fin i j : finT i -> move i j -> finT j.
Proof.
  intros Fi (u & v & H & L & _). destruct (he_tri3 _ _ _ _ H) as (c & T).
  destruct (move_back _ _ _ _ H L) as (d & T').
  assert (Fu : fin u /\ fin v).
  { split; [destruct (fin_or_inf u) as [|Q]; auto|destruct (fin_or_inf v) as [|Q]; auto]; exfalso;
      [apply (finT_no_inf i v c u Fi)|apply (finT_no_inf i c u v Fi)]; auto; [now apply tri3_rot|now apply tri3_rot2]. }
  destruct Fu as (Fu & Fv). destruct (fin_or_inf d) as [Fd|Id]; [exists v, u, d; auto|].
  exfalso. pose proof (border_P' j v u d T' Fv Fu Id). pose proof (det_swap (pos u) (pos v) (pos P)). lra.
Qed.

(** ** Inside the area *)

(** Where the walk can be after it has left triangle i, with plane f, across the edge u v. *)
Definition after (u v : N) (f : plane) (j : N) : Prop :=
  exists u' v' d g, tri3 ts j v' u' d /\ fin u' /\ fin v' /\ fin d /\ (0 < D u' v' P)%Q /\
    ((ev g u' == z u')%Q /\ (ev g v' == z v')%Q /\ (ev g d == z d)%Q) /\
    ((ev f P < ev g P)%Q \/
     ((forall w, fin w -> (ev g w == ev f w)%Q) /\
      forall w, fin w -> (ev f w == z w)%Q -> (0 <= D u' v' w)%Q -> (0 <= D u v w)%Q)).

(** One move from a triangle of the area, across u v. *)
Lemma move_plane i j u v c f : tri3 ts i u v c -> he ts i u v j -> fin u -> fin v -> fin c -> (0 < D u v P)%Q ->
  finT j -> (ev f u == z u)%Q -> (ev f v == z v)%Q -> (ev f c == z c)%Q ->
  exists d g, tri3 ts j v u d /\ fin d /\ (0 < D u v d)%Q /\ (ev g u == z u)%Q /\ (ev g v == z v)%Q /\ (ev g d == z d)%Q /\
    ((ev f P < ev g P)%Q \/ forall w, fin w -> (ev g w == ev f w)%Q).
Proof.
  intros T H Fu Fv Fc L Fj Ku Kv Kc. destruct (move_back _ _ _ _ H L) as (d & T').
  assert (Fd : fin d).
  { destruct (fin_or_inf d) as [|Q]; auto. exfalso. exact (finT_no_inf j v u d Fj T' Q). }
  pose proof (tri3_cw px py _ _ _ _ _ M T') as C'. pose proof (det_swap (pos u) (pos v) (pos d)) as Sw.
  destruct (plane_exists px py u v d Fu Fv Fd) as (g & Gu & Gv & Gd); [lra|].
  pose proof (AL i j u v c d T T' Fu Fv Fc Fd) as Ld.
  exists d, g. split; auto. split; auto. split; [lra|]. split; auto. split; auto. split; auto.
  pose proof (Ld f Ku Kv Kc) as Le. apply Qle_lteq in Le. destruct Le as [Lt|Eq].
  - left. destruct (plane_step u v c d f g P) as (K & _); auto. lra.
  - right. intros w Fw. destruct (plane_step u v c d f g w) as (_ & K); auto. lra.
Qed.

Lemma reach_fin i j : clos_trans_n1 N move i j -> finT i ->
  exists u v c, tri3 ts i u v c /\ fin u /\ fin v /\ fin c /\ (0 < D u v P)%Q /\
    forall f, (ev f u == z u)%Q -> (ev f v == z v)%Q -> (ev f c == z c)%Q -> after u v f j.
Proof.
  intros R Fi. induction R as [j Mv|j k Mv R IH].
  - pose proof (move_fin i j Fi Mv) as Fj. destruct Mv as (u & v & H & L & _). destruct (he_tri3 _ _ _ _ H) as (c & T).
    assert (F3 : fin u /\ fin v /\ fin c).
    { destruct Fi as (a & b & e & Ti & Fa & Fb & Fe).
      destruct (tri3_fun _ _ _ _ _ _ _ _ Ti T) as [Q|[Q|Q]]; destruct Q as (-> & -> & ->); auto. }
    destruct F3 as (Fu & Fv & Fc). exists u, v, c. do 5 (split; auto). intros f Ku Kv Kc.
    destruct (move_plane i j u v c f T H Fu Fv Fc L Fj Ku Kv Kc) as (d & g & T' & Fd & Ld & Gu & Gv & Gd & K).
    exists u, v, d, g. do 5 (split; auto). split; auto. destruct K as [K|K]; auto.
  - destruct IH as (u & v & c & T & Fu & Fv & Fc & L & IH). exists u, v, c. do 5 (split; auto). intros f Ku Kv Kc.
    destruct (IH f Ku Kv Kc) as (u' & v' & d & g & Tj & Fu' & Fv' & Fd & L' & (Gu & Gv & Gd) & K).
    assert (Fj : finT j) by (exists v', u', d; auto).
    pose proof (move_fin j k Fj Mv) as Fk. destruct Mv as (u2 & v2 & H & L2 & _). destruct (he_tri3 _ _ _ _ H) as (c2 & T2).
    pose proof (tri3_cw px py _ _ _ _ _ M Tj) as Cj. pose proof (det_swap (pos u') (pos v') (pos d)) as Sw.
    assert (Nest : fin u2 /\ fin v2 /\ fin c2 /\ (ev g u2 == z u2)%Q /\ (ev g v2 == z v2)%Q /\ (ev g c2 == z c2)%Q /\
      forall w, fin w -> (ev g w == z w)%Q -> (0 <= D u2 v2 w)%Q -> (0 <= D u' v' w)%Q).
    { destruct (tri3_fun _ _ _ _ _ _ _ _ Tj T2) as [Q|[Q|Q]]; destruct Q as (-> & -> & ->).
      - exfalso. pose proof (det_swap (pos u') (pos v') (pos P)). lra.
      - do 6 (split; auto). intros w Fw Gw. apply (circ_nest1 g); auto. lra.
      - do 6 (split; auto). intros w Fw Gw. apply (circ_nest2 g); auto. lra. }
    destruct Nest as (Fu2 & Fv2 & Fc2 & Gu2 & Gv2 & Gc2 & Nest).
    destruct (move_plane j k u2 v2 c2 g T2 H Fu2 Fv2 Fc2 L2 Fk Gu2 Gv2 Gc2) as (d' & g' & T' & Fd' & Ld' & Hu & Hv & Hd & K').
    exists u2, v2, d', g'. do 5 (split; auto). split; auto.
    destruct K as [K|(K1 & K2)].
    + left. destruct K' as [K'|K']; [lra|]. rewrite (K' P FP). exact K.
    + destruct K' as [K'|K'].
      * left. rewrite <- (K1 P FP). exact K'.
      * right. split; [intros w Fw; rewrite (K' w Fw); auto|]. intros w Fw Ew Lw. apply K2; auto. apply Nest; auto. rewrite (K1 w Fw); auto.
Qed.

Lemma no_cycle_fin i : finT i -> ~ clos_trans_n1 N move i i.
Proof.
  intros Fi R. destruct (reach_fin i i R Fi) as (u & v & c & T & Fu & Fv & Fc & L & K).
  pose proof (tri3_cw px py _ _ _ _ _ M T) as C.
  destruct (plane_exists px py u v c Fu Fv Fc) as (f & Ku & Kv & Kc); [lra|].
  destruct (K f Ku Kv Kc) as (u' & v' & d & g & T' & Fu' & Fv' & Fd & L' & (Gu & Gv & Gd) & S).
  pose proof (tri3_cw px py _ _ _ _ _ M T') as C'. pose proof (det_swap (pos u') (pos v') (pos d)) as Sw.
  assert (G3 : (ev g u == z u /\ ev g v == z v /\ ev g c == z c)%Q /\ (0 <= D u' v' c)%Q).
  { assert (Z : forall a b, (det a b a == 0 /\ det a b b == 0)%Q) by (intros; unfold det; split; ring).
    destruct (Z (pos u') (pos v')) as (z1 & z2).
    destruct (tri3_fun _ _ _ _ _ _ _ _ T' T) as [Q|[Q|Q]]; destruct Q as (-> & -> & ->); (split; [auto|lra]). }
  destruct G3 as ((G1 & G2 & G3) & Lc). destruct S as [S|(_ & S)].
  - assert (ev f P == ev g P)%Q by (apply (plane_same u v c); auto; lra). lra.
  - specialize (S c Fc Kc Lc). lra.
Qed.

(** ** Outside the area *)

(** One corner at infinity, P strictly on the side of the area: the only move enters the area. *)
Lemma move_one i j a b c : tri3 ts i a b c -> fin a -> fin b -> inf c -> (0 < D a b P)%Q -> move i j -> finT j.
Proof. intros T Fa Fb Ic L (u & v & _ & _ & K). exact (border_neighbor i a b c j T (K a b c T Fa Fb Ic L) Fa Fb Ic). Qed.

(** Two corners at infinity. *)
Definition climb (f i j : N) : Q :=
  ((px P - px f) * (hx (pos i) + hx (pos j)) + (py P - py f) * (hy (pos i) + hy (pos j)))%Q.

Lemma climb_step f i j k : fin f -> inf i -> inf j -> inf k -> (D f i j < 0)%Q -> (D i f k < 0)%Q ->
  ((0 < D f i P -> climb f i j < climb f k i) /\ (0 < D i f P -> climb f k i < climb f i j))%Q.
Proof.
  intros Ff Ii Ij Ik C C'. unfold climb.
  destruct (inf_dir px py i Ii) as (di & Hi & Ei). destruct (inf_dir px py j Ij) as (dj & Hj & Ej).
  destruct (inf_dir px py k Ik) as (dk & Hk & Ek). rewrite Ei, Ej, Ek in *.
  rewrite (hpos_fin px py f Ff), (hpos_fin px py P FP) in *.
  simpl in Hi, Hj, Hk.
  repeat match goal with H : _ \/ _ |- _ => destruct H as [<-|H] | H : False |- _ => destruct H end;
    unfold det in *; simpl in *; try (exfalso; lra); split; intros; lra.
Qed.

(** A triangle with two corners at infinity, around f. *)
Definition infT (t f i j : N) : Prop := tri3 ts t f i j /\ fin f /\ inf i /\ inf j.

Definition oneT (t : N) : Prop := exists a b c, tri3 ts t a b c /\ fin a /\ fin b /\ inf c.

Lemma kinds t a b c : tri3 ts t a b c -> finT t \/ oneT t \/ exists f i j, infT t f i j.
Proof.
  intros T. pose proof (tri3_cw px py _ _ _ _ _ M T) as C. unfold infT, oneT, finT.
  destruct (fin_or_inf a) as [A|A], (fin_or_inf b) as [B|B], (fin_or_inf c) as [F|F].
  - left; eauto 10.
  - right; left; eauto 10.
  - right; left. exists c, a, b. split; [now apply tri3_rot2|auto].
  - right; right. exists a, b, c. auto.
  - right; left. exists b, c, a. split; [now apply tri3_rot|auto].
  - right; right. exists b, c, a. split; [now apply tri3_rot|auto].
  - right; right. exists c, a, b. split; [now apply tri3_rot2|auto].
  - rewrite inf_not_fin in A, B, F. apply negb_true_iff in A, B, F. pose proof (three_inf px py _ _ _ A B F). lra.
Qed.

(** On the line of an edge of the border, beyond one of its ends. *)
Definition dist (f : N) : Q := ((px P - px f) * (px P - px f) + (py P - py f) * (py P - py f))%Q.

Lemma beyond (ex ey wx wy cx cy : Q) : (ex * cy - ey * cx < 0 -> ex * wy - ey * wx == 0 -> 0 < wx * cy - wy * cx ->
  wx * wx + wy * wy < (wx - ex) * (wx - ex) + (wy - ey) * (wy - ey))%Q.
Proof.
  intros H1 H2 H3. set (n := (ex * cy - ey * cx)%Q) in *. set (m := (wx * cy - wy * cx)%Q) in *.
  assert (I : ((ex * wx + ey * wy) * n == (ex * ex + ey * ey) * m + (ex * wy - ey * wx) * (ex * cx + ey * cy))%Q) by (unfold n, m; ring).
  assert (I' : ((ex * wx + ey * wy) * n == (ex * ex + ey * ey) * m)%Q).
  { rewrite I, H2. ring. }
  assert (E0 : (0 < ex * ex + ey * ey)%Q).
  { pose proof (sq_pos ex). pose proof (sq_pos ey). destruct (Qlt_le_dec 0 (ex * ex + ey * ey)) as [|L]; auto. exfalso.
    destruct (sq_zero ex ey) as (Zx & Zy); [lra|]. unfold n in H1. rewrite Zx, Zy in H1. lra. }
  assert (Neg : (ex * wx + ey * wy < 0)%Q).
  { destruct (Qlt_le_dec (ex * wx + ey * wy) 0) as [|L]; auto. exfalso.
    assert (0 < (ex * ex + ey * ey) * m)%Q by (apply Qmult_lt_0_compat; auto).
    assert (0 <= (ex * wx + ey * wy) * (- n))%Q by (apply Qmult_le_0_compat; lra). lra. }
  lra.
Qed.

Lemma nearer_a a b c : fin a -> fin b -> inf c -> (D a b c < 0)%Q -> (D a b P == 0)%Q -> (0 < D c a P)%Q -> (dist a < dist b)%Q.
Proof.
  intros Fa Fb Ic C Z L. rewrite inf_not_fin in Ic. apply negb_true_iff in Ic. pose proof (hw_inf px py c Ic) as W.
  rewrite (hpos_fin px py a Fa), (hpos_fin px py P FP) in *. rewrite (hpos_fin px py b Fb) in *.
  unfold det in *. cbn [hx hy hw] in *. rewrite W in *. unfold dist.
  pose proof (beyond (px b - px a) (py b - py a) (px P - px a) (py P - py a) (hx (pos c)) (hy (pos c))) as K. lra.
Qed.

Lemma nearer_b a b c : fin a -> fin b -> inf c -> (D a b c < 0)%Q -> (D a b P == 0)%Q -> (0 < D b c P)%Q -> (dist b < dist a)%Q.
Proof.
  intros Fa Fb Ic C Z L. rewrite inf_not_fin in Ic. apply negb_true_iff in Ic. pose proof (hw_inf px py c Ic) as W.
  rewrite (hpos_fin px py a Fa), (hpos_fin px py P FP) in *. rewrite (hpos_fin px py b Fb) in *.
  unfold det in *. cbn [hx hy hw] in *. rewrite W in *. unfold dist.
  pose proof (beyond (px a - px b) (py a - py b) (px P - px b) (py P - py b) (- hx (pos c)) (- hy (pos c))) as K. lra.
Qed.

(** The walk is over, or it enters the area with the next move, or it is inside. *)
Definition settled (t : N) : Prop :=
  finT t \/ (exists a b c, tri3 ts t a b c /\ fin a /\ fin b /\ inf c /\ (0 < D a b P)%Q) \/ forall k, ~ move t k.

(** Otherwise it turns around a vertex f, at the distance d of P, or it goes along the border. *)
Definition outside (t : N) (d k h : Q) : Prop :=
  (exists f i j, infT t f i j /\ (d == dist f)%Q /\ (k == 0)%Q /\ (h == climb f i j)%Q) \/
  (exists a b c, tri3 ts t a b c /\ fin a /\ fin b /\ inf c /\ (D a b P == 0)%Q /\ (k == 1)%Q /\ (h == 0)%Q /\
     (((0 < D c a P)%Q /\ (d == dist a)%Q) \/ ((0 < D b c P)%Q /\ (d == dist b)%Q))).

Definition closer (d k h d' k' h' : Q) : Prop :=
  (d' < d \/ (d' == d /\ (k' < k \/ (k' == k /\ h < h'))))%Q.

Lemma outside_fun t d k h d' k' h' : outside t d k h -> outside t d' k' h' -> (d == d' /\ k == k' /\ h == h')%Q.
Proof.
  intros H H'. destruct H as [(f & i & j & (T & Ff & Ii & Ij) & d1 & k1 & h1)|(a & b & c & T & Fa & Fb & Ic & Z & k1 & h1 & H)];
    destruct H' as [(f' & i' & j' & (T' & Ff' & Ii' & Ij') & d2 & k2 & h2)|(a' & b' & c' & T' & Fa' & Fb' & Ic' & Z' & k2 & h2 & H')].
  - destruct (tri3_fun _ _ _ _ _ _ _ _ T T') as [Q|[Q|Q]]; destruct Q as (Q1 & Q2 & Q3); subst.
    + rewrite d1, d2, k1, k2, h1, h2. repeat split; reflexivity.
    + exfalso; eauto using inf_fin_false.
    + exfalso; eauto using inf_fin_false.
  - exfalso. destruct (tri3_fun _ _ _ _ _ _ _ _ T T') as [Q|[Q|Q]]; destruct Q as (Q1 & Q2 & Q3); subst; eauto using inf_fin_false.
  - exfalso. destruct (tri3_fun _ _ _ _ _ _ _ _ T T') as [Q|[Q|Q]]; destruct Q as (Q1 & Q2 & Q3); subst; eauto using inf_fin_false.
  - pose proof (tri3_cw px py _ _ _ _ _ M T) as C.
    destruct (tri3_fun _ _ _ _ _ _ _ _ T T') as [Q|[Q|Q]]; destruct Q as (Q1 & Q2 & Q3); subst; try (exfalso; eauto using inf_fin_false; fail).
    rewrite k1, k2, h1, h2. split; [|split; reflexivity].
    destruct H as [(L & ->)|(L & ->)], H' as [(L' & ->)|(L' & ->)]; try reflexivity; exfalso.
    + pose proof (nearer_a a b c Fa Fb Ic C Z L). pose proof (nearer_b a b c Fa Fb Ic C Z L'). lra.
    + pose proof (nearer_a a b c Fa Fb Ic C Z L'). pose proof (nearer_b a b c Fa Fb Ic C Z L). lra.
Qed.

(** A triangle with one corner at infinity, entered around b or around a. *)
Lemma enter_b t a b c : tri3 ts t a b c -> fin a -> fin b -> inf c -> (D b c P < 0)%Q ->
  settled t \/ exists d k h, outside t d k h /\ (d < dist b)%Q.
Proof.
  intros T Fa Fb Ic N. pose proof (tri3_cw px py _ _ _ _ _ M T) as C.
  pose proof (border_P' t a b c T Fa Fb Ic) as B. apply Qle_lteq in B. destruct B as [B|B].
  - left; right; left. exists a, b, c. auto.
  - assert (Z : (D a b P == 0)%Q) by lra. destruct (Qlt_le_dec 0 (D c a P)) as [L|L].
    + right. exists (dist a), 1%Q, 0%Q. split; [|now apply (nearer_a a b c)].
      right. exists a, b, c. do 5 (split; auto). split; [reflexivity|]. split; [reflexivity|]. left. split; [auto|reflexivity].
    + left; right; right. intros k (u & v & H & K & _). destruct (he_tri3 _ _ _ _ H) as (e & T').
      destruct (tri3_fun _ _ _ _ _ _ _ _ T T') as [Q|[Q|Q]]; destruct Q as (-> & -> & ->); lra.
Qed.

Lemma enter_a t a b c : tri3 ts t a b c -> fin a -> fin b -> inf c -> (D c a P < 0)%Q ->
  settled t \/ exists d k h, outside t d k h /\ (d < dist a)%Q.
Proof.
  intros T Fa Fb Ic N. pose proof (tri3_cw px py _ _ _ _ _ M T) as C.
  pose proof (border_P' t a b c T Fa Fb Ic) as B. apply Qle_lteq in B. destruct B as [B|B].
  - left; right; left. exists a, b, c. auto.
  - assert (Z : (D a b P == 0)%Q) by lra. destruct (Qlt_le_dec 0 (D b c P)) as [L|L].
    + right. exists (dist b), 1%Q, 0%Q. split; [|now apply (nearer_b a b c)].
      right. exists a, b, c. do 5 (split; auto). split; [reflexivity|]. split; [reflexivity|]. right. split; [auto|reflexivity].
    + left; right; right. intros k (u & v & H & K & _). destruct (he_tri3 _ _ _ _ H) as (e & T').
      destruct (tri3_fun _ _ _ _ _ _ _ _ T T') as [Q|[Q|Q]]; destruct Q as (-> & -> & ->); lra.
Qed.

Lemma enter_inf t f i j : infT t f i j -> outside t (dist f) 0 (climb f i j).
Proof. intros K. left. exists f, i, j. split; auto. repeat split; reflexivity. Qed.

Lemma move_outside t t' d k h : outside t d k h -> move t t' ->
  settled t' \/ exists d' k' h', outside t' d' k' h' /\ closer d k h d' k' h'.
Proof.
  intros H (u & v & Hm & L & _). destruct (he_tri3 _ _ _ _ Hm) as (e & T2).
  destruct (move_back _ _ _ _ Hm L) as (q & T'). pose proof (tri3_cw px py _ _ _ _ _ M T') as C'.
  pose proof (det_swap (pos u) (pos v) (pos P)) as Sw.
  destruct H as [(f & i & j & (T & Ff & Ii & Ij) & d1 & k1 & h1)|(a & b & c & T & Fa & Fb & Ic & Z & k1 & h1 & H)];
    pose proof (tri3_cw px py _ _ _ _ _ M T) as C.
  - (* around f *)
    destruct (tri3_fun _ _ _ _ _ _ _ _ T T2) as [Q|[Q|Q]]; destruct Q as (-> & -> & ->).
    + destruct (fin_or_inf q) as [Fq|Iq].
      * destruct (enter_a t' f q i) as [K|(d' & k' & h' & K & Lt)]; auto; [now apply tri3_rot|lra|].
        right. exists d', k', h'. split; auto. left. lra.
      * right. assert (K : infT t' f q i) by (split; [now apply tri3_rot|auto]).
        exists (dist f), 0%Q, (climb f q i). split; [now apply enter_inf|]. right. split; [lra|]. right. split; [lra|].
        rewrite h1. apply (climb_step f i j q); auto.
    + exfalso. rewrite inf_not_fin in Ii, Ij; apply negb_true_iff in Ii, Ij.
      pose proof (two_inf px py _ _ _ _ Ii Ij Ff FP). pose proof (det_rot3 (pos f) (pos i) (pos j)). lra.
    + destruct (fin_or_inf q) as [Fq|Iq].
      * destruct (enter_b t' q f j) as [K|(d' & k' & h' & K & Lt)]; auto; [now apply tri3_rot2|lra|].
        right. exists d', k', h'. split; auto. left. lra.
      * right. assert (K : infT t' f j q) by (split; auto).
        exists (dist f), 0%Q, (climb f j q). split; [now apply enter_inf|]. right. split; [lra|]. right. split; [lra|].
        pose proof (det_rot3 (pos f) (pos i) (pos j)). pose proof (det_rot3 (pos i) (pos j) (pos f)).
        rewrite h1. apply (climb_step f j q i); auto. lra.
  - (* along the border *)
    assert (Or : (0 < D c a P -> D b c P <= 0)%Q).
    { intros La. destruct (Qlt_le_dec 0 (D b c P)) as [Lb|]; auto.
      pose proof (nearer_a a b c Fa Fb Ic C Z La). pose proof (nearer_b a b c Fa Fb Ic C Z Lb). lra. }
    destruct (tri3_fun _ _ _ _ _ _ _ _ T T2) as [Q|[Q|Q]]; destruct Q as (-> & -> & ->).
    + lra.
    + destruct H as [(La & _)|(Lb & Hd)]; [specialize (Or La); lra|]. destruct (fin_or_inf q) as [Fq|Iq].
      * destruct (enter_a t' b q c) as [K|(d' & k' & h' & K & Lt)]; auto; [now apply tri3_rot|lra|].
        right. exists d', k', h'. split; auto. left. lra.
      * right. exists (dist b), 0%Q, (climb b q c). split; [apply enter_inf; split; [now apply tri3_rot|auto]|].
        right. split; [lra|]. left. lra.
    + destruct H as [(La & Hd)|(Lb & _)]; [|specialize (Or L); lra]. destruct (fin_or_inf q) as [Fq|Iq].
      * destruct (enter_b t' q a c) as [K|(d' & k' & h' & K & Lt)]; auto; [now apply tri3_rot2|lra|].
        right. exists d', k', h'. split; auto. left. lra.
      * right. exists (dist a), 0%Q, (climb a c q). split; [apply enter_inf; split; auto|].
        right. split; [lra|]. left. lra.
Qed.

Lemma move_settled t t' : settled t -> move t t' -> finT t'.
Proof.
  intros [F|[(a & b & c & T & Fa & Fb & Ic & L)|K]] Mv.
  - exact (move_fin _ _ F Mv).
  - exact (move_one _ _ _ _ _ T Fa Fb Ic L Mv).
  - exfalso. exact (K _ Mv).
Qed.

Lemma reach_settled t t' : clos_trans_n1 N move t t' -> settled t -> finT t'.
Proof.
  intros R S. induction R as [t' Mv|t' t'' Mv R IH]; [exact (move_settled _ _ S Mv)|].
  apply (move_settled t'); auto. now left.
Qed.

Lemma reach_outside t t' d k h : clos_trans_n1 N move t t' -> outside t d k h ->
  settled t' \/ exists d' k' h', outside t' d' k' h' /\ closer d k h d' k' h'.
Proof.
  intros R O. induction R as [t' Mv|t' t'' Mv R IH]; [exact (move_outside _ _ _ _ _ O Mv)|].
  destruct IH as [S|(d1 & k1 & h1 & O1 & C1)].
  - left. left. exact (move_settled _ _ S Mv).
  - destruct (move_outside _ _ _ _ _ O1 Mv) as [S|(d2 & k2 & h2 & O2 & C2)]; [now left|].
    right. exists d2, k2, h2. split; auto. unfold closer in *.
    destruct C1 as [C1|(C1 & [C1'|(C1' & C1'')])], C2 as [C2|(C2 & [C2'|(C2' & C2'')])]; try (left; lra);
      right; (split; [lra|]); try (left; lra); right; split; lra.
Qed.

Lemma kinds_where t a b c : tri3 ts t a b c -> settled t \/ exists d k h, outside t d k h.
Proof.
  intros T. destruct (kinds _ _ _ _ T) as [F|[(x & y & w & T' & Fx & Fy & Iw)|(f & i & j & K)]].
  - left. now left.
  - pose proof (border_P' t x y w T' Fx Fy Iw) as B. apply Qle_lteq in B. destruct B as [B|B].
    + left; right; left. exists x, y, w. auto.
    + assert (Z : (D x y P == 0)%Q) by lra.
      destruct (Qlt_le_dec 0 (D w x P)) as [L|L]; [|destruct (Qlt_le_dec 0 (D y w P)) as [L'|L']].
      * right. exists (dist x), 1%Q, 0%Q. right. exists x, y, w. do 5 (split; auto). split; [reflexivity|]. split; [reflexivity|]. left; split; [auto|reflexivity].
      * right. exists (dist y), 1%Q, 0%Q. right. exists x, y, w. do 5 (split; auto). split; [reflexivity|]. split; [reflexivity|]. right; split; [auto|reflexivity].
      * left; right; right. intros k (u & v & H & K & _). destruct (he_tri3 _ _ _ _ H) as (e & T2).
        destruct (tri3_fun _ _ _ _ _ _ _ _ T' T2) as [Q|[Q|Q]]; destruct Q as (-> & -> & ->); lra.
  - right. do 3 eexists. apply enter_inf. eauto.
Qed.

(** The walk never comes back to a triangle it has left. *)
Lemma no_cycle t : ~ clos_trans_n1 N move t t.
Proof.
  intros R.
  assert (T : exists a b c, tri3 ts t a b c).
  { assert (Hm : exists k, move t k).
    { apply clos_tn1_trans, clos_trans_t1n in R. inversion R; eauto. }
    destruct Hm as (k & u & v & H & _). destruct (he_tri3 _ _ _ _ H) as (c & T). eauto. }
  destruct T as (a & b & c & T).
  assert (S0 : settled t -> False) by (intros S; exact (no_cycle_fin t (reach_settled t t R S) R)).
  destruct (kinds_where _ _ _ _ T) as [S|(d & k & h & O)]; [auto|].
  destruct (reach_outside t t d k h R O) as [S|(d' & k' & h' & O' & C)]; [auto|].
  destruct (outside_fun _ _ _ _ _ _ _ O O') as (E1 & E2 & E3). unfold closer in C. lra.
Qed.

(** ** The moves of the code *)
Hypothesis X : Exact vs px py.
Variable p : vertex.
Hypothesis HP : nthN vs P = Some p.

Lemma Is : Ids vs ts.
Proof. exact (I_ids _ _ _ _ MI). Qed.

(** With one corner at infinity the edge of the area is tested first. *)
Lemma walk_one prev cur t i : nthN ts cur = Some t -> cur < lenN ts -> came_from px py ts prev cur P ->
  inf (tv t i) -> is_infinite (tv t (next_cw i)) = false -> is_infinite (tv t (next_ccw i)) = false ->
  (0 < D (tv t (next_cw i)) (tv t (next_ccw i)) P)%Q ->
  vertex_placement_1_infinite vs p t cur i prev cur = Ret (MoveTo cur (tn t (next_cw i))).
Proof.
  intros Ht Hc Hp F1 F2 F3 L.
  assert (C1 : next_cw (next_cw i) = next_ccw i) by (destruct i; reflexivity).
  assert (C2 : next_ccw (next_cw i) = i) by (destruct i; reflexivity).
  pose proof (tri3_nth ts cur t (next_cw i) Ht) as T. rewrite C1, C2 in T.
  assert (Fa : fin (tv t (next_cw i))) by (rewrite inf_not_fin in F2; now apply negb_false_iff).
  assert (Fb : fin (tv t (next_ccw i))) by (rewrite inf_not_fin in F3; now apply negb_false_iff).
  destruct (get_vertex vs (tv t (next_cw i))) as (pa & G2 & N2); [apply (Ids_tv _ _ _ _ _ Is Ht)|auto|].
  destruct (get_vertex vs (tv t (next_ccw i))) as (pb & G3 & N3); [apply (Ids_tv _ _ _ _ _ Is Ht)|auto|].
  unfold vertex_placement_1_infinite. rewrite G2, G3. cbn [bind]. cbv zeta.
  unfold vertex_next_cw_edge_index.
  destruct (X_side _ _ _ X _ _ _ _ _ _ N2 N3 HP) as (L1 & Z1).
  rewrite (proj2 L1 L).
  assert (Np : (prev =? tn t (next_cw i)) = false).
  { apply N.eqb_neq. intros Q. symmetry in Q.
    pose proof (prev_neg px py ts M P prev cur Hc Hp t Ht (next_cw i) Q) as K. rewrite C1 in K. lra. }
  rewrite Np. reflexivity.
Qed.

Lemma walk_moves prev cur : cur < lenN ts -> came_from px py ts prev cur P ->
  post (walk_iter ts vs p prev cur)
    (fun s => match s with
              | Placed NotFound => False
              | Placed _ => True
              | MoveTo pr cu => pr = cur /\ cu < lenN ts /\ came_from px py ts cur cu P /\ move cur cu
              end) (fun _ => False).
Proof.
  intros Hc Hp. destruct (nthN_Some ts cur Hc) as (t & Ht).
  pose proof (walk_iter_post vs px py X ts M Is P prev cur p HP Hc Hp t Ht) as S.
  destruct (walk_iter ts vs p prev cur) as [s|e| |] eqn:Ew; simpl in *; try contradiction.
  destruct s as [[?|? ? ?|]|pr cu]; auto. cbn in S. destruct S as (-> & L & u & v & H & K).
  split; auto. split; auto. split; [right; eauto|]. exists u, v. split; auto. split; auto.
  intros a b c T Fa Fb Ic Lab.
  unfold walk_iter in Ew. unfold getN at 1 in Ew. rewrite Ht in Ew. cbn [bind] in Ew.
  destruct (collect_infinite_triangle_vertices t) as [l| | |] eqn:El; try discriminate. cbn [bind] in Ew.
  assert (Some_inf : exists k, tv t (next_cw k) = a /\ tv t (next_ccw k) = b /\ tv t k = c).
  { destruct T as (x & y & w & t2 & k & Ht2 & Er). assert (t2 = t) by congruence. subst t2.
    unfold rot in Er. injection Er; intros; subst. exists (next_ccw k). destruct k; auto. }
  destruct Some_inf as (k & Ea & Eb & Ec).
  assert (Nf : forall q, tv t q = a \/ tv t q = b -> is_infinite (tv t q) = false).
  { intros q [->| ->]; rewrite inf_not_fin; [rewrite Fa|rewrite Fb]; reflexivity. }
  assert (Nk : forall q, is_infinite (tv t q) = true -> q = k).
  { intros q Hq. destruct q, k; try reflexivity; exfalso; simpl in Ea, Eb;
      (rewrite Nf in Hq by (simpl; auto); discriminate). }
  rewrite <- Ec in Ic.
  destruct (collect_cases _ _ El) as [(-> & A & B & C)|[(i & -> & A & B & C)|(i & -> & A & B & C)]].
  - exfalso. destruct k; simpl in Ic; congruence.
  - pose proof (Nk i A) as Qi. subst k.
    rewrite <- Ea, <- Eb in Lab. rewrite (walk_one prev cur t i) in Ew by auto. injection Ew as <-.
    pose proof (he_at ts cur t (next_cw i) Ht) as Hh.
    assert (C1 : next_cw (next_cw i) = next_ccw i) by (destruct i; reflexivity). rewrite C1, Ea, Eb in Hh. exact Hh.
  - exfalso. pose proof (Nk _ B) as Q1. pose proof (Nk _ C) as Q2. rewrite <- Q1 in Q2. destruct i; discriminate.
Qed.

(** ** The walk ends *)
Lemma walk_ends n : forall seen prev cur,
  cur < lenN ts -> came_from px py ts prev cur P -> NoDup seen ->
  (forall k, In k seen -> k < lenN ts /\ clos_trans_n1 N move k cur) ->
  (length ts <= n + length seen)%nat ->
  walk n ts vs p prev cur <> Ret NotFound.
Proof.
  induction n as [|n IH]; intros seen prev cur Hc Hp Nd Hs Hn.
  - exfalso. assert (Nc : NoDup (cur :: seen)).
    { constructor; auto. intros K. exact (no_cycle cur (proj2 (Hs cur K))). }
    pose proof (NoDup_incl_length Nc (l' := rangeN 0 (length ts))) as K.
    rewrite length_rangeN in K. simpl in K. assert (S (length seen) <= length ts)%nat; [|lia].
    apply K. intros k [<-|Hk]; apply In_rangeN; [unfold lenN in Hc; lia|]. apply Hs in Hk. unfold lenN in Hk. lia.
  - cbn [walk].
    assert (Hx : nexists cur = true).
    { unfold nexists, NONE. pose proof (M_len _ _ M). apply negb_true_iff, N.eqb_neq. lia. }
    rewrite Hx. cbn [negb].
    pose proof (walk_moves prev cur Hc Hp) as S. destruct (walk_iter ts vs p prev cur) as [s|e| |]; simpl in S; try contradiction.
    cbn [bind]. destruct s as [pl|pr cu].
    + destruct pl; try contradiction; discriminate.
    + destruct S as (-> & L & Cf & Mv). apply (IH (cur :: seen)); auto.
      * constructor; auto. intros K. exact (no_cycle cur (proj2 (Hs cur K))).
      * intros k [<-|Hk]; [split; auto; now constructor|]. destruct (Hs k Hk) as (Lk & Rk). split; auto.
        econstructor 2; eauto.
      * simpl. lia.
Qed.

Lemma find_found from : from < lenN ts -> find_vertex_placement p from ts vs <> Ret NotFound.
Proof.
  intros H. unfold find_vertex_placement. apply (walk_ends _ []); auto.
  - now left.
  - constructor.
  - intros k [].
  - simpl. lia.
Qed.

End Area.

(** ** Insertions inside the area succeed *)
Hypothesis X : Exact vs px py.

Definition convex_reg (ts : list tri) : Prop :=
  forall x y x' y' t, reg ts (P3 x y 1) -> reg ts (P3 x' y' 1) -> (0 <= t)%Q -> (t <= 1)%Q ->
    reg ts (P3 (x + t * (x' - x)) (y + t * (y' - y)) 1).

Lemma convex_placed ts P : MInv ts -> convex_reg ts -> (forall w, fin w -> hascorner ts w -> reg ts (P3 (px w) (py w) 1)) ->
  fin P -> reg ts (P3 (px P) (py P) 1) -> placed px py ts P.
Proof.
  intros MI Cv Cov FP Rg. right. split; [now rewrite (hpos_fin px py P FP)|]. exact (border_P ts MI Cv Cov P FP Rg).
Qed.

Lemma done_reg done s : DInv vs px py done s -> (forall w, In w done -> reg (s_ts s) (P3 (px w) (py w) 1)) ->
  forall w, fin w -> hascorner (s_ts s) w -> reg (s_ts s) (P3 (px w) (py w) 1).
Proof. intros DI H w Fw K. apply H. exact (V_done _ _ _ _ _ DI w K Fw). Qed.

Lemma insert_succeeds fuel done s P :
  DInv vs px py done s -> P < lenN vs -> ~ In P done -> lenN (s_ts s) + 2 <= idmax ->
  (2 * length (s_ts s) + 8 <= fuel)%nat ->
  all_ldel (s_ts s) -> convex_reg (s_ts s) -> (forall w, In w done -> reg (s_ts s) (P3 (px w) (py w) 1)) ->
  reg (s_ts s) (P3 (px P) (py P) 1) -> exists s', insert_vertex fuel vs s P = Ret s'.
Proof.
  intros DI Hv Nd Hmax Hf AL Cv Cov InP. pose proof DI as [A B C F R Mp].
  assert (FP : fin P). { unfold is_finite. apply N.ltb_lt. pose proof (X_len _ _ _ X). lia. }
  destruct (nthN_Some vs P Hv) as (p & Hp).
  pose proof (insert_post vs px py X fuel done s P DI Hv Nd Hmax Hf) as Ip.
  destruct (insert_vertex fuel vs s P) as [s'|e| |] eqn:Hi; simpl in Ip; try contradiction; [eauto|].
  exfalso.
  apply (find_found (s_ts s) A AL Cv) with (P := P) (p := p) (from := s_start s); auto. apply (proj2 Ip p Hp).
Qed.

Lemma fold_succeeds fuel : forall l done s,
  DInv vs px py done s -> NoDup l -> (forall v, In v l -> v < lenN vs /\ ~ In v done) ->
  2 * (lenN l + lenN done) + 2 <= idmax -> (4 * (length l + length done) + 12 <= fuel)%nat ->
  all_ldel (s_ts s) -> convex_reg (s_ts s) -> (forall w, In w done -> reg (s_ts s) (P3 (px w) (py w) 1)) ->
  (forall v, In v l -> reg (s_ts s) (P3 (px v) (py v) 1)) ->
  exists s', foldM (insert_vertex fuel vs) l s = Ret s' /\ all_ldel (s_ts s') /\
    forall p, reg (s_ts s') p <-> reg (s_ts s) p.
Proof.
  induction l as [|v l IH]; intros done s DI Nd Hl Hid Hf AL Cv Cov Hin; [simpl; exists s; repeat split; auto|].
  cbn [foldM]. inversion Nd as [|? ? Ni Nd']; subst.
  rewrite lenN_cons in Hid. simpl length in Hf.
  pose proof (V_len _ _ _ _ _ DI) as VL. destruct (Hl v (or_introl eq_refl)) as (Lv & Nv).
  assert (G1 : lenN (s_ts s) + 2 <= idmax) by lia.
  assert (G2 : (2 * length (s_ts s) + 8 <= fuel)%nat) by (unfold lenN in VL; lia).
  pose proof (Hin v (or_introl eq_refl)) as Iv.
  assert (Fv : fin v). { unfold is_finite. apply N.ltb_lt. pose proof (X_len _ _ _ X). lia. }
  destruct (insert_succeeds fuel done s v DI Lv Nv G1 G2 AL Cv Cov Iv) as (s1 & Hi). rewrite Hi. cbn [bind].
  destruct (step_inv vs px py X fuel done s v s1 DI Lv Nv G1 G2 Hi) as (DI1 & A1 & S1 & B1).
  pose proof (convex_placed (s_ts s) v (V_inv _ _ _ _ _ DI) Cv (done_reg done s DI Cov) Fv Iv) as Pl.
  specialize (S1 Pl). specialize (B1 Pl AL).
  destruct (IH (v :: done) s1 DI1) as (s' & Hs & A2 & R2); auto.
  - intros w Hw. split; [apply Hl; now right|]. intros [<-|K]; [contradiction|]. apply (proj2 (Hl w (or_intror Hw)) K).
  - rewrite lenN_cons. lia.
  - simpl length. lia.
  - intros x y x' y' t R R' L L'. apply A1, Cv; auto.
  - intros w [<-|Hw]; apply A1; auto.
  - intros w Hw. apply A1, Hin. now right.
  - exists s'. split; auto. split; auto. intros p. rewrite R2. split; auto.
Qed.

End WithEnv.
