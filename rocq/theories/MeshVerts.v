(** * MeshVerts: corners of a mesh do not lie inside or on the border of other triangles. *)

From Coq Require Import NArith List Bool Lia QArith Lqa.
From Verif Require Import Base BaseFacts Arith Types Infinite Triangulation Geom Mesh Exact.
Import ListNotations.
Local Open Scope N_scope.

Section WithEnv.
Context {E : Env}.
Variables px py : N -> Q.
Notation pos := (hpos px py).
Notation D a b c := (det (pos a) (pos b) (pos c)).
Notation Mesh := (Mesh pos).

(** [w] is a corner of triangle [j]. *)
Definition corner (ts : list tri) (j w : N) : Prop := exists u n, he ts j w u n.

Lemma corner_view ts j w : corner ts j w -> exists b c x y z, view ts j w b c x y z.
Proof. intros (u & n & c & y & z & V). eauto 6. Qed.

Lemma corner_cases ts i a b c x y z w :
  view ts i a b c x y z -> corner ts i w -> w = a \/ w = b \/ w = c.
Proof.
  intros V (u & n & H). destruct (he_cases _ _ _ _ _ _ _ _ _ _ _ V H) as [?|[?|?]]; tauto.
Qed.

Lemma corner_closed ts j w : Mesh ts -> corner ts j w -> inC pos ts j (pos w).
Proof.
  intros M (u & n & c & y & z & V). apply (inC_view _ _ _ _ _ _ _ _ _ _ V).
  pose proof (M_cw _ _ M _ _ _ _ _ _ _ V) as C.
  pose proof (det_zero (pos w) (pos u)). pose proof (det_zero (pos w) (pos c)).
  pose proof (det_rot3 (pos w) (pos u) (pos c)). repeat split; lra.
Qed.

(** A point of the plane inside an edge has a triangle on the other side. *)
Lemma edge_point_neighbor ts i a b c x y z w :
  Mesh ts -> view ts i a b c x y z -> (0 < hw w)%Q -> (det (pos a) (pos b) w == 0)%Q ->
  x <> NONE.
Proof.
  intros M V Hw Z Hx. rewrite Hx in V.
  destruct (view_he _ _ _ _ _ _ _ _ V) as (H & _).
  destruct (glue_none _ _ M _ _ _ H) as (A & B).
  rewrite inf_not_fin in A, B. apply negb_true_iff in A, B.
  pose proof (M_cw _ _ M _ _ _ _ _ _ _ V) as C.
  destruct (hw_cases px py c) as [(Fc & Hc)|(Fc & Hc)].
  - unfold det in C, Z. rewrite (hw_inf px py a A), (hw_inf px py b B) in C, Z.
    set (k := (hx (pos a) * hy (pos b) - hy (pos a) * hx (pos b))%Q).
    assert (K1 : (k * hw (pos c) < 0)%Q) by (unfold k; lra).
    assert (K2 : (k * hw w == 0)%Q) by (unfold k; lra).
    rewrite Hc in K1. assert (k < 0)%Q by lra. nra.
  - pose proof (three_inf px py _ _ _ A B Fc). lra.
Qed.

Lemma vertex_excl_edge ts i a b c x y z j w :
  Mesh ts -> view ts i a b c x y z -> corner ts j w -> (0 < hw (pos w))%Q ->
  (D a b w == 0)%Q -> (D b c w < 0)%Q -> (D c a w < 0)%Q -> False.
Proof.
  intros M V Cw Hw Z H1 H2.
  pose proof (edge_point_neighbor _ _ _ _ _ _ _ _ _ M V Hw Z) as Hx.
  pose proof (M_cw _ _ M _ _ _ _ _ _ _ V) as C.
  destruct (view_he _ _ _ _ _ _ _ _ V) as (Hab & _).
  pose proof (glue_some _ _ M _ _ _ _ Hab Hx) as (d & x' & y' & V').
  pose proof (M_cw _ _ M _ _ _ _ _ _ _ V') as C'.
  destruct (split2_other _ _ _ _ C Z H1 H2 _ C') as (H3 & H4).
  destruct (corner_view _ _ _ Cw) as (e & f & u & v & r & Vj).
  pose proof (M_cw _ _ M _ _ _ _ _ _ _ Vj) as Cj.
  (* a point of the open triangle j, close to w *)
  set (s := padd (pos w) (padd (pos e) (pos f))).
  assert (Hclose : forall k, (0 < k)%Q -> in_open (pos w) (pos e) (pos f) (padd (pos w) (pscale k s))).
  { intros k Hk. apply closed_push; auto.
    apply (inC_view _ _ _ _ _ _ _ _ _ _ Vj). now apply corner_closed. }
  destruct (small_delta
    [(D b c w, det (pos b) (pos c) s); (D c a w, det (pos c) (pos a) s);
     (D a d w, det (pos a) (pos d) s); (D d b w, det (pos d) (pos b) s)]) as (k & Hk & Hsm).
  { intros xy Hin; simpl in Hin. decompose [or] Hin; subst; simpl; auto; contradiction. }
  specialize (Hsm k Hk (Qle_refl k)).
  set (q := padd (pos w) (pscale k s)).
  assert (G : forall m n, In (D m n w, det (pos m) (pos n) s)
    [(D b c w, det (pos b) (pos c) s); (D c a w, det (pos c) (pos a) s);
     (D a d w, det (pos a) (pos d) s); (D d b w, det (pos d) (pos b) s)] -> (det (pos m) (pos n) q < 0)%Q).
  { intros m n Hin. unfold q. rewrite det_padd, det_pscale. exact (Hsm _ Hin). }
  pose proof (G b c (or_introl eq_refl)) as G1.
  pose proof (G c a (or_intror (or_introl eq_refl))) as G2.
  pose proof (G a d (or_intror (or_intror (or_introl eq_refl)))) as G3.
  pose proof (G d b (or_intror (or_intror (or_intror (or_introl eq_refl))))) as G4.
  pose proof (Hclose k Hk) as Iq. fold q in Iq.
  assert (Heq : i = j \/ x = j).
  { pose proof (det_anti (pos a) (pos b) q) as (A1 & _).
    destruct (Qlt_le_dec (det (pos a) (pos b) q) 0) as [S|S].
    - left. destruct (N.eq_dec i j) as [|Hne]; auto. exfalso.
      apply (M_disj _ _ M i j q Hne).
      + apply (inT_view _ _ _ _ _ _ _ _ _ _ V). repeat split; auto.
      + now apply (inT_view _ _ _ _ _ _ _ _ _ _ Vj).
    - destruct (Qlt_le_dec 0 (det (pos a) (pos b) q)) as [S'|S'].
      + right. destruct (N.eq_dec x j) as [|Hne]; auto. exfalso.
        apply (M_disj _ _ M x j q Hne).
        * apply (inT_view _ _ _ _ _ _ _ _ _ _ V'). repeat split; auto. lra.
        * now apply (inT_view _ _ _ _ _ _ _ _ _ _ Vj).
      + (* q on the line ab: push it towards c *)
        left. destruct (N.eq_dec i j) as [|Hne]; auto. exfalso.
        destruct Iq as (J1 & J2 & J3).
        destruct (small_delta
          [(det (pos b) (pos c) q, D b c c); (det (pos c) (pos a) q, D c a c);
           (det (pos w) (pos e) q, D w e c); (det (pos e) (pos f) q, D e f c);
           (det (pos f) (pos w) q, D f w c)]) as (k2 & Hk2 & Hs2).
        { intros xy Hin; simpl in Hin. decompose [or] Hin; subst; simpl; auto; contradiction. }
        specialize (Hs2 k2 Hk2 (Qle_refl k2)).
        set (q2 := padd q (pscale k2 (pos c))).
        assert (G5 : forall m n, In (det (pos m) (pos n) q, D m n c)
          [(det (pos b) (pos c) q, D b c c); (det (pos c) (pos a) q, D c a c);
           (det (pos w) (pos e) q, D w e c); (det (pos e) (pos f) q, D e f c);
           (det (pos f) (pos w) q, D f w c)] -> (det (pos m) (pos n) q2 < 0)%Q).
        { intros m n Hin. unfold q2. rewrite det_padd, det_pscale. exact (Hs2 _ Hin). }
        apply (M_disj _ _ M i j q2 Hne).
        * apply (inT_view _ _ _ _ _ _ _ _ _ _ V). split; [|split].
          -- unfold q2. rewrite det_padd, det_pscale. nra.
          -- apply G5; simpl; tauto.
          -- apply G5; simpl; tauto.
        * apply (inT_view _ _ _ _ _ _ _ _ _ _ Vj). split; [|split]; apply G5; simpl; tauto. }
  pose proof (det_zero (pos a) (pos c)). pose proof (det_zero (pos c) (pos a)).
  pose proof (det_zero (pos b) (pos c)). pose proof (det_zero (pos c) (pos b)).
  pose proof (det_anti (pos a) (pos b) (pos d)).
  destruct Heq as [Q|Q]; rewrite <- Q in Cw.
  - destruct (corner_cases _ _ _ _ _ _ _ _ _ V Cw) as [-> |[-> | ->]]; lra.
  - destruct (corner_cases _ _ _ _ _ _ _ _ _ V' Cw) as [-> |[-> | ->]]; lra.
Qed.

(** A corner [w] of the mesh in the closed triangle [i] is on two of its edges. *)
Lemma vertex_excl ts i a b c x y z j w :
  Mesh ts -> view ts i a b c x y z -> corner ts j w -> (0 < hw (pos w))%Q ->
  in_closed (pos a) (pos b) (pos c) (pos w) ->
  ((D a b w == 0 /\ D b c w == 0) \/ (D b c w == 0 /\ D c a w == 0) \/
   (D c a w == 0 /\ D a b w == 0))%Q.
Proof.
  intros M V Cw Hw (H1 & H2 & H3).
  assert (T : forall q, (q <= 0 -> q < 0 \/ q == 0)%Q).
  { intros q Hq. destruct (Qlt_le_dec q 0); auto. right; lra. }
  destruct (T _ H1) as [A|A], (T _ H2) as [B|B], (T _ H3) as [C|C]; auto; exfalso.
  - (* interior *)
    assert (I : inT pos ts i (pos w)) by (apply (inT_view _ _ _ _ _ _ _ _ _ _ V); repeat split; auto).
    pose proof (open_closed_excl _ _ M i j _ I (corner_closed _ _ _ M Cw)) as Q.
    rewrite <- Q in Cw.
    pose proof (det_zero (pos a) (pos b)). pose proof (det_zero (pos b) (pos c)).
    pose proof (det_zero (pos b) (pos a)). pose proof (det_zero (pos c) (pos b)).
    pose proof (det_zero (pos a) (pos c)). pose proof (det_zero (pos c) (pos a)).
    destruct (corner_cases _ _ _ _ _ _ _ _ _ V Cw) as [-> |[-> | ->]]; lra.
  - exact (vertex_excl_edge _ _ _ _ _ _ _ _ _ _ M (view_rot2 _ _ _ _ _ _ _ _ V) Cw Hw C A B).
  - exact (vertex_excl_edge _ _ _ _ _ _ _ _ _ _ M (view_rot _ _ _ _ _ _ _ _ V) Cw Hw B C A).
  - exact (vertex_excl_edge _ _ _ _ _ _ _ _ _ _ M V Cw Hw A B C).
Qed.

(** On two edges of a clockwise triangle: at their common corner. *)
Lemma at_corner a b c w :
  (D a b c < 0)%Q -> is_finite w = true -> (D a b w == 0)%Q -> (D c a w == 0)%Q ->
  is_finite a = true /\ samepos px py a w.
Proof.
  intros C Fw Z1 Z2.
  pose proof (cramer_w (pos a) (pos b) (pos c) (pos w)) as W.
  pose proof (cramer_x (pos a) (pos b) (pos c) (pos w)) as Hx.
  pose proof (cramer_y (pos a) (pos b) (pos c) (pos w)) as Hy.
  rewrite Z1, Z2 in W, Hx, Hy.
  set (k := (D a b c)%Q) in *. set (l := (D b c w)%Q) in *.
  rewrite (hw_fin px py w Fw) in W.
  destruct (hw_cases px py a) as [(Fa & Ha)|(Fa & Ha)]; rewrite Ha in W.
  - split; auto. unfold samepos.
    rewrite (hpos_fin px py w Fw), (hpos_fin px py a Fa) in Hx, Hy. simpl in Hx, Hy.
    assert (l == k)%Q by lra.
    assert (A1 : (k * (px a - px w) == 0)%Q) by (rewrite H in Hx; lra).
    assert (A2 : (k * (py a - py w) == 0)%Q) by (rewrite H in Hy; lra).
    apply Qmult_integral in A1. apply Qmult_integral in A2.
    destruct A1 as [A1|A1]; [lra|]. destruct A2 as [A2|A2]; [lra|]. split; lra.
  - exfalso. lra.
Qed.

(** A finite corner of the mesh in a closed triangle is at one of its finite corners. *)
Lemma vertex_in_closed ts i a b c x y z j w :
  Mesh ts -> view ts i a b c x y z -> corner ts j w -> is_finite w = true ->
  in_closed (pos a) (pos b) (pos c) (pos w) ->
  exists v, (v = a \/ v = b \/ v = c) /\ is_finite v = true /\ samepos px py v w.
Proof.
  intros M V Cw Fw I.
  assert (Hw : (0 < hw (pos w))%Q) by (rewrite hw_fin by auto; lra).
  pose proof (M_cw _ _ M _ _ _ _ _ _ _ V) as C.
  pose proof (det_rot3 (pos a) (pos b) (pos c)).
  destruct (vertex_excl _ _ _ _ _ _ _ _ _ _ M V Cw Hw I) as [(A & B)|[(A & B)|(A & B)]].
  - exists b. split; auto. apply (at_corner b c a w); auto. lra.
  - exists c. split; auto. apply (at_corner c a b w); auto. lra.
  - exists a. split; auto. apply (at_corner a b c w); auto.
Qed.

(** Different finite corners are at different places. *)
Definition PosInj (ts : list tri) : Prop :=
  forall i j u v, corner ts i u -> corner ts j v -> is_finite u = true -> is_finite v = true ->
    samepos px py u v -> u = v.

End WithEnv.
