(** * Holes: the part of the plane that the finite triangles leave out is open to infinity. *)

From Coq Require Import ZArith NArith List Bool Lia QArith Lqa.
From Verif Require Import Base BaseFacts Arith Types Utils Infinite Triangulation Geom Mesh MeshVerts Exact
  DTExact MeshEdge Lawson.
Import ListNotations.
Local Open Scope N_scope.

Section WithEnv.
Context {E : Env}.
Variables px py : N -> Q.
Notation pos := (hpos px py).
Notation D a b c := (det (pos a) (pos b) (pos c)).
Notation Mesh := (Mesh pos).
Notation fin v := (is_finite v = true).
Notation reg := (reg px py).

(** From a point that no finite triangle contains one of the four rays along the axes meets none. *)
Lemma escape ts p : Mesh ts -> (0 < hw p)%Q -> ~ reg ts p ->
  exists e, is_infinite e = true /\ forall t, (0 <= t)%Q -> ~ reg ts (toward p (pos e) t).
Proof.
  intros M Hp Out. destruct (M_cover _ _ M p Hp) as (i & a & b & c & x & y & z & V & Hc).
  assert (Inf : is_infinite a = true \/ is_infinite b = true \/ is_infinite c = true).
  { rewrite !inf_not_fin. destruct (is_finite a) eqn:Fa; auto. destruct (is_finite b) eqn:Fb; auto.
    destruct (is_finite c) eqn:Fc; auto. exfalso. apply Out. exists i, a, b, c. split; auto. do 3 eexists; eauto. }
  assert (K : exists a b c x y z, view ts i a b c x y z /\ in_closed (pos a) (pos b) (pos c) p /\ is_infinite c = true).
  { destruct Inf as [Q|[Q|Q]].
    - exists b, c, a, y, z, x. split; [now apply view_rot|]. split; auto. repeat split; apply Hc.
    - exists c, a, b, z, x, y. split; [now apply view_rot2|]. split; auto. repeat split; apply Hc.
    - exists a, b, c, x, y, z. auto. }
  clear a b c x y z V Hc Inf. destruct K as (a & b & c & x & y & z & V & Hc & Ic).
  exists c. split; auto. intros t Ht Hr.
  apply Qle_lteq in Ht. destruct Ht as [Ht|Ht].
  2:{ apply Out. destruct Hr as (j & u & v & w & T & F1 & F2 & F3 & H1 & H2 & H3). exists j, u, v, w.
      repeat split; auto; rewrite det_toward in *; rewrite <- Ht in *; lra. }
  set (q := toward p (pos c) t) in *.
  assert (Hq : (0 < hw q)%Q).
  { unfold q, toward; simpl. rewrite inf_not_fin in Ic. apply negb_true_iff in Ic. rewrite (hw_inf px py c Ic). lra. }
  pose proof (M_cw _ _ M _ _ _ _ _ _ _ V) as C. destruct Hc as (H1 & H2 & H3).
  pose proof (det_toward (pos a) (pos b) p (pos c) t) as Q1.
  pose proof (det_toward (pos b) (pos c) p (pos c) t) as Q2.
  pose proof (det_toward (pos c) (pos a) p (pos c) t) as Q3. fold q in Q1, Q2, Q3.
  assert (Zr : forall u w, (det u w w == 0 /\ det w u w == 0)%Q) by (intros; unfold det; split; ring).
  destruct (Zr (pos b) (pos c)) as (z1 & _). destruct (Zr (pos a) (pos c)) as (_ & z2). rewrite z1 in Q2. rewrite z2 in Q3.
  assert (O1 : (det (pos a) (pos b) q < 0)%Q) by nra.
  destruct Hr as (j & u & v & w & (m1 & m2 & m3 & Vj) & F1 & F2 & F3 & Hj).
  assert (Nj : forall e, corner ts j e -> is_infinite e = true -> False).
  { intros e (e' & n & He) Ie. rewrite inf_not_fin in Ie. apply negb_true_iff in Ie.
    destruct (he_cases _ _ _ _ _ _ _ _ _ _ _ Vj He) as [Q|[Q|Q]]; destruct Q as (-> & _); congruence. }
  assert (Ci : corner ts i c) by (destruct (view_he _ _ _ _ _ _ _ _ V) as (_ & _ & h); eexists; eexists; eauto).
  assert (Hj' : inC pos ts j q) by (now apply (inC_view _ _ _ _ _ _ _ _ _ _ Vj)).
  destruct (Qlt_le_dec (det (pos b) (pos c) q) 0) as [O2|L2]; [destruct (Qlt_le_dec (det (pos c) (pos a) q) 0) as [O3|L3]|].
  - assert (i = j); [|subst; eauto].
    apply (open_closed_excl _ _ M i j q); auto. apply (inT_view _ _ _ _ _ _ _ _ _ _ V). repeat split; auto.
  - (* on the edge c a *)
    assert (Z : (det (pos c) (pos a) q == 0)%Q) by lra.
    destruct (edge_excl px py ts i c a b z x y q j M (view_rot2 _ _ _ _ _ _ _ _ V) Hq Z O1 O2 Hj') as [->| ->]; [eauto|].
    pose proof (edge_point_neighbor px py ts i c a b z x y q M (view_rot2 _ _ _ _ _ _ _ _ V) Hq Z) as Nz.
    destruct (view_he _ _ _ _ _ _ _ _ V) as (_ & _ & h3). pose proof (glue_some _ _ M _ _ _ _ h3 Nz) as h4.
    apply (Nj c); auto. destruct h4 as (e & n4 & n5 & V4). destruct (view_he _ _ _ _ _ _ _ _ V4) as (_ & h5 & _). eexists; eexists; eauto.
  - assert (Z : (det (pos b) (pos c) q == 0)%Q) by lra.
    assert (O3 : (det (pos c) (pos a) q < 0)%Q).
    { assert (Q3' : (det (pos c) (pos a) q <= 0)%Q) by lra. apply Qle_lteq in Q3'. destruct Q3' as [|Q]; auto. exfalso. pose proof (cramer (pos a) (pos b) (pos c) q) as Cr.
      (* q would be the direction itself *)
      assert (Kq : (hw q == 0)%Q).
      { pose proof (Cr (P3 1 0 0) (P3 0 1 0)) as K. rewrite Z, Q in K.
        assert (Dw : forall r, (det (P3 1 0 0) (P3 0 1 0) r == hw r)%Q) by (intros; unfold det; simpl; ring).
        rewrite !Dw in K. rewrite inf_not_fin in Ic. apply negb_true_iff in Ic. rewrite (hw_inf px py c Ic) in K.
        assert (K' : (D a b c * hw q == 0)%Q) by lra. apply Qmult_integral in K'. destruct K'; lra. }
      lra. }
    destruct (edge_excl px py ts i b c a y z x q j M (view_rot _ _ _ _ _ _ _ _ V) Hq Z O3 O1 Hj') as [->| ->]; [eauto|].
    pose proof (edge_point_neighbor px py ts i b c a y z x q M (view_rot _ _ _ _ _ _ _ _ V) Hq Z) as Ny.
    destruct (view_he _ _ _ _ _ _ _ _ V) as (_ & h2 & _). pose proof (glue_some _ _ M _ _ _ _ h2 Ny) as h4.
    apply (Nj c); auto. eexists; eexists; eauto.
Qed.

(** The vertices at infinity are the four directions along the axes. *)
Lemma inf_dir e : is_infinite e = true -> exists d, In d [(-1, 0); (0, 1); (1, 0); (0, -1)]%Q /\ pos e = P3 (fst d) (snd d) 0.
Proof.
  intros H. rewrite inf_not_fin in H. apply negb_true_iff in H. unfold hpos. rewrite H.
  destruct (e =? INF0); [exists (-1, 0)%Q; simpl; auto|]. destruct (e =? INF1); [exists (0, 1)%Q; simpl; auto|].
  destruct (e =? INF2); [exists (1, 0)%Q; simpl; auto|]. exists (0, -1)%Q; simpl; auto 10.
Qed.

End WithEnv.
