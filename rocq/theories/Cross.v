(** * Cross: the intersection test is exact when the orientation tests it uses are. *)

From Coq Require Import ZArith NArith List Bool Lia QArith Qabs Lqa.
From Verif Require Import Base BaseFacts Arith Types Utils Infinite Triangulation Geom Mesh Exact
  ExactC Rep GridExact.
Import ListNotations.
Local Open Scope Q_scope.

Section Kernel.
Context {E : Env}.
Variable rep : F -> Q -> Prop.
Variable repr : Q -> Prop.
Variable pb : Z.
Variable ep : Q.
Hypothesis R : Rep rep repr pb ep.
Variable vs : list vertex.
Variables ux uy : N -> Q.
Hypothesis Hlen : (lenN vs <= INF0)%N.

Notation pos := (hpos ux uy).
Notation D a b c := (det (pos a) (pos b) (pos c)).
Notation upt := (upt ux uy).

(** Orientations of three vertices; of a ray and a vertex; of a segment and the far end of a
    ray whose line it meets; of two rays. *)
Hypothesis pt_index : forall v p, nthN vs v = Some p -> pt_rep rep p (upt v).
Hypothesis os_fin : forall a b c va vb vc,
  nthN vs a = Some va -> nthN vs b = Some vb -> nthN vs c = Some vc ->
  os (triplet_orientation va vb vc) (D a b c).
Hypothesis os_ray : forall f k q r vf vr,
  nthN vs f = Some vf -> infinite_vertex_local_quad_index k = Some q -> nthN vs r = Some vr ->
  os (triplet_orientation vf (far vf q) vr) (D f k r).
Hypothesis os_seg_far : forall a b f k q va vb vf,
  nthN vs a = Some va -> nthN vs b = Some vb -> nthN vs f = Some vf ->
  infinite_vertex_local_quad_index k = Some q ->
  D f k a * D f k b <= 0 -> ~ (D f k a == 0 /\ D f k b == 0) ->
  os (triplet_orientation va vb (far vf q)) (D a b k) /\ ~ D a b k == 0.
Hypothesis os_ray_far : forall f k q f' k' q' vf vf',
  nthN vs f = Some vf -> nthN vs f' = Some vf' ->
  infinite_vertex_local_quad_index k = Some q -> infinite_vertex_local_quad_index k' = Some q' ->
  os (triplet_orientation vf (far vf q) (far vf' q')) (if eqb (horiz q) (horiz q') then D f k f' else D f k k').
Hypothesis far_pt : forall f vf q, nthN vs f = Some vf -> exists e : Q * Q,
  pt_rep rep (far vf q) e /\ snd (rot q e) == snd (rot q (upt f)) /\
  (forall g vg, nthN vs g = Some vg -> fst (rot q (upt g)) < fst (rot q e)).

Lemma cross_fin a b c d va vb vc vd :
  nthN vs a = Some va -> nthN vs b = Some vb -> nthN vs c = Some vc -> nthN vs d = Some vd ->
  is_crossing (egdes_intersect (va, vb) (vc, vd)) = true <-> crosses ux uy a b c d.
Proof.
  intros A B C P.
  rewrite (crossing_iff rep repr pb ep R _ _ _ _ _ _ _ _ (pt_index _ _ A) (pt_index _ _ B) (pt_index _ _ C) (pt_index _ _ P)).
  unfold crosses.
  pose proof (D_ori vs ux uy Hlen _ _ _ _ _ _ A B C) as E1. pose proof (D_ori vs ux uy Hlen _ _ _ _ _ _ A B P) as E2.
  pose proof (D_ori vs ux uy Hlen _ _ _ _ _ _ C P A) as E3. pose proof (D_ori vs ux uy Hlen _ _ _ _ _ _ C P B) as E4.
  rewrite E1, E2, E3, E4. apply cross_fin_pure.
  - exact (os_compat _ _ _ (os_fin _ _ _ _ _ _ A B C) E1).
  - exact (os_compat _ _ _ (os_fin _ _ _ _ _ _ A B P) E2).
  - exact (os_compat _ _ _ (os_fin _ _ _ _ _ _ C P A) E3).
  - exact (os_compat _ _ _ (os_fin _ _ _ _ _ _ C P B) E4).
Qed.

Lemma cross_semi a b f k q va vb vf :
  nthN vs a = Some va -> nthN vs b = Some vb -> nthN vs f = Some vf ->
  infinite_vertex_local_quad_index k = Some q ->
  is_crossing (egdes_intersect (va, vb) (edge_from_semi_infinite_edge vf q)) = true <->
  crosses ux uy a b f k.
Proof.
  intros A B Fv K. rewrite far_edge. destruct (far_pt _ _ q Fv) as (e & Re & E2 & E1).
  rewrite (crossing_iff rep repr pb ep R _ _ _ _ _ _ _ _ (pt_index _ _ A) (pt_index _ _ B) (pt_index _ _ Fv) Re).
  unfold crosses.
  rewrite <- (same_rot q (upt a) (upt f)), <- (same_rot q (upt a) e), <- (same_rot q (upt b) (upt f)), <- (same_rot q (upt b) e),
    <- (box_rot q (upt a) (upt f)), <- (box_rot q (upt a) e), <- (box_rot q (upt f) (upt a)), <- (box_rot q (upt f) (upt b)).
  pose proof (D_ori vs ux uy Hlen _ _ _ _ _ _ A B Fv) as D1. rewrite <- (ori_rot q) in D1.
  pose proof (D_ray vs ux uy Hlen _ _ _ _ _ _ Fv A K) as D3. pose proof (D_ray vs ux uy Hlen _ _ _ _ _ _ Fv B K) as D4.
  pose proof (D_seg_inf vs ux uy Hlen _ _ _ _ _ _ A B K) as D2.
  pose proof (os_compat _ _ _ (os_fin _ _ _ _ _ _ A B Fv) D1) as O1.
  pose proof (os_compat _ _ _ (os_ray _ _ _ _ _ _ Fv K A) D3) as O3.
  pose proof (os_compat _ _ _ (os_ray _ _ _ _ _ _ Fv K B) D4) as O4.
  pose proof (os_seg_far _ _ _ _ _ _ _ _ A B Fv K) as O2. rewrite D3, D4 in O2.
  rewrite D1, D2, D3, D4. apply cross_ray_pure; auto.
  - exact (E1 _ _ A).
  - exact (E1 _ _ B).
  - exact (E1 _ _ Fv).
  - intros P1 P2. destruct (O2 P1 P2) as (U & V). rewrite D2 in V. split; auto. exact (os_compat _ _ _ U D2).
Qed.

Lemma D_inf_inf f k q k' q' vf : nthN vs f = Some vf ->
  infinite_vertex_local_quad_index k = Some q -> infinite_vertex_local_quad_index k' = Some q' ->
  D f k k' == match q, q' with
              | Q1, Q2 => - (1) | Q1, Q4 => 1 | Q2, Q1 => 1 | Q2, Q3 => - (1)
              | Q3, Q2 => 1 | Q3, Q4 => - (1) | Q4, Q1 => - (1) | Q4, Q3 => 1 | _, _ => 0
              end.
Proof.
  intros A K K'. destruct (inf_index ux uy _ _ K) as (_ & Ek). destruct (inf_index ux uy _ _ K') as (_ & Ek').
  rewrite (pos_index vs ux uy Hlen _ _ A), Ek, Ek'. destruct q, q'; unfold det; simpl; ring.
Qed.

Lemma cross_semi2 f k q f' k' q' vf vf' :
  nthN vs f = Some vf -> nthN vs f' = Some vf' ->
  infinite_vertex_local_quad_index k = Some q -> infinite_vertex_local_quad_index k' = Some q' ->
  is_crossing (egdes_intersect (edge_from_semi_infinite_edge vf q)
                               (edge_from_semi_infinite_edge vf' q')) = true <->
  crosses ux uy f k f' k'.
Proof.
  intros A A' K K'. rewrite !far_edge.
  destruct (far_pt _ _ q A) as (e & Re & E2 & E1). destruct (far_pt _ _ q' A') as (h & Rh & H2 & H1).
  rewrite (crossing_iff rep repr pb ep R _ _ _ _ _ _ _ _ (pt_index _ _ A) Re (pt_index _ _ A') Rh).
  unfold crosses.
  pose proof (os_ray _ _ _ _ _ _ A K A') as O1. pose proof (os_ray _ _ _ _ _ _ A' K' A) as O3.
  pose proof (os_ray_far _ _ _ _ _ _ _ _ A A' K K') as O2. pose proof (os_ray_far _ _ _ _ _ _ _ _ A' A K' K) as O4.
  pose proof (D_inf_inf _ _ _ _ _ _ A K K') as I2. pose proof (D_inf_inf _ _ _ _ _ _ A' K' K) as I4.
  pose proof (D_ray vs ux uy Hlen _ _ _ _ _ _ A A' K) as D1. pose proof (D_ray vs ux uy Hlen _ _ _ _ _ _ A' A K') as D3.
  pose proof (E1 _ _ A) as Ea. pose proof (E1 _ _ A') as Ea'. pose proof (H1 _ _ A) as Ha. pose proof (H1 _ _ A') as Ha'.
  destruct (eqb (horiz q) (horiz q')) eqn:Hq.
  - split.
    + intros (_ & _ & _ & _ & _ & N & _). exfalso. apply N. apply (os_fun _ _ _ _ O1 O2).
      destruct (Q_dec (D f k f') 0) as [[U|U]|U]; [right; left|right; right|left]; split; auto.
    + intros (P & _). exfalso. assert (Z : D f k k' == 0) by (destruct q, q'; try discriminate; exact I2).
      rewrite Z in P. lra.
  - assert (Hq' : eqb (horiz q') (horiz q) = false) by (destruct q, q'; auto; discriminate). rewrite Hq' in O4.
    rewrite <- (same_rot q (upt f) (upt f')), <- (same_rot q (upt f) h), <- (same_rot q e (upt f')), <- (same_rot q e h),
      <- (box_rot q (upt f) (upt f')), <- (box_rot q (upt f) h), <- (box_rot q (upt f') (upt f)), <- (box_rot q (upt f') e).
    set (sg := D f k k') in *.
    assert (X3 : D f' k' f == - sg * (fst (rot q (upt f)) - fst (rot q (upt f')))).
    { rewrite D3, I2. destruct q, q'; try discriminate Hq; unfold rot; cbn [fst snd]; ring. }
    assert (X4 : D f' k' k == - sg) by (rewrite I2, I4; destruct q, q'; try discriminate Hq; reflexivity).
    pose proof (os_compat _ _ _ O1 D1) as O1'. pose proof (os_compat _ _ _ O3 X3) as O3'. pose proof (os_compat _ _ _ O4 X4) as O4'.
    rewrite X3, X4, D1.
    apply (cross_rays_pure _ _ _ _ (rot q (upt f)) (rot q e) (rot q (upt f')) (rot q h) sg); auto.
    + destruct q, q'; try discriminate Hq; unfold rot in *; cbn [fst snd] in *; lra.
    + destruct q, q'; try discriminate Hq; unfold rot in *; cbn [fst snd] in *; first [left; repeat split; lra|right; repeat split; lra].
Qed.

Lemma kernel_exactC : ExactC vs ux uy.
Proof. constructor; [exact cross_fin|exact cross_semi|exact cross_semi2]. Qed.
End Kernel.

Theorem grid_exactC {E : Env} (rep : F -> Q -> Prop) (repr : Q -> Prop) (pb : Z) (ep : Q) :
  Rep rep repr pb ep -> forall S : Z, (1 <= S)%Z ->
  (forall q, G S 4 8 q -> repr q) -> (forall q, G S 2 64 (8 * q) -> repr q) ->
  forall (vs : list vertex) (ux uy : N -> Q), (lenN vs <= INF0)%N -> (3 <= idmax)%N ->
  (forall v p, nthN vs v = Some p -> coord rep S (vx p) (ux v) /\ coord rep S (vy p) (uy v)) ->
  ExactC vs ux uy.
Proof.
  intros R S S1 R4 R2 vs ux uy Hl Hi Hv. apply (kernel_exactC rep repr pb ep R); auto.
  - exact (pt_index rep S vs ux uy Hv).
  - eapply os_fin; eauto.
  - eapply os_ray; eauto.
  - eapply os_seg_far; eauto.
  - eapply os_ray_far; eauto.
  - eapply far_pt; eauto.
Qed.
