(** * MeshOps: the three local operations of the algorithm keep the mesh a planar
    triangulation: splitting a triangle, splitting the two triangles of an edge,
    swapping the diagonal of a strictly convex quad. *)

From Coq Require Import NArith List Bool Lia QArith Lqa.
From Verif Require Import Base BaseFacts Arith Types Geom Mesh Infinite Triangulation.
Import ListNotations.
Local Open Scope N_scope.

Lemma upd_tv t o w k : tv (update_triangle_neighbor t o w) k = tv t k.
Proof.
  unfold update_triangle_neighbor.
  destruct (t_n12 t =? o), (t_n23 t =? o), (t_n31 t =? o), k; reflexivity.
Qed.

Lemma upd_tn t o w k :
  (forall k1 k2, tn t k1 = o -> tn t k2 = o -> k1 = k2) ->
  tn (update_triangle_neighbor t o w) k = if tn t k =? o then w else tn t k.
Proof.
  intros U. pose proof (U I1 I2) as U1. pose proof (U I1 I3) as U2. pose proof (U I2 I3) as U3.
  simpl in *. unfold update_triangle_neighbor.
  destruct (N.eqb_spec (t_n12 t) o) as [A|A], (N.eqb_spec (t_n23 t) o) as [B|B],
    (N.eqb_spec (t_n31 t) o) as [C|C];
    try (now specialize (U1 A B)); try (now specialize (U2 A C)); try (now specialize (U3 B C));
    destruct k; simpl; repeat match goal with
      | H : ?x = ?o |- context [?x =? ?o] => rewrite (proj2 (N.eqb_eq x o) H)
      | H : ?x <> ?o |- context [?x =? ?o] => rewrite (proj2 (N.eqb_neq x o) H)
      end; auto.
Qed.

Section WithEnv.
Context {E : Env}.
Variable pos : N -> pt3.
Notation D a b c := (det (pos a) (pos b) (pos c)).
Notation Mesh := (Mesh pos).

Lemma slot_unique ts j t o :
  Mesh ts -> nthN ts j = Some t -> o <> NONE ->
  forall k1 k2, tn t k1 = o -> tn t k2 = o -> k1 = k2.
Proof.
  intros M Ht Ho k1 k2 E1 E2.
  pose proof (view_exists _ _ _ Ht) as V.
  pose proof (view_rot _ _ _ _ _ _ _ _ V) as V2. pose proof (view_rot _ _ _ _ _ _ _ _ V2) as V3.
  destruct k1, k2; auto; simpl in *; exfalso;
    first [ exact (two_edges pos _ M _ _ _ _ _ _ _ _ V Ho E1 E2)
          | exact (two_edges pos _ M _ _ _ _ _ _ _ _ V Ho E2 E1)
          | exact (two_edges pos _ M _ _ _ _ _ _ _ _ V2 Ho E1 E2)
          | exact (two_edges pos _ M _ _ _ _ _ _ _ _ V2 Ho E2 E1)
          | exact (two_edges pos _ M _ _ _ _ _ _ _ _ V3 Ho E1 E2)
          | exact (two_edges pos _ M _ _ _ _ _ _ _ _ V3 Ho E2 E1) ].
Qed.

(** What the redirection of links does to the triangles outside the modified ones. *)
Definition relink (n o w : N) (j : N) (t : tri) : tri :=
  if j =? n then update_triangle_neighbor t o w else t.

Lemma relink_tv n o w j t k : tv (relink n o w j t) k = tv t k.
Proof. unfold relink. destruct (j =? n); auto. apply upd_tv. Qed.

Lemma relink_tn n o w j t k :
  (forall k1 k2, tn t k1 = o -> tn t k2 = o -> k1 = k2) ->
  tn (relink n o w j t) k = if (j =? n) && (tn t k =? o) then w else tn t k.
Proof.
  intros U. unfold relink. destruct (j =? n); auto. simpl. now apply upd_tn.
Qed.

(** Redirecting twice, when the first redirection does not create links to [o2]. *)
Lemma relink2_tn n1 o1 w1 n2 o2 w2 j t k :
  (forall k1 k2, tn t k1 = o1 -> tn t k2 = o1 -> k1 = k2) ->
  (forall k1 k2, tn t k1 = o2 -> tn t k2 = o2 -> k1 = k2) ->
  (j = n1 -> j = n2 -> w1 <> o2 ) ->
  tn (relink n2 o2 w2 j (relink n1 o1 w1 j t)) k =
    if (j =? n1) && (tn t k =? o1) then w1
    else if (j =? n2) && (tn t k =? o2) then w2
    else tn t k.
Proof.
  intros U1 U2 W.
  unfold relink at 1. destruct (N.eqb_spec j n2) as [B|B].
  - rewrite upd_tn.
    + rewrite relink_tn by auto. destruct (N.eqb_spec j n1) as [A|A]; simpl; auto.
      destruct (N.eqb_spec (tn t k) o1) as [C|C]; auto.
      destruct (N.eqb_spec w1 o2) as [Q|Q]; auto. exfalso; now apply W.
    + intros k1 k2. rewrite !relink_tn by auto.
      destruct (N.eqb_spec j n1) as [A|A]; simpl; auto.
      destruct (N.eqb_spec (tn t k1) o1), (N.eqb_spec (tn t k2) o1); auto;
        try (intros Q _; exfalso; now apply W); try (intros _ Q; exfalso; now apply W).
  - simpl. now apply relink_tn.
Qed.

(** ** Splitting a triangle at an interior point *)

Lemma mesh_split3 ts ts' tid v t :
  Mesh ts -> nthN ts tid = Some t ->
  in_open (pos (t_v1 t)) (pos (t_v2 t)) (pos (t_v3 t)) (pos v) ->
  lenN ts' = lenN ts + 2 -> lenN ts + 2 <= idmax ->
  nthN ts' tid = Some (Tri v (t_v3 t) (t_v1 t) (lenN ts) (t_n31 t) (lenN ts + 1)) ->
  nthN ts' (lenN ts) = Some (Tri v (t_v2 t) (t_v3 t) (lenN ts + 1) (t_n23 t) tid) ->
  nthN ts' (lenN ts + 1) = Some (Tri v (t_v1 t) (t_v2 t) tid (t_n12 t) (lenN ts)) ->
  (forall j, j <> tid -> j < lenN ts ->
     nthN ts' j = option_map (fun x => relink (t_n23 t) tid (lenN ts) j
                                        (relink (t_n12 t) tid (lenN ts + 1) j x)) (nthN ts j)) ->
  Mesh ts'.
Proof.
  intros M Ht Hin Hlen Hmax T1 T2 T3 Hout.
  set (L := lenN ts) in *.
  destruct t as [a b c n4 n5 n6]; simpl in *.
  pose proof (view_exists _ _ _ Ht) as V; simpl in V.
  pose proof (view_exists _ _ _ T1) as V1; simpl in V1.
  pose proof (view_exists _ _ _ T2) as V2; simpl in V2.
  pose proof (view_exists _ _ _ T3) as V3; simpl in V3.
  assert (Htid : tid < L) by (now apply nthN_lt in Ht).
  assert (Hcw : (D a b c < 0)%Q) by exact (M_cw _ _ M _ _ _ _ _ _ _ V).
  destruct (split3_cw _ _ _ _ Hin) as (C1 & C2 & C3).
  destruct (view_he _ _ _ _ _ _ _ _ V) as (Eab & Ebc & Eca).
  assert (Tn : tid <> NONE) by (unfold NONE; lia).
  assert (Hin' : in_open (pos b) (pos c) (pos a) (pos v)) by now apply in_open_rot.
  assert (Hin'' : in_open (pos c) (pos a) (pos b) (pos v)) by now do 2 apply in_open_rot.
  assert (Hcw' : (D b c a < 0)%Q) by exact (M_cw _ _ M _ _ _ _ _ _ _ (view_rot _ _ _ _ _ _ _ _ V)).
  assert (Hcw'' : (D c a b < 0)%Q) by exact (M_cw _ _ M _ _ _ _ _ _ _ (view_rot2 _ _ _ _ _ _ _ _ V)).
  apply (mesh_replace pos ts ts' [tid] [tid; L; L + 1]); auto.
  - lia.
  - intros r [<-|[]]; auto.
  - intros r [<-|[]]; simpl; auto.
  - intros s [<-|[<-|[<-|[]]]] Hs; simpl; auto; lia.
  - intros j t' Hj Ht'. simpl in Hj.
    assert (j < L) by (apply nthN_lt in Ht'; lia).
    rewrite Hout in Ht' by (auto; lia). destruct (nthN ts j) as [x|]; simpl in Ht'; [eauto|discriminate].
  - intros j t Hj Htj. simpl in Hj.
    assert (Hlt : j < L) by (apply nthN_lt in Htj; lia).
    eexists. split; [rewrite Hout by (auto; lia); rewrite Htj; reflexivity|].
    split; [intros k; now rewrite !relink_tv|].
    intros k. pose proof (slot_unique ts j t tid M Htj Tn) as U.
    rewrite relink2_tn by (auto; intros; lia).
    pose proof (he_at ts j t k Htj) as H.
    destruct (N.eq_dec (tn t k) tid) as [Q|Q].
    + right. split; [now left|].
      rewrite Q in *. rewrite N.eqb_refl. rewrite !andb_true_r.
      pose proof (glue_some pos ts M _ _ _ _ H Tn) as G.
      assert (Hj0 : j <> NONE) by (unfold NONE; lia).
      destruct (view_he _ _ _ _ _ _ _ _ V1) as (_ & F1 & _).
      destruct (view_he _ _ _ _ _ _ _ _ V2) as (_ & F2 & _).
      destruct (view_he _ _ _ _ _ _ _ _ V3) as (_ & F3 & _).
      destruct (he_cases _ _ _ _ _ _ _ _ _ _ _ V G) as [(Q1 & Q2 & Q3)|[(Q1 & Q2 & Q3)|(Q1 & Q2 & Q3)]].
      * rewrite Q1, Q2, <- Q3 in *. rewrite N.eqb_refl. exact F3.
      * rewrite Q1, Q2, <- Q3 in *. rewrite N.eqb_refl.
        destruct (N.eqb_spec j n4) as [Z|Z]; [|exact F2].
        exfalso. rewrite <- Z in *. exact (two_edges pos ts M _ _ _ _ _ _ _ _ V Hj0 eq_refl eq_refl).
      * rewrite Q1, Q2, <- Q3 in *.
        destruct (N.eqb_spec j n4) as [Z|Z].
        { exfalso. rewrite <- Z in *.
          exact (two_edges pos ts M _ _ _ _ _ _ _ _ (view_rot2 _ _ _ _ _ _ _ _ V) Hj0 eq_refl eq_refl). }
        destruct (N.eqb_spec j n5) as [Z'|Z']; [|exact F1].
        exfalso. rewrite <- Z' in *.
        exact (two_edges pos ts M _ _ _ _ _ _ _ _ (view_rot _ _ _ _ _ _ _ _ V) Hj0 eq_refl eq_refl).
    + left. split; [intros [?|[]]; congruence|].
      apply N.eqb_neq in Q. rewrite Q, !andb_false_r. reflexivity.
  - intros s [<-|[<-|[<-|[]]]]; eauto.
  - intros s a' b' c' x y z Hs H.
    destruct Hs as [<-|[<-|[<-|[]]]].
    + destruct (view_fun _ _ _ _ _ _ _ _ _ _ _ _ _ _ V1 H) as [(-> & -> & -> & _)|[(-> & -> & -> & _)|(-> & -> & -> & _)]];
        pose proof (det_rot3 (pos v) (pos c) (pos a)); lra.
    + destruct (view_fun _ _ _ _ _ _ _ _ _ _ _ _ _ _ V2 H) as [(-> & -> & -> & _)|[(-> & -> & -> & _)|(-> & -> & -> & _)]];
        pose proof (det_rot3 (pos v) (pos b) (pos c)); lra.
    + destruct (view_fun _ _ _ _ _ _ _ _ _ _ _ _ _ _ V3 H) as [(-> & -> & -> & _)|[(-> & -> & -> & _)|(-> & -> & -> & _)]];
        pose proof (det_rot3 (pos v) (pos a) (pos b)); lra.
  - intros s u w n Hs H.
    destruct (view_he _ _ _ _ _ _ _ _ V1) as (F1 & F2 & F3).
    destruct (view_he _ _ _ _ _ _ _ _ V2) as (F4 & F5 & F6).
    destruct (view_he _ _ _ _ _ _ _ _ V3) as (F7 & F8 & F9).
    assert (NS : forall u w n, he ts tid u w n -> ~ In n [tid]).
    { intros u0 w0 n0 H0 [<-|[]]. exact (no_self pos ts M _ _ _ H0 Tn). }
    destruct Hs as [<-|[<-|[<-|[]]]].
    + destruct (he_cases _ _ _ _ _ _ _ _ _ _ _ V1 H) as [(-> & -> & ->)|[(-> & -> & ->)|(-> & -> & ->)]].
      * left. split; [simpl; tauto | auto].
      * right. exists tid. split; [now left|]. split; eauto.
      * left. split; [simpl; tauto | auto].
    + destruct (he_cases _ _ _ _ _ _ _ _ _ _ _ V2 H) as [(-> & -> & ->)|[(-> & -> & ->)|(-> & -> & ->)]].
      * left. split; [simpl; tauto | auto].
      * right. exists tid. split; [now left|]. split; eauto.
      * left. split; [simpl; tauto | auto].
    + destruct (he_cases _ _ _ _ _ _ _ _ _ _ _ V3 H) as [(-> & -> & ->)|[(-> & -> & ->)|(-> & -> & ->)]].
      * left. split; [simpl; tauto | auto].
      * right. exists tid. split; [now left|]. split; eauto.
      * left. split; [simpl; tauto | auto].
  - (* the three parts are disjoint: they are separated by the segments from v *)
    assert (P12 : forall p, inT pos ts' tid p -> inT pos ts' L p -> False).
    { intros p A B. apply (inT_view _ _ _ _ _ _ _ _ _ _ V1) in A. apply (inT_view _ _ _ _ _ _ _ _ _ _ V2) in B.
      destruct A as (A1 & A2 & A3), B as (B1 & B2 & B3).
      pose proof (det_anti (pos v) (pos c) p). lra. }
    assert (P13 : forall p, inT pos ts' tid p -> inT pos ts' (L + 1) p -> False).
    { intros p A B. apply (inT_view _ _ _ _ _ _ _ _ _ _ V1) in A. apply (inT_view _ _ _ _ _ _ _ _ _ _ V3) in B.
      destruct A as (A1 & A2 & A3), B as (B1 & B2 & B3).
      pose proof (det_anti (pos v) (pos a) p). lra. }
    assert (P23 : forall p, inT pos ts' L p -> inT pos ts' (L + 1) p -> False).
    { intros p A B. apply (inT_view _ _ _ _ _ _ _ _ _ _ V2) in A. apply (inT_view _ _ _ _ _ _ _ _ _ _ V3) in B.
      destruct A as (A1 & A2 & A3), B as (B1 & B2 & B3).
      pose proof (det_anti (pos v) (pos b) p). lra. }
    intros s s' p [<-|[<-|[<-|[]]]] [<-|[<-|[<-|[]]]] Hne A B; try congruence; eauto.
  - intros s p a' b' c' Hs A I. exists p, tid. split; [now left|]. split; auto.
    apply (inT_view _ _ _ _ _ _ _ _ _ _ V).
    destruct Hs as [<-|[<-|[<-|[]]]].
    + apply (inT_view _ _ _ _ _ _ _ _ _ _ V1) in A.
      do 2 apply in_open_rot. exact (split3_sub _ _ _ _ Hcw' Hin' p A).
    + apply (inT_view _ _ _ _ _ _ _ _ _ _ V2) in A. exact (split3_sub _ _ _ _ Hcw Hin p A).
    + apply (inT_view _ _ _ _ _ _ _ _ _ _ V3) in A.
      apply in_open_rot. exact (split3_sub _ _ _ _ Hcw'' Hin'' p A).
  - intros r p [<-|[]] I. apply (inC_view _ _ _ _ _ _ _ _ _ _ V) in I.
    destruct (split3_cover _ _ _ _ Hin p I) as [J|[J|J]].
    + exists (L + 1). split; [simpl; auto|]. now apply (inC_view _ _ _ _ _ _ _ _ _ _ V3).
    + exists L. split; [simpl; auto|]. now apply (inC_view _ _ _ _ _ _ _ _ _ _ V2).
    + exists tid. split; [simpl; auto|]. now apply (inC_view _ _ _ _ _ _ _ _ _ _ V1).
Qed.

(** ** Splitting the two triangles of an edge at a point inside that edge *)

Lemma mesh_split4 ts ts' t1 t2 P u v c d n1 n2 n3 n4 :
  Mesh ts ->
  view ts t1 u v c t2 n1 n2 -> view ts t2 v u d t1 n3 n4 ->
  (D u v P == 0)%Q -> (D v c P < 0)%Q -> (D c u P < 0)%Q ->
  lenN ts' = lenN ts + 2 -> lenN ts + 2 <= idmax ->
  nthN ts' t1 = Some (Tri P c u (lenN ts) n2 t2) ->
  nthN ts' t2 = Some (Tri P u d t1 n3 (lenN ts + 1)) ->
  nthN ts' (lenN ts) = Some (Tri P v c (lenN ts + 1) n1 t1) ->
  nthN ts' (lenN ts + 1) = Some (Tri P d v t2 n4 (lenN ts)) ->
  (forall j, j <> t1 -> j <> t2 -> j < lenN ts ->
     nthN ts' j = option_map (fun x => relink n4 t2 (lenN ts + 1) j
                                        (relink n1 t1 (lenN ts) j x)) (nthN ts j)) ->
  Mesh ts'.
Proof.
  intros M W1 W2 Hon Hvc Hcu Hlen Hmax T1 T2 T3 T4 Hout.
  set (L := lenN ts) in *.
  pose proof (view_exists _ _ _ T1) as V1; simpl in V1.
  pose proof (view_exists _ _ _ T2) as V2; simpl in V2.
  pose proof (view_exists _ _ _ T3) as V3; simpl in V3.
  pose proof (view_exists _ _ _ T4) as V4; simpl in V4.
  assert (L1 : t1 < L) by (now apply view_lt in W1).
  assert (L2 : t2 < L) by (now apply view_lt in W2).
  assert (Tn1 : t1 <> NONE) by (unfold NONE; lia).
  assert (Tn2 : t2 <> NONE) by (unfold NONE; lia).
  assert (C1 : (D u v c < 0)%Q) by exact (M_cw _ _ M _ _ _ _ _ _ _ W1).
  assert (C2 : (D v u d < 0)%Q) by exact (M_cw _ _ M _ _ _ _ _ _ _ W2).
  destruct (split2_other _ _ _ _ C1 Hon Hvc Hcu _ C2) as (Hud & Hdv).
  assert (Hon' : (D v u P == 0)%Q) by (pose proof (det_anti (pos u) (pos v) (pos P)); lra).
  destruct (view_he _ _ _ _ _ _ _ _ W1) as (E1 & E2 & E3).
  destruct (view_he _ _ _ _ _ _ _ _ W2) as (E4 & E5 & E6).
  assert (T12 : t1 <> t2).
  { intros Q. rewrite <- Q in *. exact (no_self pos ts M _ _ _ E1 Tn1). }
  destruct (D_distinct pos _ _ _ C1) as (X1 & X2 & X3).
  destruct (D_distinct pos _ _ _ C2) as (X4 & X5 & X6).
  assert (Xcd : c <> d).
  { intros Q. rewrite <- Q in *. pose proof (det_anti (pos u) (pos v) (pos c)). lra. }
  destruct (split2_cw _ _ _ _ Hvc Hcu) as (K1 & K3).
  destruct (split2_cw _ _ _ _ Hud Hdv) as (K4 & K2).
  destruct (view_he _ _ _ _ _ _ _ _ V1) as (F1 & F2 & F3).
  destruct (view_he _ _ _ _ _ _ _ _ V2) as (F4 & F5 & F6).
  destruct (view_he _ _ _ _ _ _ _ _ V3) as (F7 & F8 & F9).
  destruct (view_he _ _ _ _ _ _ _ _ V4) as (F10 & F11 & F12).
  assert (B1 : forall p, inT pos ts' t1 p -> inT pos ts t1 p).
  { intros p A. apply (inT_view _ _ _ _ _ _ _ _ _ _ V1) in A. apply (inT_view _ _ _ _ _ _ _ _ _ _ W1).
    now apply (split2_sub1 _ _ _ (pos P)). }
  assert (B3 : forall p, inT pos ts' L p -> inT pos ts t1 p).
  { intros p A. apply (inT_view _ _ _ _ _ _ _ _ _ _ V3) in A. apply (inT_view _ _ _ _ _ _ _ _ _ _ W1).
    now apply (split2_sub2 _ _ _ (pos P)). }
  assert (B2 : forall p, inT pos ts' t2 p -> inT pos ts t2 p).
  { intros p A. apply (inT_view _ _ _ _ _ _ _ _ _ _ V2) in A. apply (inT_view _ _ _ _ _ _ _ _ _ _ W2).
    now apply (split2_sub2 _ _ _ (pos P)). }
  assert (B4 : forall p, inT pos ts' (L + 1) p -> inT pos ts t2 p).
  { intros p A. apply (inT_view _ _ _ _ _ _ _ _ _ _ V4) in A. apply (inT_view _ _ _ _ _ _ _ _ _ _ W2).
    now apply (split2_sub1 _ _ _ (pos P)). }
  apply (mesh_replace pos ts ts' [t1; t2] [t1; t2; L; L + 1]); auto.
  - lia.
  - intros r [<-|[<-|[]]]; auto.
  - intros r [<-|[<-|[]]]; simpl; auto.
  - intros s [<-|[<-|[<-|[<-|[]]]]] Hs; simpl; auto; lia.
  - intros j t' Hj Ht'. simpl in Hj.
    assert (j < L) by (apply nthN_lt in Ht'; lia).
    rewrite Hout in Ht' by (auto; lia). destruct (nthN ts j) as [x|]; simpl in Ht'; [eauto|discriminate].
  - intros j t Hj Htj. simpl in Hj.
    assert (Hlt : j < L) by (apply nthN_lt in Htj; lia).
    eexists. split; [rewrite Hout by (auto; lia); rewrite Htj; reflexivity|].
    split; [intros k; now rewrite !relink_tv|].
    intros k. pose proof (slot_unique ts j t t1 M Htj Tn1) as U1.
    pose proof (slot_unique ts j t t2 M Htj Tn2) as U2.
    rewrite relink2_tn by (auto; intros; lia).
    pose proof (he_at ts j t k Htj) as H.
    assert (Hj0 : j <> NONE) by (unfold NONE; lia).
    destruct (N.eq_dec (tn t k) t1) as [Q|Q]; [|destruct (N.eq_dec (tn t k) t2) as [Q'|Q']].
    + right. split; [now left|]. rewrite Q in *. rewrite N.eqb_refl, andb_true_r.
      rewrite (proj2 (N.eqb_neq t1 t2) T12), andb_false_r.
      pose proof (glue_some pos ts M _ _ _ _ H Tn1) as G.
      destruct (he_cases _ _ _ _ _ _ _ _ _ _ _ W1 G) as [(Q1 & Q2 & Q3)|[(Q1 & Q2 & Q3)|(Q1 & Q2 & Q3)]].
      * exfalso. apply Hj. rewrite Q3. auto.
      * rewrite Q1, Q2, <- Q3 in *. rewrite N.eqb_refl. exact F8.
      * rewrite Q1, Q2, <- Q3 in *. destruct (N.eqb_spec j n1) as [Z|Z]; [|exact F2].
        exfalso. rewrite <- Z in *.
        exact (two_edges pos ts M _ _ _ _ _ _ _ _ (view_rot _ _ _ _ _ _ _ _ W1) Hj0 eq_refl eq_refl).
    + right. split; [right; now left|]. rewrite Q' in *. rewrite N.eqb_refl, andb_true_r.
      rewrite (proj2 (N.eqb_neq t2 t1)), andb_false_r by auto.
      pose proof (glue_some pos ts M _ _ _ _ H Tn2) as G.
      destruct (he_cases _ _ _ _ _ _ _ _ _ _ _ W2 G) as [(Q1 & Q2 & Q3)|[(Q1 & Q2 & Q3)|(Q1 & Q2 & Q3)]].
      * exfalso. apply Hj. rewrite Q3. auto.
      * rewrite Q1, Q2, <- Q3 in *. destruct (N.eqb_spec j n4) as [Z|Z]; [|exact F5].
        exfalso. rewrite <- Z in *.
        exact (two_edges pos ts M _ _ _ _ _ _ _ _ (view_rot _ _ _ _ _ _ _ _ W2) Hj0 eq_refl eq_refl).
      * rewrite Q1, Q2, <- Q3 in *. rewrite N.eqb_refl. exact F11.
    + left. split; [intros [?|[?|[]]]; congruence|].
      apply N.eqb_neq in Q, Q'. rewrite Q, Q', !andb_false_r. reflexivity.
  - intros s [<-|[<-|[<-|[<-|[]]]]]; eauto.
  - intros s a' b' c' x y z Hs H.
    destruct Hs as [<-|[<-|[<-|[<-|[]]]]].
    + destruct (view_fun _ _ _ _ _ _ _ _ _ _ _ _ _ _ V1 H) as [(-> & -> & -> & _)|[(-> & -> & -> & _)|(-> & -> & -> & _)]];
        pose proof (det_rot3 (pos P) (pos c) (pos u)); lra.
    + destruct (view_fun _ _ _ _ _ _ _ _ _ _ _ _ _ _ V2 H) as [(-> & -> & -> & _)|[(-> & -> & -> & _)|(-> & -> & -> & _)]];
        pose proof (det_rot3 (pos P) (pos u) (pos d)); lra.
    + destruct (view_fun _ _ _ _ _ _ _ _ _ _ _ _ _ _ V3 H) as [(-> & -> & -> & _)|[(-> & -> & -> & _)|(-> & -> & -> & _)]];
        pose proof (det_rot3 (pos P) (pos v) (pos c)); lra.
    + destruct (view_fun _ _ _ _ _ _ _ _ _ _ _ _ _ _ V4 H) as [(-> & -> & -> & _)|[(-> & -> & -> & _)|(-> & -> & -> & _)]];
        pose proof (det_rot3 (pos P) (pos d) (pos v)); lra.
  - intros s u' w n Hs H.
    assert (NN : forall n, n <> NONE -> n < L -> forall i x y, he ts i x y n -> he ts n y x i).
    { intros n0 Hn0 _ i x y Hi. exact (glue_some pos ts M _ _ _ _ Hi Hn0). }
    assert (N1 : ~ In n1 [t1; t2]).
    { intros [Z|[Z|[]]]; rewrite <- Z in *.
      - exact (no_self pos ts M _ _ _ E2 Tn1).
      - exact (two_edges pos ts M _ _ _ _ _ _ _ _ W1 Tn2 eq_refl eq_refl). }
    assert (N2 : ~ In n2 [t1; t2]).
    { intros [Z|[Z|[]]]; rewrite <- Z in *.
      - exact (no_self pos ts M _ _ _ E3 Tn1).
      - exact (two_edges pos ts M _ _ _ _ _ _ _ _ (view_rot2 _ _ _ _ _ _ _ _ W1) Tn2 eq_refl eq_refl). }
    assert (N3 : ~ In n3 [t1; t2]).
    { intros [Z|[Z|[]]]; rewrite <- Z in *.
      - exact (two_edges pos ts M _ _ _ _ _ _ _ _ W2 Tn1 eq_refl eq_refl).
      - exact (no_self pos ts M _ _ _ E5 Tn2). }
    assert (N4 : ~ In n4 [t1; t2]).
    { intros [Z|[Z|[]]]; rewrite <- Z in *.
      - exact (two_edges pos ts M _ _ _ _ _ _ _ _ (view_rot2 _ _ _ _ _ _ _ _ W2) Tn1 eq_refl eq_refl).
      - exact (no_self pos ts M _ _ _ E6 Tn2). }
    destruct Hs as [<-|[<-|[<-|[<-|[]]]]].
    + destruct (he_cases _ _ _ _ _ _ _ _ _ _ _ V1 H) as [(-> & -> & ->)|[(-> & -> & ->)|(-> & -> & ->)]].
      * left. split; [simpl; tauto | auto].
      * right. exists t1. split; [now left | split; auto].
      * left. split; [simpl; tauto | auto].
    + destruct (he_cases _ _ _ _ _ _ _ _ _ _ _ V2 H) as [(-> & -> & ->)|[(-> & -> & ->)|(-> & -> & ->)]].
      * left. split; [simpl; tauto | auto].
      * right. exists t2. split; [right; now left | split; auto].
      * left. split; [simpl; tauto | auto].
    + destruct (he_cases _ _ _ _ _ _ _ _ _ _ _ V3 H) as [(-> & -> & ->)|[(-> & -> & ->)|(-> & -> & ->)]].
      * left. split; [simpl; tauto | auto].
      * right. exists t1. split; [now left | split; auto].
      * left. split; [simpl; tauto | auto].
    + destruct (he_cases _ _ _ _ _ _ _ _ _ _ _ V4 H) as [(-> & -> & ->)|[(-> & -> & ->)|(-> & -> & ->)]].
      * left. split; [simpl; tauto | auto].
      * right. exists t2. split; [right; now left | split; auto].
      * left. split; [simpl; tauto | auto].
  - assert (P13 : forall p, inT pos ts' t1 p -> inT pos ts' L p -> False).
    { intros p A B. apply (inT_view _ _ _ _ _ _ _ _ _ _ V1) in A. apply (inT_view _ _ _ _ _ _ _ _ _ _ V3) in B.
      destruct A as (Q1 & Q2 & Q3), B as (R1 & R2 & R3).
      pose proof (det_anti (pos P) (pos c) p). lra. }
    assert (P24 : forall p, inT pos ts' t2 p -> inT pos ts' (L + 1) p -> False).
    { intros p A B. apply (inT_view _ _ _ _ _ _ _ _ _ _ V2) in A. apply (inT_view _ _ _ _ _ _ _ _ _ _ V4) in B.
      destruct A as (Q1 & Q2 & Q3), B as (R1 & R2 & R3).
      pose proof (det_anti (pos P) (pos d) p). lra. }
    assert (Old : forall p, inT pos ts t1 p -> inT pos ts t2 p -> False).
    { intros p. exact (M_disj _ _ M t1 t2 p T12). }
    intros s s' p [<-|[<-|[<-|[<-|[]]]]] [<-|[<-|[<-|[<-|[]]]]] Hne A B; try congruence; eauto.
  - intros s p a' b' c' Hs A I. exists p.
    destruct Hs as [<-|[<-|[<-|[<-|[]]]]]; [exists t1|exists t2|exists t1|exists t2]; simpl; auto.
  - intros r p [<-|[<-|[]]] I.
    + apply (inC_view _ _ _ _ _ _ _ _ _ _ W1) in I.
      destruct (split2_cover _ _ _ _ C1 Hon Hvc Hcu p I) as [J|J].
      * exists t1. split; [simpl; auto|]. now apply (inC_view _ _ _ _ _ _ _ _ _ _ V1).
      * exists L. split; [simpl; auto|]. now apply (inC_view _ _ _ _ _ _ _ _ _ _ V3).
    + apply (inC_view _ _ _ _ _ _ _ _ _ _ W2) in I.
      destruct (split2_cover _ _ _ _ C2 Hon' Hud Hdv p I) as [J|J].
      * exists (L + 1). split; [simpl; auto|]. now apply (inC_view _ _ _ _ _ _ _ _ _ _ V4).
      * exists t2. split; [simpl; auto|]. now apply (inC_view _ _ _ _ _ _ _ _ _ _ V2).
Qed.

(** ** Swapping the diagonal of a strictly convex quad *)

Section Flip.
Variables (ts ts' : list tri) (t1 t2 a b c d n1 n2 n3 n4 : N).
(* the quad (q1, q2, q3, q4) of the code is (a, b, c, d) *)
Hypothesis M : Mesh ts.
Hypothesis W1 : view ts t1 d a b n2 t2 n1.
Hypothesis W2 : view ts t2 b a c t1 n3 n4.

Lemma flip_facts :
  t1 < lenN ts /\ t2 < lenN ts /\ t1 <> t2 /\ t1 <> NONE /\ t2 <> NONE /\
  d <> a /\ a <> b /\ b <> d /\ a <> c /\ c <> b /\ c <> d /\
  (n1 = n3 -> n1 = NONE).
Proof.
  assert (L1 : t1 < lenN ts) by (now apply view_lt in W1).
  assert (L2 : t2 < lenN ts) by (now apply view_lt in W2).
  pose proof (M_len _ _ M).
  assert (Tn1 : t1 <> NONE) by (unfold NONE; lia).
  assert (Tn2 : t2 <> NONE) by (unfold NONE; lia).
  pose proof (M_cw _ _ M _ _ _ _ _ _ _ W1) as C1.
  pose proof (M_cw _ _ M _ _ _ _ _ _ _ W2) as C2.
  destruct (view_he _ _ _ _ _ _ _ _ W1) as (E1 & E2 & E3).
  destruct (view_he _ _ _ _ _ _ _ _ W2) as (E4 & E5 & E6).
  assert (T12 : t1 <> t2).
  { intros Q. rewrite <- Q in *. exact (no_self pos ts M _ _ _ E2 Tn1). }
  destruct (D_distinct pos _ _ _ C1) as (X1 & X2 & X3).
  destruct (D_distinct pos _ _ _ C2) as (X4 & X5 & X6).
  assert (Xcd : c <> d).
  { intros Q. rewrite Q in *. pose proof (det_anti (pos d) (pos a) (pos b)).
    pose proof (det_rot3 (pos b) (pos a) (pos d)). lra. }
  do 11 (split; [auto|]).
  intros Q. destruct (N.eq_dec n1 NONE) as [|Hn]; auto. exfalso.
  rewrite <- Q in *.
  pose proof (glue_some pos ts M _ _ _ _ E3 Hn) as (e & x & y & G1).
  pose proof (glue_some pos ts M _ _ _ _ E5 Hn) as G2.
  destruct (he_cases _ _ _ _ _ _ _ _ _ _ _ G1 G2) as [(? & ? & ?)|[(? & ? & ?)|(? & ? & ?)]]; congruence.
Qed.

Hypothesis N1 : (D d a c < 0)%Q.
Hypothesis N2 : (D d c b < 0)%Q.
Hypothesis Hlen : lenN ts' = lenN ts.
Hypothesis V1 : view ts' t1 d a c n2 n3 t2.
Hypothesis V2 : view ts' t2 d c b t1 n4 n1.
Hypothesis Hout : forall j, j <> t1 -> j <> t2 -> j < lenN ts ->
  nthN ts' j = option_map (fun x => if j =? n1 then update_triangle_neighbor x t1 t2
                                    else if j =? n3 then update_triangle_neighbor x t2 t1
                                    else x) (nthN ts j).

Lemma flip_outer_tn j t t' k :
  j <> t1 -> j <> t2 -> nthN ts j = Some t -> nthN ts' j = Some t' ->
  (forall k, tv t' k = tv t k) /\
  tn t' k = if (j =? n1) && (tn t k =? t1) then t2
            else if (j =? n3) && (tn t k =? t2) then t1 else tn t k.
Proof.
  intros J1 J2 Ht Ht'. destruct flip_facts as (L1 & L2 & T12 & Tn1 & Tn2 & _ & _ & _ & _ & _ & _ & X7).
  assert (Hlt : j < lenN ts) by (now apply nthN_lt in Ht).
  rewrite Hout, Ht in Ht' by auto. simpl in Ht'.
  pose proof (slot_unique ts j t t1 M Ht) as U1. pose proof (slot_unique ts j t t2 M Ht) as U2.
  pose proof (M_len _ _ M).
  destruct (N.eqb_spec j n1) as [Z|Z].
  - assert (Z3 : j =? n3 = false).
    { apply N.eqb_neq. intros Q. assert (n1 = NONE) by (apply X7; congruence).
      unfold NONE in *; lia. }
    rewrite Z3. injection Ht' as <-. split; [intros; apply upd_tv|]. simpl. rewrite upd_tn; auto.
  - destruct (N.eqb_spec j n3) as [Z'|Z']; injection Ht' as <-; simpl.
    + split; [intros; apply upd_tv|]. rewrite upd_tn; auto.
    + auto.
Qed.

Lemma mesh_flip : Mesh ts'.
Proof.
  pose proof flip_facts as F.
  destruct F as (L1 & L2 & T12 & Tn1 & Tn2 & X1 & X2 & X3 & X4 & X5 & X6 & X7).
  pose proof (M_len _ _ M) as Hmax.
  pose proof (M_cw _ _ M _ _ _ _ _ _ _ W1) as C1.
  pose proof (M_cw _ _ M _ _ _ _ _ _ _ W2) as C2.
  destruct (view_he _ _ _ _ _ _ _ _ W1) as (E1 & E2 & E3).
  destruct (view_he _ _ _ _ _ _ _ _ W2) as (E4 & E5 & E6).
  destruct (view_he _ _ _ _ _ _ _ _ V1) as (F1 & F2 & F3).
  destruct (view_he _ _ _ _ _ _ _ _ V2) as (F4 & F5 & F6).
  apply (mesh_replace pos ts ts' [t1; t2] [t1; t2]); auto.
  - lia.
  - intros r [<-|[<-|[]]]; auto.
  - intros j t' Hj Ht'. simpl in Hj.
    assert (j < lenN ts) by (apply nthN_lt in Ht'; lia).
    rewrite Hout in Ht' by (auto; lia). destruct (nthN ts j) as [x|]; simpl in Ht'; [eauto|discriminate].
  - intros j t Hj Htj. simpl in Hj.
    assert (Hlt : j < lenN ts) by (apply nthN_lt in Htj; lia).
    assert (Ht' : exists t', nthN ts' j = Some t').
    { rewrite Hout, Htj by (auto; lia). simpl; eauto. }
    destruct Ht' as (t' & Ht'). exists t'. split; auto.
    assert (J1 : j <> t1) by (intros ->; tauto). assert (J2 : j <> t2) by (intros ->; tauto).
    split; [exact (proj1 (flip_outer_tn j t t' I1 J1 J2 Htj Ht'))|].
    intros k. destruct (flip_outer_tn j t t' k J1 J2 Htj Ht') as (_ & ->).
    pose proof (he_at ts j t k Htj) as H.
    assert (Hj0 : j <> NONE) by (unfold NONE; lia).
    destruct (N.eq_dec (tn t k) t1) as [Q|Q]; [|destruct (N.eq_dec (tn t k) t2) as [Q'|Q']].
    + right. split; [now left|]. rewrite Q in *. rewrite N.eqb_refl, andb_true_r.
      rewrite (proj2 (N.eqb_neq t1 t2) T12), andb_false_r.
      pose proof (glue_some pos ts M _ _ _ _ H Tn1) as G.
      destruct (he_cases _ _ _ _ _ _ _ _ _ _ _ W1 G) as [(Q1 & Q2 & Q3)|[(Q1 & Q2 & Q3)|(Q1 & Q2 & Q3)]].
      * rewrite Q1, Q2, <- Q3 in *. destruct (N.eqb_spec j n1) as [Z|Z]; [|exact F1].
        exfalso. rewrite <- Z in *.
        exact (two_edges pos ts M _ _ _ _ _ _ _ _ (view_rot2 _ _ _ _ _ _ _ _ W1) Hj0 eq_refl eq_refl).
      * exfalso. apply Hj. rewrite Q3. auto.
      * rewrite Q1, Q2, <- Q3 in *. rewrite N.eqb_refl. exact F6.
    + right. split; [right; now left|]. rewrite Q' in *. rewrite N.eqb_refl, andb_true_r.
      rewrite (proj2 (N.eqb_neq t2 t1)), andb_false_r by auto.
      pose proof (glue_some pos ts M _ _ _ _ H Tn2) as G.
      destruct (he_cases _ _ _ _ _ _ _ _ _ _ _ W2 G) as [(Q1 & Q2 & Q3)|[(Q1 & Q2 & Q3)|(Q1 & Q2 & Q3)]].
      * exfalso. apply Hj. rewrite Q3. auto.
      * rewrite Q1, Q2, <- Q3 in *. rewrite N.eqb_refl. exact F2.
      * rewrite Q1, Q2, <- Q3 in *. destruct (N.eqb_spec j n3) as [Z|Z]; [|exact F5].
        exfalso. rewrite <- Z in *.
        exact (two_edges pos ts M _ _ _ _ _ _ _ _ (view_rot _ _ _ _ _ _ _ _ W2) Hj0 eq_refl eq_refl).
    + left. split; [intros [?|[?|[]]]; congruence|].
      apply N.eqb_neq in Q, Q'. rewrite Q, Q', !andb_false_r. reflexivity.
  - intros s [<-|[<-|[]]]; eapply view_nth; eauto.
  - intros s a' b' c' x y z Hs H.
    destruct Hs as [<-|[<-|[]]].
    + destruct (view_fun _ _ _ _ _ _ _ _ _ _ _ _ _ _ V1 H) as [(-> & -> & -> & _)|[(-> & -> & -> & _)|(-> & -> & -> & _)]];
        pose proof (det_rot3 (pos d) (pos a) (pos c)); lra.
    + destruct (view_fun _ _ _ _ _ _ _ _ _ _ _ _ _ _ V2 H) as [(-> & -> & -> & _)|[(-> & -> & -> & _)|(-> & -> & -> & _)]];
        pose proof (det_rot3 (pos d) (pos c) (pos b)); lra.
  - intros s u w n Hs H.
    assert (G1 : ~ In n1 [t1; t2]).
    { intros [Z|[Z|[]]]; rewrite <- Z in *.
      - exact (no_self pos ts M _ _ _ E3 Tn1).
      - exact (two_edges pos ts M _ _ _ _ _ _ _ _ (view_rot _ _ _ _ _ _ _ _ W1) Tn2 eq_refl eq_refl). }
    assert (G2 : ~ In n2 [t1; t2]).
    { intros [Z|[Z|[]]]; rewrite <- Z in *.
      - exact (no_self pos ts M _ _ _ E1 Tn1).
      - exact (two_edges pos ts M _ _ _ _ _ _ _ _ W1 Tn2 eq_refl eq_refl). }
    assert (G3 : ~ In n3 [t1; t2]).
    { intros [Z|[Z|[]]]; rewrite <- Z in *.
      - exact (two_edges pos ts M _ _ _ _ _ _ _ _ W2 Tn1 eq_refl eq_refl).
      - exact (no_self pos ts M _ _ _ E5 Tn2). }
    assert (G4 : ~ In n4 [t1; t2]).
    { intros [Z|[Z|[]]]; rewrite <- Z in *.
      - exact (two_edges pos ts M _ _ _ _ _ _ _ _ (view_rot2 _ _ _ _ _ _ _ _ W2) Tn1 eq_refl eq_refl).
      - exact (no_self pos ts M _ _ _ E6 Tn2). }
    destruct Hs as [<-|[<-|[]]].
    + destruct (he_cases _ _ _ _ _ _ _ _ _ _ _ V1 H) as [(-> & -> & ->)|[(-> & -> & ->)|(-> & -> & ->)]].
      * right. exists t1. split; [now left | split; auto].
      * right. exists t2. split; [right; now left | split; auto].
      * left. split; [simpl; tauto | auto].
    + destruct (he_cases _ _ _ _ _ _ _ _ _ _ _ V2 H) as [(-> & -> & ->)|[(-> & -> & ->)|(-> & -> & ->)]].
      * left. split; [simpl; tauto | auto].
      * right. exists t2. split; [right; now left | split; auto].
      * right. exists t1. split; [now left | split; auto].
  - assert (P12 : forall p, inT pos ts' t1 p -> inT pos ts' t2 p -> False).
    { intros p A B. apply (inT_view _ _ _ _ _ _ _ _ _ _ V1) in A. apply (inT_view _ _ _ _ _ _ _ _ _ _ V2) in B.
      destruct A as (Q1 & Q2 & Q3), B as (R1 & R2 & R3).
      pose proof (det_anti (pos c) (pos d) p). lra. }
    intros s s' p [<-|[<-|[]]] [<-|[<-|[]]] Hne A B; try congruence; eauto.
  - intros s p a' b' c' Hs A I.
    assert (Q : in_open (pos d) (pos a) (pos c) p \/ in_open (pos d) (pos c) (pos b) p).
    { destruct Hs as [<-|[<-|[]]]; [left; now apply (inT_view _ _ _ _ _ _ _ _ _ _ V1)
                                   |right; now apply (inT_view _ _ _ _ _ _ _ _ _ _ V2)]. }
    destruct (flip_meet _ _ _ _ C1 C2 N1 N2 a' b' c' p Q I) as (q & Iq & [J|J]).
    + exists q, t1. split; [simpl; auto|]. split; auto. now apply (inT_view _ _ _ _ _ _ _ _ _ _ W1).
    + exists q, t2. split; [simpl; auto|]. split; auto. now apply (inT_view _ _ _ _ _ _ _ _ _ _ W2).
  - intros r p Hr I.
    assert (Q : in_closed (pos d) (pos a) (pos c) p \/ in_closed (pos d) (pos c) (pos b) p).
    { destruct Hr as [<-|[<-|[]]].
      - apply (flip_cover1 _ _ _ _ C1 C2 N1 N2). now apply (inC_view _ _ _ _ _ _ _ _ _ _ W1).
      - apply (flip_cover2 _ _ _ _ C1 C2 N1 N2). now apply (inC_view _ _ _ _ _ _ _ _ _ _ W2). }
    destruct Q as [Q|Q].
    + exists t1. split; [simpl; auto|]. now apply (inC_view _ _ _ _ _ _ _ _ _ _ V1).
    + exists t2. split; [simpl; auto|]. now apply (inC_view _ _ _ _ _ _ _ _ _ _ V2).
Qed.

End Flip.

End WithEnv.
