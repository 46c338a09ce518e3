(** * QNorm: normalisation in exact arithmetic is a similarity, so the results do not depend
    on the position and scale of the input. *)

From Coq Require Import ZArith NArith List Bool Lia QArith Qabs Lqa.
From Verif Require Import Base BaseFacts Arith Types Utils Triangulation Constrained Rep Spec DTOut Norm QEnv QExact
  GridSpec GridNum ApiGrid AnyDT.
Import ListNotations.
Local Open Scope Q_scope.

Section WithId.
Variable maxid : N.
Local Instance EQ : Env := envQ maxid.

(** Coordinates in the range of the (f64) bounds computation. *)
Definition moderate (vs : list point) : Prop :=
  forall v, In v vs -> Qabs (fst v) < inject_Z (2 ^ 1000) /\ Qabs (snd v) < inject_Z (2 ^ 1000).

Definition is_min (m : Q) (l : list Q) : Prop := (exists x, In x l /\ x == m) /\ forall x, In x l -> m <= x.
Definition is_max (m : Q) (l : list Q) : Prop := (exists x, In x l /\ x == m) /\ forall x, In x l -> x <= m.

Lemma F2_refl (l : list Q) : Forall2 Qeq l l.
Proof. induction l; constructor; auto. reflexivity. Qed.

Lemma min_spec (l : list Q) : l <> [] -> (forall x, In x l -> x < inject_Z (2 ^ 1000)) ->
  is_min (fold_min (E := EQ) l (inject_Z (2 ^ 1000))) l.
Proof.
  intros Hn Hb. destruct (fold_min_spec (E := EQ) Qeq any 50 _ (Q_rep maxid) l l (inject_Z (2 ^ 1000)) (inject_Z (2 ^ 1000)) (F2_refl l) (Qeq_refl _))
    as (m & M1 & M2 & M3 & M4).
  destruct M4 as [M4|M4].
  - exfalso. destruct l as [|x l]; [easy|]. specialize (Hb x (or_introl eq_refl)). specialize (M3 x (or_introl eq_refl)). subst m. lra.
  - split.
    + exists m. split; auto. symmetry. exact M1.
    + intros x Hx. rewrite M1. auto.
Qed.

Lemma max_spec (l : list Q) : l <> [] -> (forall x, In x l -> - inject_Z (2 ^ 1000) < x) ->
  is_max (fold_max (E := EQ) l (- inject_Z (2 ^ 1000))) l.
Proof.
  intros Hn Hb. destruct (fold_max_spec (E := EQ) Qeq any 50 _ (Q_rep maxid) l l (- inject_Z (2 ^ 1000)) (- inject_Z (2 ^ 1000)) (F2_refl l) (Qeq_refl _))
    as (m & M1 & M2 & M3 & M4).
  destruct M4 as [M4|M4].
  - exfalso. destruct l as [|x l]; [easy|]. specialize (Hb x (or_introl eq_refl)). specialize (M3 x (or_introl eq_refl)). subst m. lra.
  - split.
    + exists m. split; auto. symmetry. exact M1.
    + intros x Hx. rewrite M1. auto.
Qed.

Lemma boundsQ (vs : list point) : vs <> [] -> moderate vs ->
  exists a b c d, compute_bounds (E := EQ) vs = (a, b, c, d) /\
    is_min a (map fst vs) /\ is_min b (map snd vs) /\ is_max c (map fst vs) /\ is_max d (map snd vs).
Proof.
  intros Hn Hm. unfold compute_bounds. rewrite fold_bounds.
  eexists; eexists; eexists; eexists. split; [reflexivity|].
  assert (Hx : forall x, In x (map fst vs) -> - inject_Z (2 ^ 1000) < x < inject_Z (2 ^ 1000)).
  { intros x Hx. apply in_map_iff in Hx. destruct Hx as (v & <- & Hv). apply Qabs_Qlt_condition. now apply Hm. }
  assert (Hy : forall x, In x (map snd vs) -> - inject_Z (2 ^ 1000) < x < inject_Z (2 ^ 1000)).
  { intros x Hy. apply in_map_iff in Hy. destruct Hy as (v & <- & Hv). apply Qabs_Qlt_condition. now apply Hm. }
  assert (Nx : map fst vs <> []) by (destruct vs; [easy|discriminate]).
  assert (Ny : map snd vs <> []) by (destruct vs; [easy|discriminate]).
  split; [|split; [|split]].
  - apply min_spec; auto. intros x K. now apply Hx.
  - apply min_spec; auto. intros x K. now apply Hy.
  - apply max_spec; auto. intros x K. now apply Hx.
  - apply max_spec; auto. intros x K. now apply Hy.
Qed.

(** ** C36 *)

(** [vs'] is [vs] scaled by [k] and translated by (tx, ty). *)
Definition moved (k tx ty : Q) (v v' : point) : Prop :=
  fst v' == k * fst v + tx /\ snd v' == k * snd v + ty.

Lemma min_moved k t a a' l l' : 0 < k -> Forall2 (fun x x' => x' == k * x + t) l l' ->
  is_min a l -> is_min a' l' -> a' == k * a + t.
Proof.
  intros Hk F2 ((x & Hx & Ex) & Ha) ((x' & Hx' & Ex') & Ha').
  assert (K1 : exists y', In y' l' /\ y' == k * x + t) by exact (Forall2_In_l _ _ _ _ F2 Hx).
  destruct K1 as (y' & Hy' & Ey').
  assert (K2 : exists y, In y l /\ x' == k * y + t).
  { clear - F2 Hx'. induction F2 as [|u u' l l' P F2 IH]; [contradiction|]. destruct Hx' as [<-|H].
    - exists u. split; [now left|auto].
    - destruct (IH H) as (y & Y1 & Y2). exists y. split; [now right|auto]. }
  destruct K2 as (y & Hy & Ey). specialize (Ha _ Hy). specialize (Ha' _ Hy'). nra.
Qed.

Lemma max_moved k t a a' l l' : 0 < k -> Forall2 (fun x x' => x' == k * x + t) l l' ->
  is_max a l -> is_max a' l' -> a' == k * a + t.
Proof.
  intros Hk F2 ((x & Hx & Ex) & Ha) ((x' & Hx' & Ex') & Ha').
  assert (K1 : exists y', In y' l' /\ y' == k * x + t) by exact (Forall2_In_l _ _ _ _ F2 Hx).
  destruct K1 as (y' & Hy' & Ey').
  assert (K2 : exists y, In y l /\ x' == k * y + t).
  { clear - F2 Hx'. induction F2 as [|u u' l l' P F2 IH]; [contradiction|]. destruct Hx' as [<-|H].
    - exists u. split; [now left|auto].
    - destruct (IH H) as (y & Y1 & Y2). exists y. split; [now right|auto]. }
  destruct K2 as (y & Hy & Ey). specialize (Ha _ Hy). specialize (Ha' _ Hy'). nra.
Qed.

Lemma scale_moved k u v u' v' : 0 < k -> u' == k * u -> v' == k * v ->
  fmax (Env := EQ) u' v' == k * fmax (Env := EQ) u v.
Proof.
  intros Hk Eu Ev. cbn [fmax EQ envQ]. destruct (qlt u' v') eqn:C1, (qlt u v) eqn:C2; auto.
  - exfalso. apply qlt_iff in C1. assert (~ u < v) by (intros X; apply qlt_iff in X; congruence). nra.
  - exfalso. apply qlt_iff in C2. assert (~ u' < v') by (intros X; apply qlt_iff in X; congruence). nra.
Qed.

Lemma normalized_moved k tx ty (vs vs' : list point) : 0 < k -> moderate vs -> moderate vs' ->
  Forall2 (moved k tx ty) vs vs' -> normalized (E := EQ) vs' = normalized (E := EQ) vs.
Proof.
  intros Hk Hm Hm' F2. destruct vs as [|v0 vs0] eqn:Evs.
  { inversion F2. reflexivity. }
  rewrite <- Evs in *. assert (Hn : vs <> []) by (subst; discriminate). clear Evs v0 vs0.
  assert (Hn' : vs' <> []) by (destruct vs; [easy|]; inversion F2; discriminate).
  destruct (boundsQ vs Hn Hm) as (a & b & c & d & E0 & A & B & C & D).
  destruct (boundsQ vs' Hn' Hm') as (a' & b' & c' & d' & E1 & A' & B' & C' & D').
  assert (Fx : Forall2 (fun x x' => x' == k * x + tx) (map fst vs) (map fst vs')).
  { clear - F2. induction F2 as [|u u' l l' (P & _) F2 IH]; simpl; constructor; auto. }
  assert (Fy : Forall2 (fun x x' => x' == k * x + ty) (map snd vs) (map snd vs')).
  { clear - F2. induction F2 as [|u u' l l' (_ & P) F2 IH]; simpl; constructor; auto. }
  pose proof (min_moved _ _ _ _ _ _ Hk Fx A A') as Ea. pose proof (min_moved _ _ _ _ _ _ Hk Fy B B') as Eb.
  pose proof (max_moved _ _ _ _ _ _ Hk Fx C C') as Ec. pose proof (max_moved _ _ _ _ _ _ Hk Fy D D') as Ed.
  unfold normalized, normalize_vertices_coordinates. rewrite E0, E1. cbn [fst].
  assert (Es : fmax (Env := EQ) (fsub (Env := EQ) c' a') (fsub (Env := EQ) d' b')
            == k * fmax (Env := EQ) (fsub (Env := EQ) c a) (fsub (Env := EQ) d b)).
  { apply scale_moved; auto; cbn [fsub EQ envQ]; rewrite !Qred_correct; [rewrite Ec, Ea|rewrite Ed, Eb]; ring. }
  set (s := fmax (Env := EQ) (fsub (Env := EQ) c a) (fsub (Env := EQ) d b)) in *.
  set (s' := fmax (Env := EQ) (fsub (Env := EQ) c' a') (fsub (Env := EQ) d' b')) in *. clearbody s s'.
  assert (Div : forall x x' m m' t, x' == k * x + t -> m' == k * m + t ->
    fdiv (Env := EQ) (fsub (Env := EQ) x' m') s' = fdiv (Env := EQ) (fsub (Env := EQ) x m) s).
  { intros x x' m m' t Hx Hm0. cbn [fdiv fsub EQ envQ]. apply Qred_complete. rewrite !Qred_correct, Hx, Hm0, Es.
    unfold Qdiv. rewrite Qinv_mult_distr.
    setoid_replace (k * x + t - (k * m + t)) with (k * (x - m)) by ring.
    setoid_replace (k * (x - m) * (/ k * / s)) with ((k * / k) * ((x - m) * / s)) by ring.
    rewrite Qmult_inv_r by lra. ring. }
  clear - F2 Div Ea Eb. induction F2 as [|u u' l l' (P1 & P2) F2 IH]; [reflexivity|].
  cbn [map]. rewrite IH. f_equal. f_equal; eapply Div; eauto.
Qed.

Lemma triangulation_moved k tx ty fuel bins cs (vs vs' : list point) : 0 < k -> moderate vs -> moderate vs' ->
  Forall2 (moved k tx ty) vs vs' ->
  triangulation_from_2d_vertices (E := EQ) fuel bins vs' = triangulation_from_2d_vertices (E := EQ) fuel bins vs /\
  constrained_triangulation_from_2d_vertices (E := EQ) fuel bins vs' cs =
  constrained_triangulation_from_2d_vertices (E := EQ) fuel bins vs cs.
Proof.
  intros Hk Hm Hm' F2. pose proof (normalized_moved _ _ _ _ _ Hk Hm Hm' F2) as Hn.
  pose proof (eq_sym (Forall2_len _ _ _ F2)) as Hl. change (@length (@vertex EQ) vs' = @length (@vertex EQ) vs) in Hl. unfold normalized in Hn.
  unfold triangulation_from_2d_vertices, constrained_triangulation_from_2d_vertices, lenN. rewrite Hl.
  destruct (normalize_vertices_coordinates (E := EQ) vs) as (((n1, c1), c2), c3).
  destruct (normalize_vertices_coordinates (E := EQ) vs') as (((n2, c4), c5), c6). cbn [fst] in Hn. subst n2. split; reflexivity.
Qed.

(** ** C05: in exact arithmetic normalisation is a similarity *)
Lemma normalize_similarity (vs : list point) : moderate vs ->
  (exists p q, In p vs /\ In q vs /\ ~ same_place p q) ->
  exists k tx ty, 0 < k /\ Forall2 (moved k tx ty) vs (normalized (E := EQ) vs).
Proof.
  intros Hm (p & q & Hp & Hq & Hne). assert (Hn : vs <> []) by (destruct vs; [contradiction|discriminate]).
  destruct (boundsQ vs Hn Hm) as (a & b & c & d & E0 & A & B & C & D).
  assert (S : 0 < fmax (Env := EQ) (fsub (Env := EQ) c a) (fsub (Env := EQ) d b)).
  { cbn [fmax fsub EQ envQ].
    assert (W : 0 < c - a \/ 0 < d - b).
    { destruct A as (_ & A), B as (_ & B), C as (_ & C), D as (_ & D).
      pose proof (A _ (in_map fst _ _ Hp)). pose proof (A _ (in_map fst _ _ Hq)).
      pose proof (B _ (in_map snd _ _ Hp)). pose proof (B _ (in_map snd _ _ Hq)).
      pose proof (C _ (in_map fst _ _ Hp)). pose proof (C _ (in_map fst _ _ Hq)).
      pose proof (D _ (in_map snd _ _ Hp)). pose proof (D _ (in_map snd _ _ Hq)).
      destruct (Qlt_le_dec 0 (c - a)); [now left|]. destruct (Qlt_le_dec 0 (d - b)); [now right|].
      exfalso. apply Hne. split; lra. }
    assert (X1 : Qred (c - a) == c - a) by apply Qred_correct. assert (X2 : Qred (d - b) == d - b) by apply Qred_correct.
    destruct (qlt (Qred (c - a)) (Qred (d - b))) eqn:K.
    - apply qlt_iff in K. destruct W; lra.
    - assert (~ Qred (c - a) < Qred (d - b)) by (intros X; apply qlt_iff in X; congruence). destruct W; lra. }
  unfold normalized, normalize_vertices_coordinates. rewrite E0. cbn [fst].
  set (s := fmax (Env := EQ) (fsub (Env := EQ) c a) (fsub (Env := EQ) d b)) in *. clearbody s.
  exists (/ s), (- a / s), (- b / s). split; [now apply Qinv_lt_0_compat|].
  clear - S. induction vs as [|v vs IH]; cbn [map]; constructor; auto.
  split.
  - change (Qred (Qred (fst v - a) / s) == / s * fst v + - a / s). rewrite Qred_correct, Qred_correct. field. lra.
  - change (Qred (Qred (snd v - b) / s) == / s * snd v + - b / s). rewrite Qred_correct, Qred_correct. field. lra.
Qed.

(** A similarity preserves the sign of orientations and circle relations. *)
Lemma moved_orient k tx ty a b c a' b' c' : moved k tx ty a a' -> moved k tx ty b b' -> moved k tx ty c c' ->
  orient a' b' c' == k * k * orient a b c.
Proof. intros (A1 & A2) (B1 & B2) (C1 & C2). unfold orient. rewrite A1, A2, B1, B2, C1, C2. ring. Qed.

Lemma moved_dist k tx ty a b a' b' : moved k tx ty a a' -> moved k tx ty b b' -> sqdist a' b' == k * k * sqdist a b.
Proof. intros (A1 & A2) (B1 & B2). unfold sqdist. rewrite A1, A2, B1, B2. ring. Qed.

Lemma moved_circle k tx ty a b c p a' b' c' p' : 0 < k ->
  moved k tx ty a a' -> moved k tx ty b b' -> moved k tx ty c c' -> moved k tx ty p p' ->
  (in_circumcircle a' b' c' p' <-> in_circumcircle a b c p).
Proof.
  intros Hk A B C P. assert (K : 0 < k * k) by nra.
  assert (Mo : forall o o', moved k tx ty o o' ->
    (sqdist o' a' == sqdist o' b' /\ sqdist o' b' == sqdist o' c' /\ sqdist o' p' < sqdist o' a' <->
     sqdist o a == sqdist o b /\ sqdist o b == sqdist o c /\ sqdist o p < sqdist o a)).
  { intros o o' O. rewrite (moved_dist _ _ _ _ _ _ _ O A), (moved_dist _ _ _ _ _ _ _ O B), (moved_dist _ _ _ _ _ _ _ O C), (moved_dist _ _ _ _ _ _ _ O P).
    generalize (sqdist o a) (sqdist o b) (sqdist o c) (sqdist o p). intros w x y z.
    assert (Q : forall u v, k * k * u == k * k * v <-> u == v).
    { intros u v. apply Qmult_inj_l. lra. }
    rewrite !Q. assert (L : k * k * z < k * k * w <-> z < w).
    { rewrite (Qmult_comm _ z), (Qmult_comm _ w). now apply Qmult_lt_r. }
    rewrite L. reflexivity. }
  unfold in_circumcircle. split.
  - intros (o' & H). exists ((fst o' - tx) / k, (snd o' - ty) / k). apply (Mo _ o'); auto.
    split; cbn [fst snd]; field; lra.
  - intros (o & H). exists (k * fst o + tx, k * snd o + ty). apply (Mo o); auto. split; reflexivity.
Qed.

Lemma similarity_preserves k tx ty a b c d a' b' c' d' :
  0 < k -> moved k tx ty a a' -> moved k tx ty b b' -> moved k tx ty c c' -> moved k tx ty d d' ->
  (clockwise a' b' c' <-> clockwise a b c) /\ (in_circumcircle a' b' c' d' <-> in_circumcircle a b c d).
Proof.
  intros Hk A B C D. split; [|eapply moved_circle; eauto].
  unfold clockwise. rewrite (moved_orient _ _ _ _ _ _ _ _ _ A B C). assert (0 < k * k) by nra. split; nra.
Qed.

End WithId.

(** On the grids of [GridSpec.v] the normalised floats are exactly the image of the input by
    a similarity. *)
Lemma grid_similarity {E : Env} (vs : list vertex) l bound : on_grid vs l bound ->
  exists val side mx my, grid E val bound side /\ (0 < side)%Z /\
    forall v w, nthN (normalized vs) v = Some w ->
      val (vx w) ((fst (zpoint l v) - inject_Z mx) / inject_Z side) /\
      val (vy w) ((snd (zpoint l v) - inject_Z my) / inject_Z side).
Proof.
  intros (val & side & mx & my & Gr & F2 & Fi & B). exists val, side, mx, my. split; auto.
  destruct (grid_rep _ _ _ _ Gr) as (rep & repr & pb & ep & R & -> & Hv & S1 & R4 & R2 & Se).
  split; [lia|]. intros v w Hw.
  destruct (grid_normalized rep repr pb ep R side S1 R4 vs l mx my) with (v := v) (p := w) as (((X & _) & _) & ((Y & _) & _)); auto.
  - clear - F2 Hv. induction F2 as [|v p vs l (A & A') F IH]; constructor; auto. split; now apply Hv.
  - split; apply Hv; [exact X|exact Y].
Qed.
