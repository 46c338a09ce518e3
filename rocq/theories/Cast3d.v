(** * Cast3d: planar 3d input with vectors of another format than [Float]. *)

From Coq Require Import ZArith NArith List Bool Lia QArith SpecFloat.
From Flocq Require Import Core.Core IEEE754.BinarySingleNaN.
From Verif Require Import Base BaseFacts Arith F64 Rep SFRep Grid64 GridNum GridSpec InputSpec Spec Spec3d Types Triangulation Constrained
  Space3d Space3dFacts CCross AnyDT AnyCDT Input2d SpecCast Cast CastApi GridApi ApiGrid GridCdt.
Import ListNotations.
Local Open Scope N_scope.

Lemma f2_length {A B} (P : A -> B -> Prop) x y : Forall2 P x y -> length x = length y.
Proof. induction 1; simpl; congruence. Qed.

Section Vectors.
Variables p1 e1 p2 e2 kmax bound : Z.
Variables (pb : Z) (ep : Q).
Variable maxid : N.
Let E1 := sf_env p1 e1 maxid.
Let E2 := sf_env p2 e2 maxid.
Hypothesis Hp1 : Prec_gt_0 p1.
Hypothesis He1 : Prec_lt_emax p1 e1.
Hypothesis Hp2 : Prec_gt_0 p2.
Hypothesis He2 : Prec_lt_emax p2 e2.
Hypothesis P24 : (24 <= p1)%Z.
Hypothesis E128 : (128 <= e1)%Z.
Hypothesis P24' : (24 <= p2)%Z.
Hypothesis E128' : (128 <= e2)%Z.
Hypothesis R : Rep (E := E1) (repF p1 e1) (reprF p1 e1) pb ep.
Hypothesis Pb : (13 <= pb - 10)%Z.
Hypothesis Km : (2 * kmax < p1)%Z.
Hypothesis Km' : (kmax <= 26)%Z.
Hypothesis Gr : forall k, (0 <= k <= kmax)%Z -> grid E2 (sf_is p2 e2) bound (2 ^ k).
Hypothesis Bd : (2 ^ 13 <= bound)%Z.

Let V12 : Vertex3d spec_float := vec3_as (E := E1) (sf_sqrt p1 e1) (sf_one p1 e1) spec_float (sf_cast p2 e2).

Lemma cast_int x z : sf_is p1 e1 x (inject_Z z) -> (Z.abs z <= 2 ^ 13)%Z -> sf_is p2 e2 (sf_cast p2 e2 x) (inject_Z z).
Proof.
  intros H B. apply cast_exact with (p1 := p1) (e1 := e1) (y := sf_of_Z p2 e2 z); auto.
  apply sf_is_rep. apply (rep_of_Z p2 e2 Hp2 He2 P24' E128').
  - assert (2 ^ 24 <= 2 ^ p2)%Z by (apply Z.pow_le_mono_r; lia). simpl in *; lia.
  - simpl in *; lia.
Qed.

Lemma cast_ints (vs : list (spec_float * spec_float)) l :
  Forall2 (fun v p => repF p1 e1 (fst v) (inject_Z (fst p)) /\ repF p1 e1 (snd v) (inject_Z (snd p))) vs l ->
  (forall p, In p l -> (Z.abs (fst p) <= 2 ^ 13 /\ Z.abs (snd p) <= 2 ^ 13)%Z) ->
  Forall2 (fun v p => sf_is p2 e2 (vx (E := E2) v) (inject_Z (fst p)) /\ sf_is p2 e2 (vy (E := E2) v) (inject_Z (snd p)))
    (map (read_as p2 e2) vs) l.
Proof.
  intros G Bc. induction G as [|v p vs0 l0 (A & B) G2 IH]; simpl; constructor.
  - destruct (Bc p) as (B1 & B2); [now left|]. split; apply cast_int; auto; now apply sf_is_rep.
  - apply IH. intros q Hq. apply Bc. now right.
Qed.

Lemma vectors_transform vs nv l u n : vectors_on_grid p1 e1 kmax vs nv l u n ->
  exists vs2, transform_to_2d (V := V12) vs nv = Ret vs2 /\ length vs2 = length vs /\
    on_grid (E := E2) vs2 (map (plane_coords u n) l) bound.
Proof.
  intros [(F2 & Hn) (k & mx & my & Hk & Fi) (Au & An & D) (p0 & q1 & rest & j & El & Hj & E01) B].
  destruct (sf_vectors p1 e1 Hp1 He1 P24 E128 k) as (S1 & R1 & Rs & Ri & Rq); try lia.
  assert (S2 : (1 <= 2 ^ k <= 2 ^ 26)%Z) by (split; auto; apply Z.pow_le_mono_r; lia).
  assert (Bp : (2 ^ 13 <= 2 ^ (pb - 10))%Z) by (apply Z.pow_le_mono_r; lia).
  destruct (transform_exact (E := E1) (repF p1 e1) (reprF p1 e1) pb ep R (sf_sqrt p1 e1) (sf_one p1 e1) (2 ^ k) S2 R1 Rs Ri Rq
              vs nv l u n p0 q1 rest j mx my) as (vs2 & Ht & G2); auto.
  - clear - F2. induction F2 as [|((x, y), z) ((a, b), c) vs l (A & B & C) F2 IH]; constructor; auto. repeat split; now apply sf_is_rep.
  - destruct nv as ((x, y), z), n as ((a, b), c). destruct Hn as (A & B' & C). repeat split; now apply sf_is_rep.
  - intros x y z Hp. specialize (B x y z Hp). lia.
  - exists (map (read_as p2 e2) vs2).
    assert (L : length vs2 = length (map (plane_coords u n) l)) by exact (f2_length _ _ _ G2).
    assert (Bc : forall p, In p (map (plane_coords u n) l) -> (Z.abs (fst p) <= 2 ^ 13 /\ Z.abs (snd p) <= 2 ^ 13)%Z).
    { intros p Hp. apply in_map_iff in Hp. destruct Hp as (((x, y), z) & <- & Hp). apply B in Hp.
      assert (Ac : axis (zcross n u)) by (destruct (axis_cross u n Au An D) as (A & B'); now rewrite <- B').
      unfold plane_coords. simpl fst. simpl snd.
      assert (Q : forall w, axis w -> (Z.abs (zdot (x, y, z) w) <= 2 ^ 13)%Z).
      { intros w Hw. unfold axis in Hw. simpl in Hw. destruct Hw as [<-|[<-|[<-|[<-|[<-|[<-|[]]]]]]]; simpl zdot; lia. }
      split; now apply Q. }
    split; [|split].
    + clear - Ht F2 El. rewrite El in F2. destruct vs as [|v0 [|v1 vr]].
      { inversion F2. } { inversion F2 as [|? ? ? ? ? F3]. inversion F3. }
      apply (Ret_inj (map (fun v => (v3_dot (Vertex3d := env_vec3 (E := E1) (sf_sqrt p1 e1) (sf_one p1 e1)) v _, v3_dot v _)) (v0 :: v1 :: vr))) in Ht.
      rewrite <- Ht, map_map. reflexivity.
    + refine (eq_trans (map_length _ _) (eq_trans L (eq_trans (map_length _ _) _))). symmetry. exact (f2_length _ _ _ F2).
    + exists (sf_is p2 e2), (2 ^ k)%Z, mx, my. split; [now apply Gr|]. split; [|split; [exact Fi|]].
      * exact (cast_ints vs2 _ G2 Bc).
      * intros p Hp. specialize (Bc p Hp). lia.
Qed.

(** The mesh of the 3d entry points, and the orientation of its triangles in space. *)
Lemma vectors_mesh vs nv l u n fuel bins cs : vectors_on_grid p1 e1 kmax vs nv l u n ->
  2 * lenN vs + 2 <= maxid -> (4 * length vs + 12 <= fuel)%nat ->
  let at_ := zpoint (map (plane_coords u n) l) in
  let seen_clockwise out := forall a b c, In (a, b, c) out ->
    (zorient3 n (nth (N.to_nat a) l (0, 0, 0)) (nth (N.to_nat b) l (0, 0, 0)) (nth (N.to_nat c) l (0, 0, 0)) < 0)%Z in
  (forall out, triangulation_from_3d_planar_vertices (E := E2) (V := V12) fuel bins vs nv = Ret out ->
     valid_mesh at_ (lenN vs) out /\ seen_clockwise out) /\
  (forall out, constrained_triangulation_from_3d_planar_vertices (E := E2) (V := V12) fuel bins vs nv cs = Ret out ->
     valid_mesh at_ (lenN vs) out /\ seen_clockwise out /\
     (3 <= lenN vs -> noncrossing at_ cs -> forall c, In c cs -> ~ same_place (at_ (efrom c)) (at_ (eto c)) ->
        respects at_ (lenN vs) out (efrom c) (eto c))).
Proof.
  intros G Hid Hf at_ sc. destruct (vectors_transform vs nv l u n G) as (vs2 & Ht & L & G2).
  assert (LN : lenN vs2 = lenN vs) by (unfold lenN; now rewrite L).
  assert (Ll : length vs = length l) by (destruct G as [(F2 & _) _ _ _ _]; exact (f2_length _ _ _ F2)).
  destruct (any_mesh (E := E2) vs2 at_ bound fuel bins cs (Input_grid (E := E2) _ _ _ G2)) as (MD & MC).
  { exact (eq_ind_r (fun k => 2 * k + 2 <= maxid) Hid LN). } { exact (eq_ind_r (fun k => (4 * k + 12 <= fuel)%nat) Hf L). }
  assert (Sc : forall out, (forall a b c, In (a, b, c) out -> a < lenN vs2 /\ b < lenN vs2 /\ c < lenN vs2) ->
    valid_mesh at_ (lenN vs) out -> sc out).
  { intros out Ids M a b c H. destruct G as [_ _ (Au & An & D) _ _].
    apply (clockwise3 u n l (a, b, c) Au An D); [|now apply (vm_clockwise _ _ _ M)].
    destruct (Ids _ _ _ H) as (A & B & C). unfold lenN in *. rewrite <- Ll, <- L. auto. }
  assert (Id2 : lenN vs2 <= @idmax E2 + 1) by (change (@idmax E2) with maxid; rewrite LN; lia).
  assert (Nil : valid_mesh at_ (lenN vs) []).
  { split; simpl; try (intros; contradiction); [|constructor]. intros i j s t p _ H. destruct i; discriminate. }
  split; intros out.
  - unfold triangulation_from_3d_planar_vertices. change (@V3 (@F E2) V12) with (spec_float * spec_float * spec_float)%type.
    destruct (lenN vs <? 3) eqn:L3.
    { intros H. apply Ret_inj in H. subst out. split; [exact Nil|intros ? ? ? []]. }
    change (@F E2) with spec_float. rewrite Ht. cbn [bind]. intros H.
    assert (M : valid_mesh at_ (lenN vs) out) by exact (eq_ind _ (fun k => valid_mesh at_ k out) (MD out H) _ LN). split; [exact M|].
    apply Sc; auto. exact (proj1 (dt_ids (E := E2) fuel bins vs2 out Id2 H)).
  - unfold constrained_triangulation_from_3d_planar_vertices. change (@V3 (@F E2) V12) with (spec_float * spec_float * spec_float)%type.
    destruct (lenN vs <? 3) eqn:L3.
    { intros H. apply Ret_inj in H. subst out. split; [exact Nil|]. split; [intros ? ? ? []|]. apply N.ltb_lt in L3. lia. }
    change (@F E2) with spec_float. rewrite Ht. cbn [bind]. intros H.
    destruct (eq_ind _ (fun k => valid_mesh at_ k out /\ (3 <= k -> noncrossing at_ cs -> forall c, In c cs ->
      ~ same_place (at_ (efrom c)) (at_ (eto c)) -> respects at_ k out (efrom c) (eto c))) (MC out H) _ LN) as (M & Rs). split; [exact M|]. split; [|exact Rs].
    apply Sc; auto. exact (proj1 (cdt_ids (E := E2) fuel bins vs2 cs out Id2 H)).
Qed.
End Vectors.

(** [Vec3] with [Float] = f64. *)
Lemma vec3_wide maxid vs nv l u n fuel bins cs : vectors_on_grid 24 128 11 vs nv l u n ->
  2 * lenN vs + 2 <= maxid -> (4 * length vs + 12 <= fuel)%nat ->
  let at_ := zpoint (map (plane_coords u n) l) in
  let seen_clockwise out := forall a b c, In (a, b, c) out ->
    (zorient3 n (nth (N.to_nat a) l (0, 0, 0)) (nth (N.to_nat b) l (0, 0, 0)) (nth (N.to_nat c) l (0, 0, 0)) < 0)%Z in
  (forall out, triangulation_from_3d_planar_vertices (E := sf_env 53 1024 maxid) (V := vec3_as_f64) fuel bins vs nv = Ret out ->
     valid_mesh at_ (lenN vs) out /\ seen_clockwise out) /\
  (forall out, constrained_triangulation_from_3d_planar_vertices (E := sf_env 53 1024 maxid) (V := vec3_as_f64) fuel bins vs nv cs = Ret out ->
     valid_mesh at_ (lenN vs) out /\ seen_clockwise out /\
     (3 <= lenN vs -> noncrossing at_ cs -> forall c, In c cs -> ~ same_place (at_ (efrom c)) (at_ (eto c)) ->
        respects at_ (lenN vs) out (efrom c) (eto c))).
Proof.
  refine (vectors_mesh 24 128 53 1024 11 (2 ^ 40) 23 eps32 maxid eq_refl eq_refl eq_refl eq_refl _ _ _ _ (f32_rep maxid) _ _ _ _ _
            vs nv l u n fuel bins cs); try (vm_compute; congruence).
  intros k Hk. apply Grid_f64. lia.
Qed.

(** [DVec3] with [Float] = f32. *)
Lemma dvec3_narrow maxid vs nv l u n fuel bins cs : vectors_on_grid 53 1024 5 vs nv l u n ->
  2 * lenN vs + 2 <= maxid -> (4 * length vs + 12 <= fuel)%nat ->
  let at_ := zpoint (map (plane_coords u n) l) in
  let seen_clockwise out := forall a b c, In (a, b, c) out ->
    (zorient3 n (nth (N.to_nat a) l (0, 0, 0)) (nth (N.to_nat b) l (0, 0, 0)) (nth (N.to_nat c) l (0, 0, 0)) < 0)%Z in
  (forall out, triangulation_from_3d_planar_vertices (E := sf_env 24 128 maxid) (V := dvec3_as_f32) fuel bins vs nv = Ret out ->
     valid_mesh at_ (lenN vs) out /\ seen_clockwise out) /\
  (forall out, constrained_triangulation_from_3d_planar_vertices (E := sf_env 24 128 maxid) (V := dvec3_as_f32) fuel bins vs nv cs = Ret out ->
     valid_mesh at_ (lenN vs) out /\ seen_clockwise out /\
     (3 <= lenN vs -> noncrossing at_ cs -> forall c, In c cs -> ~ same_place (at_ (efrom c)) (at_ (eto c)) ->
        respects at_ (lenN vs) out (efrom c) (eto c))).
Proof.
  refine (vectors_mesh 53 1024 24 128 5 (2 ^ 13) 50 eps64 maxid eq_refl eq_refl eq_refl eq_refl _ _ _ _ (f64_rep maxid) _ _ _ _ _
            vs nv l u n fuel bins cs); try (vm_compute; congruence).
  intros k Hk. apply Grid_f32. lia.
Qed.
