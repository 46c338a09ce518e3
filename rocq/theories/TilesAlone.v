(** * TilesAlone: polygons side by side are filled like each of them alone. *)

From Coq Require Import ZArith NArith List Bool QArith Lqa Lia Permutation.
From Verif Require Import Base BaseFacts Arith Types Spec SpecBox SpecDomain SpecTally SpecCount SpecWinding SpecFilling SpecArea SpecVisible SpecUnique SpecAlone
  Infinite Triangulation Constrained GridSpec InputSpec GridApi GridCdt CDelGrid VisibleGrid Unique Charact CCharact
  Winding Inside Tally GermCount TallyGrid Tube Polygon Jordan Filling FillingGrid Facing Area Anywhere AnywhereCount SpecTiles Tiles SpecTilesArea TilesArea TilesCount.
Import ListNotations.
Local Open Scope N_scope.

Section Alone.
Variables (at_ : N -> point) (n : N) (polys : list (list edge)) (out out1 : list (N * N * N)) (P : list edge).
Local Notation cs := (concat polys).
Local Notation part := (in_tile at_ P out).
Hypothesis TI : tiles at_ polys.
Hypothesis IP : In P polys.
Hypothesis V : valid_mesh at_ n out.
Hypothesis ids : forall t v, In t out -> tri_corner t v -> v < n.
Hypothesis Off : forall t p, In t out -> tri_inside at_ t p -> ~ on_constraint at_ cs p.
Hypothesis Cov : forall p, ~ on_constraint at_ P p -> (covered at_ part p <-> winding at_ P p = 1%Z).
Hypothesis Vis : visibly_delaunay at_ cs n out.
Hypothesis V1 : valid_mesh at_ n out1.
Hypothesis ids1 : forall t v, In t out1 -> tri_corner t v -> v < n.
Hypothesis Off1 : forall t p, In t out1 -> tri_inside at_ t p -> ~ on_constraint at_ P p.
Hypothesis Cov1 : forall p, ~ on_constraint at_ P p -> (covered at_ out1 p <-> winding at_ P p = 1%Z).
Hypothesis Vis1 : visibly_delaunay at_ P n out1.
Hypothesis Gp : no_circle_within at_ P n.

(** What is seen inside a polygon is seen between all polygons. *)
Lemma sees_all p q : winding at_ P p = 1%Z -> sees at_ P p q -> sees at_ cs p q.
Proof.
  intros W S s Hs. apply (inner_off at_ polys TI P _ IP (S s Hs)). rewrite <- W. symmetry.
  apply (winding_step at_ P (tile_closed at_ polys TI P IP)). intros u Hu K. apply (S (u * s)%Q).
  - split; nra.
  - revert K. apply on_place. unfold same_place, along. cbn [fst snd]. split; ring.
Qed.

Lemma part_in t : In t part -> In t out.
Proof. intros I. apply filter_In in I. tauto. Qed.

Lemma part_off t p : In t part -> tri_inside at_ t p -> ~ on_constraint at_ P p.
Proof. intros I J K. exact (Off t p (part_in t I) J (tile_on at_ polys P p IP K)). Qed.

Lemma part_within a b c : In (a, b, c) part -> within at_ P a b c.
Proof.
  intros I p Hp. pose proof (part_off (a, b, c) p I Hp) as Np. split; [exact Np|]. apply (Cov p Np).
  exact (inside_covered at_ _ (a, b, c) p I Hp).
Qed.

Lemma center_in t : tri_clockwise at_ t -> tri_inside at_ t (center at_ t).
Proof.
  intros Cw. destruct t as ((a, b), c). cbn in *. unfold clockwise in Cw.
  unfold strictly_inside, orient in *. cbn [fst snd]. repeat split; lra.
Qed.

(** A triangle of the part and one of the result for the polygon alone that overlap are the same. *)
Lemma overlap_same a b c x y z p : In (a, b, c) out1 -> In (x, y, z) part ->
  strictly_inside (at_ a) (at_ b) (at_ c) p -> strictly_inside (at_ x) (at_ y) (at_ z) p ->
  same_triangle at_ at_ (x, y, z) (a, b, c).
Proof.
  intros T S Pa Px. pose proof (vm_clockwise _ _ _ V1 _ T : clockwise (at_ a) (at_ b) (at_ c)) as C1.
  pose proof (vm_clockwise _ _ _ V _ (part_in _ S) : clockwise (at_ x) (at_ y) (at_ z)) as C2.
  assert (L1 : forall v, v = a \/ v = b \/ v = c -> v < n) by (intros v K; apply (ids1 _ v T); cbn; tauto).
  assert (L2 : forall v, v = x \/ v = y \/ v = z -> v < n) by (intros v K; apply (ids _ v (part_in _ S)); cbn; tauto).
  destruct (part_within _ _ _ S p Px) as (_ & W).
  assert (Sx : forall v, v = x \/ v = y \/ v = z -> sees at_ P p (at_ v)).
  { intros v Hv. apply (free_sees at_ P x y z); auto. intros q Hq. exact (part_off _ q S Hq). }
  assert (Sa : forall v, v = a \/ v = b \/ v = c -> sees at_ P p (at_ v)).
  { intros v Hv. apply (free_sees at_ P a b c); auto. intros q Hq. exact (Off1 _ q T Hq). }
  assert (Vx : forall v, v = x \/ v = y \/ v = z -> ~ in_circumcircle (at_ a) (at_ b) (at_ c) (at_ v))
    by (intros v Hv; exact (Vis1 _ _ _ p v T Pa (L2 v Hv) (Sx v Hv))).
  assert (Va : forall v, v = a \/ v = b \/ v = c -> ~ in_circumcircle (at_ x) (at_ y) (at_ z) (at_ v))
    by (intros v Hv; exact (Vis _ _ _ p v (part_in _ S) Px (L1 v Hv) (sees_all p _ W (Sa v Hv)))).
  destruct (overlap_circle (at_ a) (at_ b) (at_ c) (at_ x) (at_ y) (at_ z) p C1 C2 Pa) as (Oa & Ob & Oc); auto.
  { destruct Px as (P1 & P2 & P3). repeat split; lra. }
  assert (At : forall v, v = a \/ v = b \/ v = c -> on_circumcircle (at_ x) (at_ y) (at_ z) (at_ v) ->
    same_place (at_ v) (at_ x) \/ same_place (at_ v) (at_ y) \/ same_place (at_ v) (at_ z)).
  { intros v Hv Ov. destruct (TallyGrid.same_place_dec (at_ v) (at_ x)) as [|N1]; auto.
    destruct (TallyGrid.same_place_dec (at_ v) (at_ y)) as [|N2]; auto. destruct (TallyGrid.same_place_dec (at_ v) (at_ z)) as [|N3]; auto.
    exfalso. destruct (Gp x y z v p (L2 x ltac:(auto)) (L2 y ltac:(auto)) (L2 z ltac:(auto)) (L1 v Hv) C2 (part_within _ _ _ S) Px N1 N2 N3 Ov (Sa v Hv))
      as (w & q & Lw & Hq & Sw & Cw').
    exact (Vis _ _ _ q w (part_in _ S) Hq Lw (sees_all q _ (proj2 (part_within _ _ _ S q Hq)) Sw) Cw'). }
  cbn [same_triangle].
  destruct (corners_rotate _ _ _ _ _ _ C1 C2 (At a ltac:(auto) Oa) (At b ltac:(auto) Ob) (At c ltac:(auto) Oc))
    as [(A & B & K)|[(A & B & K)|(A & B & K)]]; apply place_sym in A, B, K; auto.
Qed.

Lemma part_alone : (forall s, In s part -> exists t, In t out1 /\ same_triangle at_ at_ s t) /\
  (forall t, In t out1 -> exists s, In s part /\ same_triangle at_ at_ s t).
Proof.
  split.
  - intros ((x, y), z) S. pose proof (center_in _ (vm_clockwise _ _ _ V _ (part_in _ S))) as Ci.
    destruct (part_within _ _ _ S _ Ci) as (Np & W). destruct (proj2 (Cov1 _ Np) W) as (((a, b), c) & T & I).
    destruct (common_inside _ _ _ _ _ _ _ (vm_clockwise _ _ _ V1 _ T) I Ci) as (p & Pa & Px).
    exists (a, b, c). split; [exact T|]. exact (overlap_same a b c x y z p T S Pa Px).
  - intros ((a, b), c) T. pose proof (center_in _ (vm_clockwise _ _ _ V1 _ T)) as Ci.
    pose proof (Off1 _ _ T Ci) as Np. pose proof (proj1 (Cov1 _ Np) (inside_covered at_ _ _ _ T Ci)) as W.
    destruct (proj2 (Cov _ Np) W) as (((x, y), z) & S & I).
    destruct (common_inside _ _ _ _ _ _ _ (vm_clockwise _ _ _ V _ (part_in _ S)) I Ci) as (p & Px & Pa).
    exists (x, y, z). split; [exact S|]. exact (overlap_same a b c x y z p T S Pa Px).
Qed.
End Alone.

(** ** Results for exact inputs *)
Lemma call_alone {E : Env} (vs : list vertex) at_ bound fuel bins polys out P out1 :
  exact_input vs at_ bound -> 2 * lenN vs + 2 <= idmax -> (4 * length vs + 12 <= fuel)%nat ->
  (forall e, In e (concat polys) -> efrom e < lenN vs /\ eto e < lenN vs) -> tiles at_ polys ->
  constrained_triangulation_from_2d_vertices fuel bins vs (concat polys) = Ret out ->
  (forall p, ~ on_constraint at_ (concat polys) p -> (covered at_ out p <-> exists P, In P polys /\ winding at_ P p = 1%Z)) ->
  visibly_delaunay at_ (concat polys) (lenN vs) out ->
  In P polys -> constrained_triangulation_from_2d_vertices fuel bins vs P = Ret out1 ->
  (forall p, ~ on_constraint at_ P p -> (covered at_ out1 p <-> winding at_ P p = 1%Z)) ->
  visibly_delaunay at_ P (lenN vs) out1 -> no_circle_within at_ P (lenN vs) ->
  same_triangles at_ at_ (in_tile at_ P out) out1.
Proof.
  intros G Hid Hf Ends TI R C Vi IP R1 C1 Vi1 Gp.
  destruct (returned_valid vs at_ bound fuel bins out G Hid Hf (or_intror (ex_intro _ _ R))) as (VM & Rg).
  pose proof (off_inside vs at_ bound fuel bins _ out G Hid Hf Ends (tiles_noncrossing at_ polys TI) R) as Off.
  pose proof (proj1 (ti_polygon _ _ TI P IP)) as SL.
  assert (En : forall e, In e P -> efrom e < lenN vs /\ eto e < lenN vs) by (intros e I; apply Ends; apply in_concat; exists P; auto).
  destruct (returned_valid vs at_ bound fuel bins out1 G Hid Hf (or_intror (ex_intro _ _ R1))) as (VM1 & Rg1).
  pose proof (off_inside vs at_ bound fuel bins _ out1 G Hid Hf En (meet_noncrossing at_ P SL) R1) as Off1.
  pose proof (fun p => part_covered at_ (lenN vs) out polys TI VM Off C P p IP) as Cv.
  destruct (part_alone at_ (lenN vs) polys out out1 P TI IP VM Rg Off Cv Vi VM1 Rg1 Off1 C1 Vi1 Gp) as (A & B).
  split; [exact A|]. split; [exact B|].
  pose proof (part_count vs at_ bound fuel bins polys out P out1 G Hid Hf Ends TI R C IP R1 C1) as K. unfold lenN in K. lia.
Qed.

Lemma tiles_boxed_alone {E : Env} (vs : list vertex) at_ bound fuel n a b c d polys dt :
  exact_input vs at_ bound -> 2 * lenN vs + 2 <= idmax ->
  ((2 * length vs + 4) * (2 * length vs + 4) <= fuel)%nat -> (1 <= bound)%Z ->
  lenN vs = n + 4 -> Permutation [a; b; c; d] [n; n + 1; n + 2; n + 3] ->
  box_corners (at_ a) (at_ b) (at_ c) (at_ d) ->
  (forall v, v < n -> in_box (at_ a) (at_ c) (at_ v)) ->
  triangulation_from_2d_vertices fuel 1 vs = Ret dt ->
  (forall e, In e (concat polys) -> efrom e < lenN vs /\ eto e < lenN vs /\
     clear_between at_ (lenN vs) (efrom e) (eto e) /\ crosses_at_most at_ dt 2 e) ->
  tiles at_ polys ->
  exists out, constrained_triangulation_from_2d_vertices fuel 1 vs (concat polys) = Ret out /\
    forall P, In P polys -> no_circle_within at_ P (lenN vs) ->
      exists out1, constrained_triangulation_from_2d_vertices fuel 1 vs P = Ret out1 /\
        same_triangles at_ at_ (in_tile at_ P out) out1.
Proof.
  intros G Hid Hf Hb Hn Pm Bx Hin Hd Hcs TI.
  assert (Few : forall cs out, incl cs (concat polys) -> noncrossing at_ cs ->
    constrained_triangulation_from_2d_vertices fuel 1 vs cs = Ret out -> visibly_delaunay at_ cs (lenN vs) out).
  { intros cs out I Nx R. assert (Fw : forall e, In e cs -> crosses_at_most at_ dt 2 e) by (intros e J; apply Hcs; apply I; exact J).
    clear TI Hcs I. revert Bx Hin Nx Fw. pair_input G. intros Bx Hin Nx Fw.
    exact (grid_box_few_visible vs px py bound G Hid fuel 1 Hf n a b c d cs out dt Hb Hn Pm Bx Hin eq_refl R Hd Nx Fw). }
  assert (Hcs' : forall e, In e (concat polys) -> efrom e < lenN vs /\ eto e < lenN vs /\ clear_between at_ (lenN vs) (efrom e) (eto e))
    by (intros e I; destruct (Hcs e I) as (A & B & K & _); auto).
  destruct (tiles_boxed vs at_ bound G Hid fuel polys Hf TI n a b c d Hb Hn Pm Bx Hin Hcs') as (out & R & C).
  exists out. split; [exact R|]. intros P IP Gp. pose proof (ti_polygon _ _ TI P IP) as SP. pose proof (ti_clockwise _ _ TI P IP) as Cw.
  assert (Hp : forall e, In e P -> efrom e < lenN vs /\ eto e < lenN vs /\ clear_between at_ (lenN vs) (efrom e) (eto e)) by (intros e I; apply Hcs'; apply in_concat; exists P; auto).
  pose proof (Jordan.polygon_inside _ P (proj1 SP) (proj2 SP) Cw) as Ne.
  assert (Y : exists out, constrained_triangulation_from_2d_vertices fuel 1 vs P = Ret out /\
    forall p, ~ on_constraint at_ P p -> (winding at_ P p = 0%Z \/ winding at_ P p = 1%Z) /\ (covered at_ out p <-> winding at_ P p = 1%Z)).
  { destruct SP as (SL & _). clear TI C R Hcs Hcs' Cw Few Gp. revert Bx Hin Hp SL Ne. pair_input G. intros Bx Hin Hp SL Ne.
    exact (near_box vs px py bound G Hid fuel n a b c d P Hf Hb Hn Pm Bx Hin Hp SL Ne). }
  destruct Y as (out1 & R1 & C1). exists out1. split; [exact R1|].
  apply (call_alone vs at_ bound fuel 1 polys out P out1 G Hid); [nia| |exact TI|exact R|exact C| |exact IP|exact R1| | |exact Gp].
  - intros e I. destruct (Hcs e I) as (A & B & _). auto.
  - apply Few; [intros e I; exact I|exact (tiles_noncrossing at_ polys TI)|exact R].
  - intros p Nc. exact (proj2 (C1 p Nc)).
  - apply Few; [intros e I; apply in_concat; exists P; auto|exact (meet_noncrossing at_ P (proj1 SP))|exact R1].
Qed.

Lemma tiles_anywhere_alone {E : Env} (vs : list vertex) at_ bound fuel bins dt polys :
  exact_input vs at_ bound -> 2 * lenN vs + 2 <= idmax ->
  ((2 * length vs + 4) * (2 * length vs + 4) <= fuel)%nat ->
  1 <= bins -> (Z.of_N bins <= bound)%Z -> triangulation_from_2d_vertices fuel bins vs = Ret dt ->
  locally_delaunay at_ dt -> convex_area at_ dt -> (forall v, v < lenN vs -> covered at_ dt (at_ v)) ->
  (forall e, In e (concat polys) -> efrom e < lenN vs /\ eto e < lenN vs /\
     clear_between at_ (lenN vs) (efrom e) (eto e) /\ crosses_at_most at_ dt 2 e) ->
  tiles at_ polys ->
  exists out, constrained_triangulation_from_2d_vertices fuel bins vs (concat polys) = Ret out /\
    forall P, In P polys -> no_circle_within at_ P (lenN vs) ->
      exists out1, constrained_triangulation_from_2d_vertices fuel bins vs P = Ret out1 /\
        same_triangles at_ at_ (in_tile at_ P out) out1.
Proof.
  intros G Hid Hf B1 B2 Hd Ld Cx Cvd Hcs TI.
  assert (Cb : forall e, In e (concat polys) -> covers_between at_ dt (efrom e) (eto e)).
  { intros e I. destruct (Hcs e I) as (A & B & _). intros s Hs. apply Cx; [exact (Cvd _ A)|exact (Cvd _ B)|lra]. }
  assert (Few : forall cs out, incl cs (concat polys) -> noncrossing at_ cs ->
    constrained_triangulation_from_2d_vertices fuel bins vs cs = Ret out -> visibly_delaunay at_ cs (lenN vs) out).
  { intros cs out I Nx R. assert (Fw : forall e, In e cs -> crosses_at_most at_ dt 2 e) by (intros e J; apply Hcs; apply I; exact J).
    assert (Cb' : forall e, In e cs -> proper at_ e -> covers_between at_ dt (efrom e) (eto e)) by (intros e J _; apply Cb; apply I; exact J).
    clear TI Hcs I Cb. revert Ld Cx Cvd Nx Fw Cb'. pair_input G. intros Ld Cx Cvd Nx Fw Cb'.
    apply (grid_visible vs px py bound G Hid fuel bins Hf cs out dt R Hd Nx Cb' Cx Cvd).
    exact (grid_few vs px py bound G Hid fuel bins Hf cs out dt R Hd Ld Cb' Nx Fw). }
  assert (Hcs' : forall e, In e (concat polys) -> efrom e < lenN vs /\ eto e < lenN vs /\
    clear_between at_ (lenN vs) (efrom e) (eto e) /\ covers_between at_ dt (efrom e) (eto e))
    by (intros e I; destruct (Hcs e I) as (A & B & K & _); auto).
  destruct (tiles_anywhere vs at_ bound G Hid fuel polys Hf TI bins dt B1 B2 Hd Hcs') as (out & R & C).
  exists out. split; [exact R|]. intros P IP Gp. pose proof (ti_polygon _ _ TI P IP) as SP. pose proof (ti_clockwise _ _ TI P IP) as Cw.
  assert (Hp : forall e, In e P -> efrom e < lenN vs /\ eto e < lenN vs /\
    clear_between at_ (lenN vs) (efrom e) (eto e) /\ covers_between at_ dt (efrom e) (eto e)) by (intros e I; apply Hcs'; apply in_concat; exists P; auto).
  destruct (anywhere_inside vs at_ bound G Hid fuel bins dt P Hf B1 B2 Hd Hp (proj1 SP) (Jordan.polygon_inside _ P (proj1 SP) (proj2 SP) Cw)) as (out1 & R1 & C1).
  exists out1. split; [exact R1|].
  apply (call_alone vs at_ bound fuel bins polys out P out1 G Hid); [nia| |exact TI|exact R|exact C| |exact IP|exact R1| | |exact Gp].
  - intros e I. destruct (Hcs e I) as (A & B & _). auto.
  - apply Few; [intros e I; exact I|exact (tiles_noncrossing at_ polys TI)|exact R].
  - intros p Nc. exact (proj2 (C1 p Nc)).
  - apply Few; [intros e I; apply in_concat; exists P; auto|exact (meet_noncrossing at_ P (proj1 SP))|exact R1].
Qed.

(** ** Other neighbours *)
Lemma triangle_trans at_ s t u : same_triangle at_ at_ s t -> same_triangle at_ at_ t u -> same_triangle at_ at_ s u.
Proof.
  destruct s as ((a, b), c), t as ((x, y), z), u as ((k, l), m). cbn [same_triangle].
  intros [(A & B & C)|[(A & B & C)|(A & B & C)]] [(X & Y & Z)|[(X & Y & Z)|(X & Y & Z)]]; eauto 8 using place_trans.
Qed.

Lemma triangles_common at_ l1 l2 l : same_triangles at_ at_ l1 l -> same_triangles at_ at_ l2 l -> same_triangles at_ at_ l1 l2.
Proof.
  intros (A1 & B1 & L1) (A2 & B2 & L2). split; [|split; [|congruence]].
  - intros s S. destruct (A1 s S) as (t & T & K). destruct (B2 t T) as (u & U & J). exists u. split; [exact U|].
    exact (triangle_trans at_ _ _ _ K (Unique.same_triangle_sym _ _ _ _ J)).
  - intros s S. destruct (A2 s S) as (t & T & K). destruct (B1 t T) as (u & U & J). exists u. split; [exact U|].
    exact (triangle_trans at_ _ _ _ J (Unique.same_triangle_sym _ _ _ _ K)).
Qed.

Lemma tiles_boxed_neighbours {E : Env} (vs : list vertex) at_ bound fuel n a b c d polys polys' dt :
  exact_input vs at_ bound -> 2 * lenN vs + 2 <= idmax ->
  ((2 * length vs + 4) * (2 * length vs + 4) <= fuel)%nat -> (1 <= bound)%Z ->
  lenN vs = n + 4 -> Permutation [a; b; c; d] [n; n + 1; n + 2; n + 3] ->
  box_corners (at_ a) (at_ b) (at_ c) (at_ d) ->
  (forall v, v < n -> in_box (at_ a) (at_ c) (at_ v)) ->
  triangulation_from_2d_vertices fuel 1 vs = Ret dt ->
  (forall e, In e (concat polys) \/ In e (concat polys') -> efrom e < lenN vs /\ eto e < lenN vs /\
     clear_between at_ (lenN vs) (efrom e) (eto e) /\ crosses_at_most at_ dt 2 e) ->
  tiles at_ polys -> tiles at_ polys' ->
  exists out out', constrained_triangulation_from_2d_vertices fuel 1 vs (concat polys) = Ret out /\
    constrained_triangulation_from_2d_vertices fuel 1 vs (concat polys') = Ret out' /\
    forall P, In P polys -> In P polys' -> no_circle_within at_ P (lenN vs) ->
      same_triangles at_ at_ (in_tile at_ P out) (in_tile at_ P out').
Proof.
  intros G Hid Hf Hb Hn Pm Bx Hin Hd Hcs TI TI'.
  destruct (tiles_boxed_alone vs at_ bound fuel n a b c d polys dt G Hid Hf Hb Hn Pm Bx Hin Hd (fun e I => Hcs e (or_introl I)) TI) as (out & R & A).
  destruct (tiles_boxed_alone vs at_ bound fuel n a b c d polys' dt G Hid Hf Hb Hn Pm Bx Hin Hd (fun e I => Hcs e (or_intror I)) TI') as (out' & R' & A').
  exists out, out'. split; [exact R|]. split; [exact R'|]. intros P I I' Gp.
  destruct (A P I Gp) as (o & Ro & S). destruct (A' P I' Gp) as (o' & Ro' & S'). assert (K : o' = o) by congruence. subst o'.
  exact (triangles_common at_ _ _ o S S').
Qed.
