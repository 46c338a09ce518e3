(** * TilesCount: the number of triangles of polygons side by side. *)

From Coq Require Import ZArith NArith List Bool QArith Lqa Lia Permutation.
From Verif Require Import Base BaseFacts Arith Types Spec SpecBox SpecDomain SpecTally SpecCount SpecWinding SpecFilling SpecArea Infinite Triangulation Constrained GridSpec InputSpec GridApi GridCdt
  Winding Inside Tally GermCount TallyGrid Tube Polygon Jordan FillingGrid Facing Area Anywhere AnywhereCount SpecTiles Tiles SpecTilesArea TilesArea.
Import ListNotations.
Local Open Scope N_scope.

(** The result for one polygon has as many triangles as the part in this polygon of the result for all. *)
Lemma part_count {E : Env} (vs : list vertex) at_ bound fuel bins polys out P out1 :
  exact_input vs at_ bound -> 2 * lenN vs + 2 <= idmax -> (4 * length vs + 12 <= fuel)%nat ->
  (forall e, In e (concat polys) -> efrom e < lenN vs /\ eto e < lenN vs) -> tiles at_ polys ->
  constrained_triangulation_from_2d_vertices fuel bins vs (concat polys) = Ret out ->
  (forall p, ~ on_constraint at_ (concat polys) p -> (covered at_ out p <-> exists P, In P polys /\ winding at_ P p = 1%Z)) ->
  In P polys -> constrained_triangulation_from_2d_vertices fuel bins vs P = Ret out1 ->
  (forall p, ~ on_constraint at_ P p -> (covered at_ out1 p <-> winding at_ P p = 1%Z)) ->
  lenN (in_tile at_ P out) = lenN out1.
Proof.
  intros G Hid Hf Ends TI R C IP R1 C1.
  destruct (returned_valid vs at_ bound fuel bins out G Hid Hf (or_intror (ex_intro _ _ R))) as (VM & Rg).
  pose proof (off_inside vs at_ bound fuel bins _ out G Hid Hf Ends (tiles_noncrossing at_ polys TI) R) as Off.
  pose proof (proj1 (ti_polygon _ _ TI P IP)) as SL.
  assert (En : forall e, In e P -> efrom e < lenN vs /\ eto e < lenN vs) by (intros e I; apply Ends; apply in_concat; exists P; auto).
  destruct (returned_valid vs at_ bound fuel bins out1 G Hid Hf (or_intror (ex_intro _ _ R1))) as (VM1 & Rg1).
  pose proof (off_inside vs at_ bound fuel bins _ out1 G Hid Hf En (meet_noncrossing at_ P SL) R1) as Off1.
  assert (F : forall t, In t (in_tile at_ P out) -> In t out) by (intros t I; apply filter_In in I; tauto).
  pose proof (filter_mesh at_ (lenN vs) _ out VM : valid_mesh at_ (lenN vs) (in_tile at_ P out)) as VM2.
  pose proof (fun p => part_covered at_ (lenN vs) out polys TI VM Off C P p IP) as Cv.
  assert (Off2 : forall t p, In t (in_tile at_ P out) -> tri_inside at_ t p -> ~ on_constraint at_ P p)
    by (intros t p I J K; exact (Off t p (F t I) J (tile_on at_ polys P p IP K))).
  assert (Ceq : forall p, covered at_ (in_tile at_ P out) p <-> covered at_ out1 p).
  { intros p. split.
    - apply covered_closure; [exact (vm_clockwise _ _ _ VM2)|]. intros t q T I. pose proof (Off2 t q T I) as Nc.
      apply (C1 q Nc). apply (Cv q Nc). exact (inside_covered at_ _ t q T I).
    - apply covered_closure; [exact (vm_clockwise _ _ _ VM1)|]. intros t q T I. pose proof (Off1 t q T I) as Nc.
      apply (Cv q Nc). apply (C1 q Nc). exact (inside_covered at_ _ t q T I). }
  assert (Rf : forall p, same_place p p) by (intros p; split; reflexivity).
  pose proof (grid_tally vs at_ bound fuel bins out1 at_ (lenN vs) (in_tile at_ P out) [] [] G Hid Hf
    (or_intror (ex_intro _ _ R1)) VM2 (fun t c I => Rg t c (F t I)) Ceq) as K. cbn [app] in K. change (lenN (@nil N)) with 0 in K. rewrite K; [lia| | | | |].
  - intros v V _. exists v. split; [exact V|apply Rf].
  - intros w W _. left. exists w. split; [exact W|apply Rf].
  - split; [intros u []|constructor].
  - intros u [].
  - intros u [].
Qed.

(** ** Sums over the polygons *)
Section Sum.
Variable at_ : N -> point.

Definition unit (t : N * N * N) (P : list edge) : nat := if Z.eqb (winding at_ P (center at_ t)) 1 then 1%nat else 0%nat.
Definition sumn {X} (f : X -> nat) (l : list X) : nat := fold_right (fun x s => (f x + s)%nat) 0%nat l.

Lemma unit_none t polys : (forall P, In P polys -> winding at_ P (center at_ t) <> 1%Z) -> sumn (unit t) polys = 0%nat.
Proof.
  induction polys as [|P l IH]; intros H; [reflexivity|]. cbn. fold (sumn (unit t) l). rewrite IH by (intros Q I; apply H; now right).
  unfold unit. destruct (Z.eqb_spec (winding at_ P (center at_ t)) 1) as [K|K]; [destruct (H P (or_introl eq_refl) K)|reflexivity].
Qed.

Lemma unit_one t polys : (exists P, In P polys /\ winding at_ P (center at_ t) = 1%Z) ->
  (forall i j P Q, nth_error polys i = Some P -> nth_error polys j = Some Q -> i <> j ->
    ~ (winding at_ P (center at_ t) = 1%Z /\ winding at_ Q (center at_ t) = 1%Z)) ->
  sumn (unit t) polys = 1%nat.
Proof.
  induction polys as [|P l IH]; intros (Q & I & W) H; [destruct I|]. cbn. fold (sumn (unit t) l).
  unfold unit at 1. destruct (Z.eqb_spec (winding at_ P (center at_ t)) 1) as [K|K].
  - rewrite unit_none; [reflexivity|]. intros R J E. destruct (In_nth_error _ _ J) as (j & Hj). exact (H 0%nat (S j) P R eq_refl Hj ltac:(discriminate) (conj K E)).
  - destruct I as [<- | I]; [contradiction|]. rewrite IH; [reflexivity|exists Q; auto|].
    intros i j A B Hi Hj N. apply (H (S i) (S j) A B Hi Hj). congruence.
Qed.

Lemma parts_count polys out : (forall t, In t out -> sumn (unit t) polys = 1%nat) ->
  sumn (fun P => length (in_tile at_ P out)) polys = length out.
Proof.
  induction out as [|t l IH]; intros H.
  - clear. induction polys as [|P r IHr]; [reflexivity|]. exact IHr.
  - cbn [length]. rewrite <- IH by (intros u I; apply H; now right). rewrite <- Nat.add_1_l, <- (H t (or_introl eq_refl)).
    clear. induction polys as [|P r IHr]; [reflexivity|]. cbn [sumn fold_right].
    fold (sumn (fun P => length (in_tile at_ P (t :: l))) r). fold (sumn (fun P => length (in_tile at_ P l)) r). fold (sumn (unit t) r).
    rewrite IHr. assert (K : length (in_tile at_ P (t :: l)) = (unit t P + length (in_tile at_ P l))%nat).
    { unfold in_tile at 1. cbn [filter]. unfold unit. destruct (Z.eqb (winding at_ P (center at_ t)) 1); reflexivity. }
    rewrite K. lia.
Qed.
End Sum.

Lemma sum_counts at_ n polys inners out : Forall2 (inside_vertices at_ n) polys inners ->
  (forall P inner, In P polys -> inside_vertices at_ n P inner -> lenN (in_tile at_ P out) + 2 = lenN P + 2 * lenN inner) ->
  sumn (fun P => length (in_tile at_ P out)) polys = length out ->
  lenN out + 2 * lenN polys = lenN (concat polys) + 2 * lenN (concat inners).
Proof.
  intros F H S. assert (K : (sumn (fun P => length (in_tile at_ P out)) polys + 2 * length polys = length (concat polys) + 2 * length (concat inners))%nat).
  { clear S. induction F as [|P inner ps ins Hp F IH]; [reflexivity|]. cbn [concat sumn fold_right length]. fold (sumn (fun P => length (in_tile at_ P out)) ps).
    rewrite !app_length. specialize (IH (fun Q i I => H Q i (or_intror I))). pose proof (H P inner (or_introl eq_refl) Hp) as K. unfold lenN in K. lia. }
  unfold lenN. lia.
Qed.

(** ** Results *)
Lemma call_counts {E : Env} (vs : list vertex) at_ bound fuel bins polys out :
  exact_input vs at_ bound -> 2 * lenN vs + 2 <= idmax -> (4 * length vs + 12 <= fuel)%nat ->
  (forall e, In e (concat polys) -> efrom e < lenN vs /\ eto e < lenN vs) -> tiles at_ polys ->
  constrained_triangulation_from_2d_vertices fuel bins vs (concat polys) = Ret out ->
  (forall p, ~ on_constraint at_ (concat polys) p -> (covered at_ out p <-> exists P, In P polys /\ winding at_ P p = 1%Z)) ->
  (forall P inner, In P polys -> inside_vertices at_ (lenN vs) P inner -> exists out1,
     constrained_triangulation_from_2d_vertices fuel bins vs P = Ret out1 /\
     (forall p, ~ on_constraint at_ P p -> (covered at_ out1 p <-> winding at_ P p = 1%Z)) /\
     lenN out1 + 2 = lenN P + 2 * lenN inner) ->
  (forall P inner, In P polys -> inside_vertices at_ (lenN vs) P inner -> lenN (in_tile at_ P out) + 2 = lenN P + 2 * lenN inner) /\
  (forall inners, Forall2 (inside_vertices at_ (lenN vs)) polys inners ->
     lenN out + 2 * lenN polys = lenN (concat polys) + 2 * lenN (concat inners)).
Proof.
  intros G Hid Hf Ends TI R C One.
  assert (Each : forall P inner, In P polys -> inside_vertices at_ (lenN vs) P inner -> lenN (in_tile at_ P out) + 2 = lenN P + 2 * lenN inner).
  { intros P inner IP Inn. destruct (One P inner IP Inn) as (out1 & R1 & C1 & K).
    rewrite (part_count vs at_ bound fuel bins polys out P out1 G Hid Hf Ends TI R C IP R1 C1). exact K. }
  split; [exact Each|]. intros inners F. apply (sum_counts at_ (lenN vs) polys inners out F Each). apply parts_count.
  destruct (returned_valid vs at_ bound fuel bins out G Hid Hf (or_intror (ex_intro _ _ R))) as (VM & Rg).
  pose proof (off_inside vs at_ bound fuel bins _ out G Hid Hf Ends (tiles_noncrossing at_ polys TI) R) as Off.
  intros t T. destruct (one_tile at_ (lenN vs) out polys TI VM Off C t T) as (A & B). exact (unit_one at_ t polys A B).
Qed.

Lemma tiles_anywhere_count {E : Env} (vs : list vertex) l bound fuel bins dt polys :
  on_grid vs l bound ->
  2 * lenN vs + 2 <= idmax -> ((2 * length vs + 4) * (2 * length vs + 4) <= fuel)%nat ->
  1 <= bins -> (Z.of_N bins <= bound)%Z -> triangulation_from_2d_vertices fuel bins vs = Ret dt ->
  (forall e, In e (concat polys) -> efrom e < lenN vs /\ eto e < lenN vs /\
     clear_between (zpoint l) (lenN vs) (efrom e) (eto e) /\ covers_between (zpoint l) dt (efrom e) (eto e)) ->
  tiles (zpoint l) polys ->
  exists out, constrained_triangulation_from_2d_vertices fuel bins vs (concat polys) = Ret out /\
    (forall P inner, In P polys -> inside_vertices (zpoint l) (lenN vs) P inner ->
       lenN (in_tile (zpoint l) P out) + 2 = lenN P + 2 * lenN inner) /\
    (forall inners, Forall2 (inside_vertices (zpoint l) (lenN vs)) polys inners ->
       lenN out + 2 * lenN polys = lenN (concat polys) + 2 * lenN (concat inners)).
Proof.
  intros G Hid Hf B1 B2 Hd Hcs TI. pose proof (Input_grid _ _ _ G) as GI.
  destruct (tiles_anywhere vs (zpoint l) bound GI Hid fuel polys Hf TI bins dt B1 B2 Hd Hcs) as (out & R & C).
  exists out. split; [exact R|]. apply (call_counts vs (zpoint l) bound fuel bins polys out GI Hid); [nia| |exact TI|exact R|exact C|].
  - intros e I. destruct (Hcs e I) as (A & B & _). auto.
  - intros P inner IP Inn. pose proof (ti_polygon _ _ TI P IP) as SP. pose proof (ti_clockwise _ _ TI P IP) as Cw.
    assert (Hp : forall e, In e P -> efrom e < lenN vs /\ eto e < lenN vs /\
      clear_between (zpoint l) (lenN vs) (efrom e) (eto e) /\ covers_between (zpoint l) dt (efrom e) (eto e)) by (intros e I; apply Hcs; apply in_concat; exists P; auto).
    destruct (anywhere_inside vs (zpoint l) bound GI Hid fuel bins dt P Hf B1 B2 Hd Hp (proj1 SP) (Jordan.polygon_inside _ P (proj1 SP) (proj2 SP) Cw)) as (out1 & R1 & C1).
    destruct (anywhere_count vs l bound G Hid fuel bins dt P Hf B1 B2 Hd Hp inner SP Cw Inn) as (out2 & R2 & K).
    exists out1. split; [exact R1|]. split; [intros p Nc; exact (proj2 (C1 p Nc))|]. assert (Q : out2 = out1) by congruence. subst out2. exact K.
Qed.

Lemma tiles_boxed_count {E : Env} (vs : list vertex) at_ bound fuel n a b c d polys :
  exact_input vs at_ bound -> 2 * lenN vs + 2 <= idmax ->
  ((2 * length vs + 4) * (2 * length vs + 4) <= fuel)%nat -> (1 <= bound)%Z ->
  lenN vs = n + 4 -> Permutation [a; b; c; d] [n; n + 1; n + 2; n + 3] ->
  box_corners (at_ a) (at_ b) (at_ c) (at_ d) ->
  (forall v, v < n -> in_box (at_ a) (at_ c) (at_ v)) ->
  (forall e, In e (concat polys) -> efrom e < lenN vs /\ eto e < lenN vs /\
     clear_between at_ (lenN vs) (efrom e) (eto e)) ->
  tiles at_ polys ->
  exists out, constrained_triangulation_from_2d_vertices fuel 1 vs (concat polys) = Ret out /\
    (forall P inner, In P polys -> inside_vertices at_ (lenN vs) P inner ->
       lenN (in_tile at_ P out) + 2 = lenN P + 2 * lenN inner) /\
    (forall inners, Forall2 (inside_vertices at_ (lenN vs)) polys inners ->
       lenN out + 2 * lenN polys = lenN (concat polys) + 2 * lenN (concat inners)).
Proof.
  intros G Hid Hf Hb Hn Pm Bx Hin Hcs TI.
  destruct (tiles_boxed vs at_ bound G Hid fuel polys Hf TI n a b c d Hb Hn Pm Bx Hin Hcs) as (out & R & C).
  exists out. split; [exact R|]. apply (call_counts vs at_ bound fuel 1 polys out G Hid); [nia| |exact TI|exact R|exact C|].
  - intros e I. destruct (Hcs e I) as (A & B & _). auto.
  - intros P inner IP Inn. pose proof (ti_polygon _ _ TI P IP) as SP. pose proof (ti_clockwise _ _ TI P IP) as Cw.
    assert (Hp : forall e, In e P -> efrom e < lenN vs /\ eto e < lenN vs /\ clear_between at_ (lenN vs) (efrom e) (eto e)) by (intros e I; apply Hcs; apply in_concat; exists P; auto).
    pose proof (Jordan.polygon_inside _ P (proj1 SP) (proj2 SP) Cw) as Ne.
    assert (Y : exists out, constrained_triangulation_from_2d_vertices fuel 1 vs P = Ret out /\
      forall p, ~ on_constraint at_ P p -> (winding at_ P p = 0%Z \/ winding at_ P p = 1%Z) /\ (covered at_ out p <-> winding at_ P p = 1%Z)).
    { destruct SP as (SL & _). clear TI Inn C R Hcs Cw. revert Bx Hin Hp SL Ne. pair_input G. intros Bx Hin Hp SL Ne.
      exact (near_box vs px py bound G Hid fuel n a b c d P Hf Hb Hn Pm Bx Hin Hp SL Ne). }
    destruct Y as (out1 & R1 & C1).
    destruct (box_count vs at_ bound fuel n a b c d P inner G Hid Hf Hb Hn Pm Bx Hin Hp SP Cw Inn) as (out2 & R2 & K).
    exists out1. split; [exact R1|]. split; [intros p Nc; exact (proj2 (C1 p Nc))|]. assert (Q : out2 = out1) by congruence. subst out2. exact K.
Qed.
