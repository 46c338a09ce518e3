(** * TilesArea: each of several polygons side by side is filled by triangles of its own. *)

From Coq Require Import ZArith NArith List Bool QArith Qminmax Lqa Lia Permutation.
From Verif Require Import Base BaseFacts Arith Types Spec SpecBox SpecDomain SpecCount SpecWinding SpecArea Infinite Triangulation Constrained GridSpec InputSpec GridApi GridCdt
  Winding Inside Tally TallyGrid Tube Polygon Jordan Facing Area Anywhere AnywhereCount SpecTiles Tiles SpecTilesArea.
Import ListNotations.
Local Open Scope Q_scope.

(** ** Parts of a mesh *)
Lemma filter_nth {X} (h : X -> bool) l : forall i j s t, (i < j)%nat -> nth_error (filter h l) i = Some s -> nth_error (filter h l) j = Some t ->
  exists i' j', (i' < j')%nat /\ nth_error l i' = Some s /\ nth_error l j' = Some t.
Proof.
  induction l as [|x l IH]; intros i j s t L Hi Hj; [destruct i; discriminate|]. cbn [filter] in Hi, Hj. destruct (h x) eqn:E.
  - destruct j as [|j]; [lia|]. cbn in Hj. destruct i as [|i].
    + cbn in Hi. injection Hi as <-. apply nth_error_In in Hj. apply filter_In in Hj. destruct Hj as (Hj & _).
      destruct (In_nth_error _ _ Hj) as (k & K). exists 0%nat, (S k). split; [lia|]. split; [reflexivity|exact K].
    + cbn in Hi. destruct (IH i j s t ltac:(lia) Hi Hj) as (a & b & L' & A & B). exists (S a), (S b). split; [lia|]. split; assumption.
  - destruct (IH i j s t L Hi Hj) as (a & b & L' & A & B). exists (S a), (S b). split; [lia|]. split; assumption.
Qed.

Lemma filter_edges h out : NoDup (directed_edges out) -> NoDup (directed_edges (filter h out)) /\ incl (directed_edges (filter h out)) (directed_edges out).
Proof.
  induction out as [|t l IH]; intros N; [split; [constructor|intros x []]|]. unfold directed_edges in *. cbn [flat_map filter] in *.
  assert (N2 : NoDup (flat_map tri_edges l)) by (clear - N; induction (tri_edges t) as [|e r IH']; [exact N|inversion N; subst; auto]).
  destruct (IH N2) as (A & B). destruct (h t); cbn [flat_map].
  - split.
    + revert N. clear - A B. induction (tri_edges t) as [|e r IH']; intros N; [exact A|]. cbn [app] in *. inversion N as [|x y N1 N3]; subst. constructor; [|exact (IH' N3)].
      intros I. apply N1. apply in_or_app. apply in_app_or in I. destruct I as [I|I]; [now left|right; exact (B _ I)].
    + intros x I. apply in_or_app. apply in_app_or in I. destruct I as [I|I]; [now left|right; exact (B _ I)].
  - split; [exact A|]. intros x I. apply in_or_app. right. exact (B _ I).
Qed.

Lemma filter_mesh at_ n h out : valid_mesh at_ n out -> valid_mesh at_ n (filter h out).
Proof.
  intros V. assert (F : forall t, In t (filter h out) -> In t out) by (intros t I; apply filter_In in I; tauto). constructor.
  - intros t I. exact (vm_clockwise _ _ _ V t (F t I)).
  - intros i j s t p D Hi Hj. destruct (Nat.lt_total i j) as [L|[L|L]]; [|contradiction|].
    + destruct (filter_nth h out i j s t L Hi Hj) as (a & b & L' & A & B). intros X Y. exact (vm_disjoint _ _ _ V a b s t p ltac:(lia) A B X Y).
    + destruct (filter_nth h out j i t s L Hj Hi) as (a & b & L' & A & B). intros X Y. exact (vm_disjoint _ _ _ V b a s t p ltac:(lia) B A X Y).
  - exact (proj1 (filter_edges h out (vm_edges _ _ _ V))).
  - intros t v I. exact (vm_empty _ _ _ V t v (F t I)).
  - intros s t u v I J. exact (vm_merged _ _ _ V s t u v (F s I) (F t J)).
Qed.

Lemma filter_respects at_ n h out f g : respects at_ n out f g -> respects at_ n (filter h out) f g.
Proof.
  intros R. assert (F : forall t, In t (filter h out) -> In t out) by (intros t I; apply filter_In in I; tauto). constructor.
  - intros t u v I. exact (rs_uncrossed _ _ _ _ _ R t u v (F t I)).
  - intros t s I. exact (rs_edge _ _ _ _ _ R t s (F t I)).
  - exact (rs_empty _ _ _ _ _ R).
Qed.

(** From a point of a triangle to its center. *)
Lemma center_inside at_ t p s : tri_clockwise at_ t -> tri_inside_or_on at_ t p -> 0 < s <= 1 -> tri_inside at_ t (along p (center at_ t) s).
Proof.
  destruct t as ((a, b), c). cbn. unfold clockwise, inside_or_on, strictly_inside. intros C (A1 & A2 & A3) (S1 & S2).
  assert (K : forall x y, orient x y (along p (center at_ (a, b, c)) s) ==
    (1 - s) * orient x y p + s * ((1#3) * (orient x y (at_ a) + orient x y (at_ b) + orient x y (at_ c)))).
  { intros x y. unfold orient, along, center. cbn [fst snd]. field. }
  assert (C1 : orient (at_ a) (at_ b) (at_ a) + orient (at_ a) (at_ b) (at_ b) + orient (at_ a) (at_ b) (at_ c) == orient (at_ a) (at_ b) (at_ c)) by (unfold orient; ring).
  assert (C2 : orient (at_ b) (at_ c) (at_ a) + orient (at_ b) (at_ c) (at_ b) + orient (at_ b) (at_ c) (at_ c) == orient (at_ a) (at_ b) (at_ c)) by (unfold orient; ring).
  assert (C3 : orient (at_ c) (at_ a) (at_ a) + orient (at_ c) (at_ a) (at_ b) + orient (at_ c) (at_ a) (at_ c) == orient (at_ a) (at_ b) (at_ c)) by (unfold orient; ring).
  pose proof (K (at_ a) (at_ b)) as K1. pose proof (K (at_ b) (at_ c)) as K2. pose proof (K (at_ c) (at_ a)) as K3. clear K.
  rewrite C1 in K1. rewrite C2 in K2. rewrite C3 in K3. cbn [center] in K1, K2, K3.
  split; [rewrite K1|split; [rewrite K2|rewrite K3]]; nra.
Qed.

Section Parts.
Variables (at_ : N -> point) (n : N) (out : list (N * N * N)) (polys : list (list edge)).
Local Notation cs := (concat polys).
Hypothesis TI : tiles at_ polys.
Hypothesis V : valid_mesh at_ n out.
Hypothesis ids : forall t v, In t out -> tri_corner t v -> (v < n)%N.
Hypothesis Ends : forall e, In e cs -> (efrom e < n)%N /\ (eto e < n)%N.
Hypothesis Off : forall t p, In t out -> tri_inside at_ t p -> ~ on_constraint at_ cs p.
Hypothesis Cov : forall p, ~ on_constraint at_ cs p -> (covered at_ out p <-> exists P, In P polys /\ winding at_ P p = 1%Z).
Hypothesis Rs : forall t e, In t out -> In e cs -> respects at_ n out (efrom e) (eto e).

Lemma to_center P t p : In P polys -> In t out -> tri_inside_or_on at_ t p -> ~ on_constraint at_ P p -> winding at_ P p = winding at_ P (center at_ t).
Proof.
  intros IP T I Np. apply (winding_step at_ P (tile_closed at_ polys TI P IP)). intros s (S1 & S2) K. destruct (Qlt_le_dec 0 s) as [S|S].
  - apply (Off t _ T (center_inside at_ t p s (vm_clockwise _ _ _ V t T) I ltac:(lra))). exact (tile_on at_ polys P _ IP K).
  - apply Np. destruct K as (f & r & J & Pf & R & K1 & K2). exists f, r. split; [exact J|]. split; [exact Pf|]. split; [exact R|].
    assert (Z : s == 0) by lra. unfold same_place. rewrite <- K1, <- K2. unfold along. cbn [fst snd]. rewrite Z. split; ring.
Qed.

(** The sides of the other polygons do not enter a polygon. *)
Lemma apart_side i j P Q f s p : nth_error polys i = Some P -> nth_error polys j = Some Q -> i <> j -> In f Q -> 0 < s < 1 ->
  same_place p (along (at_ (efrom f)) (at_ (eto f)) s) -> ~ on_constraint at_ P p -> winding at_ P p <> 1%Z.
Proof.
  intros Hi Hj N If S Pl Np W. pose proof (nth_error_In _ _ Hi) as IP. pose proof (nth_error_In _ _ Hj) as IQ.
  destruct (ti_polygon _ _ TI Q IQ) as (SL & _).
  destruct (clear_around at_ P p Np) as (r1 & R1 & K1). destruct (clear_but at_ Q SL f s If S) as (r2 & R2 & K2).
  destruct (tile_near at_ polys TI Q f s IQ If S) as (r3 & R3 & K3).
  set (r := Qmin r1 (Qmin r2 r3)). assert (L1 : r <= r1) by apply Q.le_min_l.
  assert (L23 : r <= Qmin r2 r3) by apply Q.le_min_r. pose proof (Q.le_min_l r2 r3). pose proof (Q.le_min_r r2 r3).
  assert (R : 0 < r). { unfold r. destruct (Q.min_spec r1 (Qmin r2 r3)) as [(_ & ->)|(_ & ->)]; [exact R1|]. destruct (Q.min_spec r2 r3) as [(_ & ->)|(_ & ->)]; assumption. }
  destruct (right_point (at_ (efrom f)) (at_ (eto f)) s r (sl_proper _ _ SL f If) R) as (q & Sq & Oq).
  assert (Sq' : forall r', r <= r' -> square (along (at_ (efrom f)) (at_ (eto f)) s) r' q) by (intros r' L; destruct Sq as ((? & ?) & ? & ?); split; split; lra).
  assert (Sp : square p r1 q). { destruct (Sq' r1 L1) as (A & B). destruct Pl as (P1 & P2). unfold square. rewrite P1, P2. split; assumption. }
  apply (ti_apart _ _ TI i j P Q q Hi Hj N); [exact (K1 q Sp)| |split].
  - intros (g & u & J & Pg & U & K). destruct (edge_dec g f) as [-> | D].
    + apply (Polygon.orient_place (at_ (efrom f)) (at_ (eto f))) in K. rewrite orient_on in K. lra.
    + exact (K2 q (Sq' r2 ltac:(lra)) g u J D U K).
  - rewrite <- W. symmetry. apply (winding_step at_ P (tile_closed at_ polys TI P IP)). intros t T. apply K1. now apply square_along.
  - exact (proj1 (K3 q (Sq' r3 ltac:(lra))) Oq).
Qed.

Lemma inner_off P p : In P polys -> ~ on_constraint at_ P p -> winding at_ P p = 1%Z -> ~ on_constraint at_ cs p.
Proof.
  intros IP Np W (f & s & I & Pf & (S1 & S2) & K). destruct (In_nth_error _ _ IP) as (i & Hi). destruct (in_tiles polys f I) as (j & Q & Hj & IQ & If).
  assert (N : i <> j). { intros <-. assert (Q = P) by congruence. subst Q. apply Np. exists f, s. auto. }
  destruct (clear_around at_ P p Np) as (r & R & Cl). set (m := along (at_ (efrom f)) (at_ (eto f)) (1#2)).
  destruct (small r (fst m - fst p) (snd m - snd p) R) as (t & (T1 & T2) & X & Y).
  set (q := along p m (t * (1#2))).
  assert (Sq : square p r q). { unfold square, q, along. cbn [fst snd]. split; split; lra. }
  apply (apart_side i j P Q f ((1 - t * (1#2)) * s + t * (1#2) * (1#2)) q Hi Hj N If).
  - split; nra.
  - destruct K as (K1 & K2). unfold q, m, same_place, along in *. cbn [fst snd] in *. rewrite K1, K2. split; ring.
  - exact (Cl q Sq).
  - rewrite <- W. symmetry. apply (winding_step at_ P (tile_closed at_ polys TI P IP)). intros u U. apply Cl. now apply square_along.
Qed.

Lemma part_covered P p : In P polys -> ~ on_constraint at_ P p -> (covered at_ (in_tile at_ P out) p <-> winding at_ P p = 1%Z).
Proof.
  intros IP Np. split.
  - intros (t & I & C). apply filter_In in I. destruct I as (T & W). apply Z.eqb_eq in W. rewrite (to_center P t p IP T C Np). exact W.
  - intros W. destruct (proj2 (Cov p (inner_off P p IP Np W)) (ex_intro _ P (conj IP W))) as (t & T & C). exists t. split; [|exact C].
    apply filter_In. split; [exact T|]. apply Z.eqb_eq. rewrite <- (to_center P t p IP T C Np). exact W.
Qed.

Lemma part_border P : In P polys -> border_is at_ (in_tile at_ P out) P /\ total_area at_ (in_tile at_ P out) == enclosed_area at_ P.
Proof.
  intros IP. destruct (ti_polygon _ _ TI P IP) as (SL & One).
  assert (F : forall t, In t (in_tile at_ P out) -> In t out) by (intros t I; apply filter_In in I; tauto).
  assert (IC : forall e, In e P -> In e cs) by (intros e I; apply in_concat; exists P; auto).
  pose proof (filter_mesh at_ n _ out V : valid_mesh at_ n (in_tile at_ P out)) as VM.
  assert (Rg : forall t v, In t (in_tile at_ P out) -> tri_corner t v -> (v < n)%N) by (intros t v I; exact (ids t v (F t I))).
  assert (Ne : forall e, In e P -> near at_ P e (1#2) 1) by (intros e I; apply (tile_near at_ polys TI P e (1#2) IP I); lra).
  assert (En : forall e, In e P -> (efrom e < n)%N /\ (eto e < n)%N) by (intros e I; exact (Ends e (IC e I))).
  assert (Of : forall t p, In t (in_tile at_ P out) -> tri_inside at_ t p -> ~ on_constraint at_ P p)
    by (intros t p I J K; exact (Off t p (F t I) J (tile_on at_ polys P p IP K))).
  assert (Cv : forall p, ~ on_constraint at_ P p -> (covered at_ (in_tile at_ P out) p <-> winding at_ P p = 1%Z)) by (intros p; exact (part_covered P p IP)).
  assert (Re : forall t e, In t (in_tile at_ P out) -> In e P -> respects at_ n (in_tile at_ P out) (efrom e) (eto e))
    by (intros t e I J; apply filter_respects; exact (Rs t e (F t I) (IC e J))).
  destruct (border_match at_ n (in_tile at_ P out) P VM Rg SL Ne En Of Cv Re) as (L & A). split; [|exact A]. split; [exact L|]. split.
  - exact (edge_side at_ n (in_tile at_ P out) P VM Rg SL Ne En Of Cv Re).
  - exact (side_edge at_ n (in_tile at_ P out) P VM SL Ne Of Cv Re).
Qed.

(** Each triangle is in exactly one polygon. *)
Lemma one_tile t : In t out -> (exists P, In P polys /\ winding at_ P (center at_ t) = 1%Z) /\
  forall i j P Q, nth_error polys i = Some P -> nth_error polys j = Some Q -> i <> j ->
    ~ (winding at_ P (center at_ t) = 1%Z /\ winding at_ Q (center at_ t) = 1%Z).
Proof.
  intros T. assert (C : tri_inside at_ t (center at_ t)).
  { pose proof (vm_clockwise _ _ _ V t T) as Cw. destruct t as ((a, b), c). cbn in *. unfold clockwise in Cw.
    unfold strictly_inside, orient in *. cbn [fst snd]. repeat split; lra. }
  pose proof (Off t _ T C) as Oc. split.
  - apply (Cov _ Oc). exact (inside_covered at_ out t _ T C).
  - intros i j P Q Hi Hj N. apply (ti_apart _ _ TI i j P Q _ Hi Hj N); intros K; apply Oc.
    + exact (tile_on at_ polys P _ (nth_error_In _ _ Hi) K).
    + exact (tile_on at_ polys Q _ (nth_error_In _ _ Hj) K).
Qed.
End Parts.

(** ** Sums over the polygons *)
Section Sum.
Variables (at_ : N -> point).

Definition weight (t : N * N * N) (P : list edge) : Q := if Z.eqb (winding at_ P (center at_ t)) 1 then tri_area at_ t else 0.

Lemma weight_none t polys : (forall P, In P polys -> winding at_ P (center at_ t) <> 1%Z) -> sumq (weight t) polys == 0.
Proof.
  induction polys as [|P l IH]; intros H; [reflexivity|]. cbn. fold (sumq (weight t) l). rewrite IH by (intros Q I; apply H; now right).
  unfold weight. destruct (Z.eqb_spec (winding at_ P (center at_ t)) 1) as [K|K]; [destruct (H P (or_introl eq_refl) K)|ring].
Qed.

Lemma weight_one t polys : (exists P, In P polys /\ winding at_ P (center at_ t) = 1%Z) ->
  (forall i j P Q, nth_error polys i = Some P -> nth_error polys j = Some Q -> i <> j ->
    ~ (winding at_ P (center at_ t) = 1%Z /\ winding at_ Q (center at_ t) = 1%Z)) ->
  sumq (weight t) polys == tri_area at_ t.
Proof.
  induction polys as [|P l IH]; intros (Q & I & W) H; [destruct I|]. cbn. fold (sumq (weight t) l).
  unfold weight at 1. destruct (Z.eqb_spec (winding at_ P (center at_ t)) 1) as [K|K].
  - rewrite weight_none; [ring|]. intros R J E. destruct (In_nth_error _ _ J) as (j & Hj). exact (H 0%nat (S j) P R eq_refl Hj ltac:(discriminate) (conj K E)).
  - destruct I as [<- | I]; [contradiction|]. rewrite IH; [ring|exists Q; auto|].
    intros i j A B Hi Hj N. apply (H (S i) (S j) A B Hi Hj). congruence.
Qed.

Lemma parts_area polys out : (forall t, In t out -> sumq (weight t) polys == tri_area at_ t) ->
  sumq (fun P => total_area at_ (in_tile at_ P out)) polys == total_area at_ out.
Proof.
  induction out as [|t l IH]; intros H.
  - cbn [total_area]. induction polys as [|P r IHr]; [reflexivity|]. cbn. cbn in IHr. rewrite IHr; [reflexivity|intros t []].
  - cbn [total_area]. rewrite <- IH by (intros u I; apply H; now right). rewrite <- (H t (or_introl eq_refl)).
    clear. induction polys as [|P r IHr]; [cbn; ring|]. cbn [sumq fold_right]. 
    fold (sumq (fun P => total_area at_ (in_tile at_ P (t :: l))) r). fold (sumq (fun P => total_area at_ (in_tile at_ P l)) r). fold (sumq (weight t) r).
    rewrite IHr. assert (K : total_area at_ (in_tile at_ P (t :: l)) == weight t P + total_area at_ (in_tile at_ P l)).
    { unfold in_tile at 1. cbn [filter]. unfold weight. destruct (Z.eqb (winding at_ P (center at_ t)) 1); cbn [total_area]; fold (in_tile at_ P l); ring. }
    rewrite K. ring.
Qed.

Lemma enclosed_concat polys : enclosed_area at_ (concat polys) == sumq (enclosed_area at_) polys.
Proof.
  induction polys as [|P l IH]; [reflexivity|]. cbn [concat sumq fold_right]. fold (sumq (enclosed_area at_) l). rewrite <- IH.
  clear. induction P as [|e P IH]; cbn [app enclosed_area]; [ring|]. rewrite IH. ring.
Qed.

Lemma sum_same {X} (f g : X -> Q) l : (forall x, In x l -> f x == g x) -> sumq f l == sumq g l.
Proof. induction l as [|x l IH]; intros H; [reflexivity|]. cbn. fold (sumq f l). fold (sumq g l). rewrite (H x (or_introl eq_refl)), IH by (intros y I; apply H; now right). reflexivity. Qed.
End Sum.

(** ** Results for exact inputs *)
Local Open Scope N_scope.

Lemma call_tiles {E : Env} (vs : list vertex) at_ bound fuel bins polys out :
  exact_input vs at_ bound -> 2 * lenN vs + 2 <= idmax -> (4 * length vs + 12 <= fuel)%nat ->
  (forall e, In e (concat polys) -> efrom e < lenN vs /\ eto e < lenN vs) -> tiles at_ polys ->
  constrained_triangulation_from_2d_vertices fuel bins vs (concat polys) = Ret out ->
  (forall p, ~ on_constraint at_ (concat polys) p -> (covered at_ out p <-> exists P, In P polys /\ winding at_ P p = 1%Z)) ->
  (forall P, In P polys -> border_is at_ (in_tile at_ P out) P /\ (total_area at_ (in_tile at_ P out) == enclosed_area at_ P)%Q) /\
  (total_area at_ out == enclosed_area at_ (concat polys))%Q.
Proof.
  intros G Hid Hf Ends TI R C.
  pose proof (tiles_noncrossing at_ polys TI) as X.
  destruct (returned_valid vs at_ bound fuel bins out G Hid Hf (or_intror (ex_intro _ _ R))) as (VM & Rg).
  pose proof (off_inside vs at_ bound fuel bins _ out G Hid Hf Ends X R) as Off.
  assert (Rs : forall t e, In t out -> In e (concat polys) -> respects at_ (lenN vs) out (efrom e) (eto e)).
  { intros t e T Ie.
    assert (H3 : 3 <= lenN vs).
    { destruct (N.lt_ge_cases (lenN vs) 3) as [H|H]; [exfalso|exact H]. revert R. unfold constrained_triangulation_from_2d_vertices.
      rewrite (proj2 (N.ltb_lt _ _) H). intros K. injection K as <-. destruct T. }
    destruct (in_tiles polys e Ie) as (i & P & _ & IP & IeP).
    pose proof (sl_proper _ _ (proj1 (ti_polygon _ _ TI P IP)) e IeP) as Pr. clear TI Off C.
    pair_input G. exact (proj1 (grid_cdt_edges vs px py bound G Hid fuel bins Hf (concat polys) e out H3 X Ie Pr R)). }
  assert (Pb : forall P, In P polys -> border_is at_ (in_tile at_ P out) P /\ (total_area at_ (in_tile at_ P out) == enclosed_area at_ P)%Q)
    by (intros P IP; exact (part_border at_ (lenN vs) out polys TI VM Rg Ends Off C Rs P IP)).
  split; [exact Pb|]. rewrite enclosed_concat, <- (parts_area at_ polys out).
  - apply sum_same. intros P IP. exact (proj2 (Pb P IP)).
  - intros t T. destruct (one_tile at_ (lenN vs) out polys TI VM Off C t T) as (A & B). exact (weight_one at_ t polys A B).
Qed.

Lemma tiles_anywhere_area {E : Env} (vs : list vertex) at_ bound fuel bins dt polys :
  exact_input vs at_ bound ->
  2 * lenN vs + 2 <= idmax -> ((2 * length vs + 4) * (2 * length vs + 4) <= fuel)%nat ->
  1 <= bins -> (Z.of_N bins <= bound)%Z -> triangulation_from_2d_vertices fuel bins vs = Ret dt ->
  (forall e, In e (concat polys) -> efrom e < lenN vs /\ eto e < lenN vs /\
     clear_between at_ (lenN vs) (efrom e) (eto e) /\ covers_between at_ dt (efrom e) (eto e)) ->
  tiles at_ polys ->
  exists out, constrained_triangulation_from_2d_vertices fuel bins vs (concat polys) = Ret out /\
    (forall P, In P polys -> border_is at_ (in_tile at_ P out) P /\
       (total_area at_ (in_tile at_ P out) == enclosed_area at_ P)%Q) /\
    (total_area at_ out == enclosed_area at_ (concat polys))%Q.
Proof.
  intros G Hid Hf B1 B2 Hd Hcs TI.
  destruct (tiles_anywhere vs at_ bound G Hid fuel polys Hf TI bins dt B1 B2 Hd Hcs) as (out & R & C).
  exists out. split; [exact R|]. apply (call_tiles vs at_ bound fuel bins polys out G Hid); [nia| |exact TI|exact R|exact C].
  intros e I. destruct (Hcs e I) as (A & B & _). auto.
Qed.

Lemma tiles_boxed_area {E : Env} (vs : list vertex) at_ bound fuel n a b c d polys :
  exact_input vs at_ bound -> 2 * lenN vs + 2 <= idmax ->
  ((2 * length vs + 4) * (2 * length vs + 4) <= fuel)%nat -> (1 <= bound)%Z ->
  lenN vs = n + 4 -> Permutation [a; b; c; d] [n; n + 1; n + 2; n + 3] ->
  box_corners (at_ a) (at_ b) (at_ c) (at_ d) ->
  (forall v, v < n -> in_box (at_ a) (at_ c) (at_ v)) ->
  (forall e, In e (concat polys) -> efrom e < lenN vs /\ eto e < lenN vs /\
     clear_between at_ (lenN vs) (efrom e) (eto e)) ->
  tiles at_ polys ->
  exists out, constrained_triangulation_from_2d_vertices fuel 1 vs (concat polys) = Ret out /\
    (forall P, In P polys -> border_is at_ (in_tile at_ P out) P /\
       (total_area at_ (in_tile at_ P out) == enclosed_area at_ P)%Q) /\
    (total_area at_ out == enclosed_area at_ (concat polys))%Q.
Proof.
  intros G Hid Hf Hb Hn Pm Bx Hin Hcs TI.
  destruct (tiles_boxed vs at_ bound G Hid fuel polys Hf TI n a b c d Hb Hn Pm Bx Hin Hcs) as (out & R & C).
  exists out. split; [exact R|]. apply (call_tiles vs at_ bound fuel 1 polys out G Hid); [nia| |exact TI|exact R|exact C].
  intros e I. destruct (Hcs e I) as (A & B & _). auto.
Qed.
