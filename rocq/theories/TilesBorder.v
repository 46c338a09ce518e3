(** * TilesBorder: the edges and the vertices of the triangles that fill polygons side by side. *)

From Coq Require Import ZArith NArith List Bool QArith Lqa Lia Permutation.
From Verif Require Import Base BaseFacts Arith Types Spec SpecBox SpecDomain SpecCount SpecWinding SpecFilling SpecArea Infinite Triangulation Constrained GridSpec InputSpec GridApi GridCdt
  Winding Inside Tally GermCount TallyGrid Tube Polygon Jordan FillingGrid Facing SelectGrid Hull Count Area Used Anywhere AnywhereCount SpecTiles Tiles SpecTilesArea TilesArea SpecConforming.
Import ListNotations.
Local Open Scope N_scope.

Section Parts.
Variables (at_ : N -> point) (n : N) (out : list (N * N * N)) (polys : list (list edge)).
Hypothesis TI : tiles at_ polys.
Hypothesis V : valid_mesh at_ n out.
Hypothesis Off : forall t p, In t out -> tri_inside at_ t p -> ~ on_constraint at_ (concat polys) p.
Hypothesis Cov : forall p, ~ on_constraint at_ (concat polys) p -> (covered at_ out p <-> exists P, In P polys /\ winding at_ P p = 1%Z).
Hypothesis Pb : forall P, In P polys -> border_is at_ (in_tile at_ P out) P.

Lemma part_edge P u v : In (u, v) (directed_edges (in_tile at_ P out)) -> In (u, v) (directed_edges out).
Proof. exact (proj2 (filter_edges _ out (vm_edges _ _ _ V)) (u, v)). Qed.

Lemma edge_corners u v : In (u, v) (directed_edges out) -> exists t, In t out /\ tri_corner t u /\ tri_corner t v.
Proof.
  unfold directed_edges. rewrite in_flat_map. intros (((a, b), c) & I & J). exists (a, b, c). split; [exact I|].
  cbn in J |- *. destruct J as [J|[J|[J|[]]]]; injection J as <- <-; tauto.
Qed.

(** Edges at the same places are the same. *)
Lemma same_edge u v x y : In (u, v) (directed_edges out) -> In (x, y) (directed_edges out) ->
  same_place (at_ u) (at_ x) -> same_place (at_ v) (at_ y) -> (u, v) = (x, y).
Proof.
  intros I J A B. destruct (edge_corners u v I) as (s & Is & Su & Sv). destruct (edge_corners x y J) as (t & It & Tx & Ty).
  rewrite (vm_merged _ _ _ V s t u x Is It Su Tx A), (vm_merged _ _ _ V s t v y Is It Sv Ty B). reflexivity.
Qed.

(** Each edge of a triangle is an edge of the triangles of some polygon. *)
Lemma edge_part u v : In (u, v) (directed_edges out) -> exists P, In P polys /\ In (u, v) (directed_edges (in_tile at_ P out)).
Proof.
  unfold directed_edges. rewrite in_flat_map. intros (t & I & J). destruct (one_tile at_ n out polys TI V Off Cov t I) as ((P & IP & W) & _).
  exists P. split; [exact IP|]. apply in_flat_map. exists t. split; [|exact J]. apply filter_In. split; [exact I|]. rewrite W. reflexivity.
Qed.

(** An edge belongs to one triangle only. *)
Lemma one_owner l : NoDup (directed_edges l) -> forall s t e, In s l -> In t l -> In e (tri_edges s) -> In e (tri_edges t) -> s = t.
Proof.
  induction l as [|x l IH]; intros D s t e Is It Es Et; [destruct Is|].
  unfold directed_edges in D. cbn [flat_map] in D.
  assert (D2 : NoDup (flat_map tri_edges l)) by (clear - D; induction (tri_edges x) as [|a r IH']; [exact D|inversion D; subst; auto]).
  assert (X : forall u, In u l -> In e (tri_edges u) -> In e (tri_edges x) -> False).
  { intros u Iu Eu Ex. assert (J : In e (flat_map tri_edges l)) by (apply in_flat_map; eauto). clear - D Ex J.
    induction (tri_edges x) as [|a r IH']; [destruct Ex|]. cbn [app] in D. inversion D as [|y z D1 D3]; subst. destruct Ex as [-> |Ex]; [apply D1; apply in_or_app; auto|auto]. }
  destruct Is as [<- |Is], It as [<- |It]; [reflexivity|destruct (X t It Et Es)|destruct (X s Is Es Et)|exact (IH D2 s t e Is It Es Et)].
Qed.

Lemma edge_one_part P Q u v : In P polys -> In Q polys -> In (u, v) (directed_edges (in_tile at_ P out)) ->
  In (u, v) (directed_edges (in_tile at_ Q out)) -> P = Q.
Proof.
  intros IP IQ. unfold directed_edges. rewrite !in_flat_map. intros (s & Is & Es) (t & It & Et).
  apply filter_In in Is, It. destruct Is as (Is & Ws), It as (It & Wt).
  pose proof (one_owner out (vm_edges _ _ _ V) s t _ Is It Es Et) as <-. apply Z.eqb_eq in Ws, Wt.
  destruct (In_nth_error _ _ IP) as (i & Hi). destruct (In_nth_error _ _ IQ) as (j & Hj).
  destruct (Nat.eq_dec i j) as [<- |D]; [congruence|]. destruct (one_tile at_ n out polys TI V Off Cov s Is) as (_ & K). destruct (K i j P Q Hi Hj D (conj Ws Wt)).
Qed.

(** A side of a polygon is an edge of the triangles of this polygon, and in their border. *)
Lemma side_edge P e : In P polys -> In e P -> exists u v, In (u, v) (directed_edges (in_tile at_ P out)) /\
  ~ In (v, u) (directed_edges (in_tile at_ P out)) /\ along_constraint at_ u v e.
Proof.
  intros IP Ie. destruct (Pb P IP) as (_ & _ & K). destruct (K e Ie) as (u & v & B & A). apply border_iff in B. exists u, v. tauto.
Qed.

Lemma all_sides e : In e (concat polys) -> exists u v, In (u, v) (directed_edges out) /\ along_constraint at_ u v e.
Proof.
  intros I. apply in_concat in I. destruct I as (P & IP & Ie). destruct (side_edge P e IP Ie) as (u & v & D & _ & A).
  exists u, v. split; [exact (part_edge P u v D)|exact A].
Qed.

Lemma tiles_border u v : In (u, v) (directed_edges out) ->
  (In (u, v) (border_edges out) <->
   exists e, In e (concat polys) /\ along_constraint at_ u v e /\ ~ exists f, In f (concat polys) /\ along_constraint at_ v u f).
Proof.
  intros D. rewrite border_iff. split.
  - intros (_ & Nd). destruct (edge_part u v D) as (P & IP & DP). destruct (Pb P IP) as (_ & K & _).
    destruct (K u v) as (e & Ie & A); [apply border_iff; split; [exact DP|intros X; exact (Nd (part_edge P v u X))]|].
    exists e. split; [apply in_concat; exists P; auto|]. split; [exact A|]. intros (f & If & (F1 & F2)).
    destruct (all_sides f If) as (x & y & Dx & (X1 & X2)). apply Nd. destruct (edge_corners u v D) as (s & Is & Su & Sv).
    destruct (edge_corners x y Dx) as (t & It & Tx & Ty).
    rewrite (vm_merged _ _ _ V s t v x Is It Sv Tx (place_trans _ _ _ F1 (place_sym _ _ X1))).
    rewrite (vm_merged _ _ _ V s t u y Is It Su Ty (place_trans _ _ _ F2 (place_sym _ _ X2))). exact Dx.
  - intros (e & Ie & (A1 & A2) & Nf). split; [exact D|]. intros D'. apply in_concat in Ie. destruct Ie as (P & IP & Ie).
    destruct (side_edge P e IP Ie) as (x & y & Dx & Ny & (X1 & X2)).
    pose proof (same_edge u v x y D (part_edge P x y Dx) (place_trans _ _ _ A1 (place_sym _ _ X1)) (place_trans _ _ _ A2 (place_sym _ _ X2))) as Q.
    injection Q as <- <-. destruct (edge_part v u D') as (Q & IQ & DQ). destruct (Pb Q IQ) as (_ & K & _).
    destruct (K v u) as (f & If & F); [|apply Nf; exists f; split; [apply in_concat; exists Q; auto|exact F]].
    apply border_iff. split; [exact DQ|]. intros X. pose proof (edge_one_part P Q u v IP IQ Dx X) as <-. exact (Ny DQ).
Qed.

(** ** The vertices *)
Hypothesis Cl : forall e, In e (concat polys) -> clear_between at_ n (efrom e) (eto e).

Lemma tiles_used v : v < n ->
  ((exists t c, In t out /\ tri_corner t c /\ same_place (at_ c) (at_ v)) <->
   exists P, In P polys /\ ((exists e, In e P /\ same_place (at_ (efrom e)) (at_ v)) \/
     (~ on_constraint at_ P (at_ v) /\ winding at_ P (at_ v) = 1%Z))).
Proof.
  intros L. split.
  - intros (t & c & It & Tc & Pc). destruct (one_tile at_ n out polys TI V Off Cov t It) as ((P & IP & W) & _).
    exists P. split; [exact IP|]. pose proof (proj1 (ti_polygon _ _ TI P IP)) as SL. destruct (on_constraint_dec at_ P (at_ v)) as [On|Nc].
    + left. destruct On as (e & s & Ie & _ & (S1 & S2) & Q). pose proof (Cl e ltac:(apply in_concat; exists P; auto)) as Ce.
      destruct (Qeq_dec s 0) as [Z|Z0]; [exists e; split; [exact Ie|]|].
      { apply place_sym. apply (place_trans _ _ _ Q). unfold same_place, along. cbn [fst snd]. rewrite Z. split; ring. }
      destruct (Qeq_dec s 1) as [Z|Z1]; [|exfalso; apply (Ce v s L); [|exact Q]; split; apply Qnot_le_lt; intros K; [apply Z0|apply Z1]; lra].
      destruct (sl_next _ _ SL e Ie) as (f & If & Pf). exists f. split; [exact If|]. apply place_sym. apply (place_trans _ (at_ (eto e))); [|exact Pf].
      apply (place_trans _ _ _ Q). unfold same_place, along. cbn [fst snd]. rewrite Z. split; ring.
    + right. split; [exact Nc|]. apply (part_covered at_ n out polys TI V Off Cov P (at_ v) IP Nc).
      apply (corner_covered at_ (in_tile at_ P out) t c); [|exact (vm_clockwise _ _ _ V t It)|exact Tc|exact Pc].
      apply filter_In. split; [exact It|]. rewrite W. reflexivity.
  - intros (P & IP & [(e & Ie & Pe)|(Nc & W)]).
    + destruct (all_sides e) as (u & w & D & (A & _)); [apply in_concat; exists P; auto|].
      destruct (edge_corners u w D) as (t & It & Tu & _). exists t, u. split; [exact It|]. split; [exact Tu|]. exact (place_trans _ _ _ A Pe).
    + apply (part_covered at_ n out polys TI V Off Cov P (at_ v) IP Nc) in W. destruct W as (t & It & J). apply filter_In in It. destruct It as (It & _).
      destruct (vm_empty _ _ _ V t v It L J) as (c & Tc & Pc). exists t, c. auto.
Qed.
End Parts.

(** ** Results *)
Lemma call_conforming {E : Env} (vs : list vertex) at_ bound fuel bins polys out :
  exact_input vs at_ bound -> 2 * lenN vs + 2 <= idmax -> (4 * length vs + 12 <= fuel)%nat ->
  (forall e, In e (concat polys) -> efrom e < lenN vs /\ eto e < lenN vs /\ clear_between at_ (lenN vs) (efrom e) (eto e)) -> tiles at_ polys ->
  constrained_triangulation_from_2d_vertices fuel bins vs (concat polys) = Ret out ->
  (forall p, ~ on_constraint at_ (concat polys) p -> (covered at_ out p <-> exists P, In P polys /\ winding at_ P p = 1%Z)) ->
  conforming at_ (lenN vs) out polys.
Proof.
  intros G Hid Hf Hcs TI R C.
  assert (Ends : forall e, In e (concat polys) -> efrom e < lenN vs /\ eto e < lenN vs) by (intros e I; destruct (Hcs e I) as (A & B & _); auto).
  destruct (returned_valid vs at_ bound fuel bins out G Hid Hf (or_intror (ex_intro _ _ R))) as (VM & Rg).
  pose proof (off_inside vs at_ bound fuel bins _ out G Hid Hf Ends (tiles_noncrossing at_ polys TI) R) as Off.
  destruct (call_tiles vs at_ bound fuel bins polys out G Hid Hf Ends TI R C) as (Pb & _).
  assert (Pb' : forall P, In P polys -> border_is at_ (in_tile at_ P out) P) by (intros P I; exact (proj1 (Pb P I))).
  split; [exact (all_sides at_ (lenN vs) out polys VM Pb')|]. split.
  - exact (tiles_border at_ (lenN vs) out polys TI VM Off C Pb').
  - apply (tiles_used at_ (lenN vs) out polys TI VM Off C Pb'). intros e I. exact (proj2 (proj2 (Hcs e I))).
Qed.

Lemma tiles_anywhere_conforming {E : Env} (vs : list vertex) at_ bound fuel bins dt polys :
  exact_input vs at_ bound ->
  2 * lenN vs + 2 <= idmax -> ((2 * length vs + 4) * (2 * length vs + 4) <= fuel)%nat ->
  1 <= bins -> (Z.of_N bins <= bound)%Z -> triangulation_from_2d_vertices fuel bins vs = Ret dt ->
  (forall e, In e (concat polys) -> efrom e < lenN vs /\ eto e < lenN vs /\
     clear_between at_ (lenN vs) (efrom e) (eto e) /\ covers_between at_ dt (efrom e) (eto e)) ->
  tiles at_ polys ->
  exists out, constrained_triangulation_from_2d_vertices fuel bins vs (concat polys) = Ret out /\ conforming at_ (lenN vs) out polys.
Proof.
  intros G Hid Hf B1 B2 Hd Hcs TI.
  destruct (tiles_anywhere vs at_ bound G Hid fuel polys Hf TI bins dt B1 B2 Hd Hcs) as (out & R & C).
  exists out. split; [exact R|]. apply (call_conforming vs at_ bound fuel bins polys out G Hid); [nia| |exact TI|exact R|exact C].
  intros e I. destruct (Hcs e I) as (A & B & K & _). auto.
Qed.

Lemma tiles_boxed_conforming {E : Env} (vs : list vertex) at_ bound fuel n a b c d polys :
  exact_input vs at_ bound -> 2 * lenN vs + 2 <= idmax ->
  ((2 * length vs + 4) * (2 * length vs + 4) <= fuel)%nat -> (1 <= bound)%Z ->
  lenN vs = n + 4 -> Permutation [a; b; c; d] [n; n + 1; n + 2; n + 3] ->
  box_corners (at_ a) (at_ b) (at_ c) (at_ d) ->
  (forall v, v < n -> in_box (at_ a) (at_ c) (at_ v)) ->
  (forall e, In e (concat polys) -> efrom e < lenN vs /\ eto e < lenN vs /\
     clear_between at_ (lenN vs) (efrom e) (eto e)) ->
  tiles at_ polys ->
  exists out, constrained_triangulation_from_2d_vertices fuel 1 vs (concat polys) = Ret out /\ conforming at_ (lenN vs) out polys.
Proof.
  intros G Hid Hf Hb Hn Pm Bx Hin Hcs TI.
  destruct (tiles_boxed vs at_ bound G Hid fuel polys Hf TI n a b c d Hb Hn Pm Bx Hin Hcs) as (out & R & C).
  exists out. split; [exact R|]. apply (call_conforming vs at_ bound fuel 1 polys out G Hid); [nia|exact Hcs|exact TI|exact R|exact C].
Qed.
