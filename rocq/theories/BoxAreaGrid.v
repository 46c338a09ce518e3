(** * BoxAreaGrid: areas of results in a box, for the inputs of [InputSpec.v]. *)

From Coq Require Import ZArith NArith List Bool QArith Lqa Lia Permutation.
From Verif Require Import Base BaseFacts Arith Types Spec SpecBox SpecDomain SpecCount SpecWinding SpecArea Infinite Triangulation Constrained GridSpec InputSpec GridApi GridCdt
  BoxGrid TallyGrid Polygon Jordan Rays Outside Anywhere AnywhereCount Facing Area AreaGrid BoxArea.
Import ListNotations.
Local Open Scope N_scope.

Section Box.
Context {E : Env}.
Variables (vs : list vertex) (at_ : N -> point) (bound : Z) (fuel : nat) (n a b c d : N).
Hypothesis G : exact_input vs at_ bound.
Hypothesis Hid : 2 * lenN vs + 2 <= idmax.
Hypothesis Hb : (1 <= bound)%Z.
Hypothesis Hn : lenN vs = n + 4.
Hypothesis Pm : Permutation [a; b; c; d] [n; n + 1; n + 2; n + 3].
Hypothesis Bx : box_corners (at_ a) (at_ b) (at_ c) (at_ d).
Hypothesis Hin : forall v, v < n -> in_box (at_ a) (at_ c) (at_ v).

Lemma all_boxed v : v < lenN vs -> in_box (at_ a) (at_ c) (at_ v).
Proof.
  intros L. destruct (N.lt_ge_cases v n) as [H|H]; [exact (Hin v H)|].
  assert (I : In v [a; b; c; d]).
  { apply (Permutation_in _ (Permutation_sym Pm)). cbn. assert (v = n \/ v = n + 1 \/ v = n + 2 \/ v = n + 3) by lia. intuition. }
  destruct Bx as (B1 & B2 & B3 & B4 & B5 & B6). unfold in_box. destruct I as [<-|[<-|[<-|[<-|[]]]]]; repeat split; lra.
Qed.

Lemma corner_id : a < lenN vs.
Proof.
  assert (I : In a [n; n + 1; n + 2; n + 3]) by (apply (Permutation_in _ Pm); now left). destruct I as [<-|[<-|[<-|[<-|[]]]]]; lia.
Qed.

Lemma wide : (fst (at_ a) < fst (at_ c) /\ snd (at_ a) < snd (at_ c))%Q.
Proof. destruct Bx as (B1 & B2 & B3 & B4 & B5 & B6). split; lra. Qed.

Lemma area_dt : (4 * length vs + 12 <= fuel)%nat ->
  exists out, triangulation_from_2d_vertices fuel 1 vs = Ret out /\ (total_area at_ out == box_area (at_ a) (at_ c))%Q.
Proof.
  intros Hf.
  assert (Y : exists out, triangulation_from_2d_vertices fuel 1 vs = Ret out /\ forall p, covered at_ out p <-> in_box (at_ a) (at_ c) p).
  { revert Bx Hin. pair_input G. intros Bx' Hin'. destruct (grid_box_last vs px py bound G Hid fuel n a b c d Hf Hb Hn Pm Bx' Hin') as (out & R & C & _). exists out. auto. }
  destruct Y as (out & R & C). exists out. split; [exact R|].
  destruct (returned_valid vs at_ bound fuel 1 out G Hid Hf (or_introl R)) as (VM & Rg).
  assert (No : forall p, ~ on_constraint at_ [] p) by (intros p (e & s & [] & _)).
  rewrite (box_match at_ (lenN vs) out [] (at_ a) (at_ c) a VM Rg).
  - cbn [enclosed_area]. unfold box_area. ring.
  - constructor; [constructor|intros e []|intros e []|intros f []|intros e f []|intros e f []|intros e f s r []].
  - intros e [].
  - intros e [].
  - intros t p _ _. apply No.
  - exact wide.
  - intros p _. rewrite C. split; [intros H; split; [exact H|reflexivity]|intros (H & _); exact H].
  - intros t e _ [].
  - exact all_boxed.
  - split; [exact corner_id|split; reflexivity].
  - intros e [].
Qed.

Variable cs : list edge.
Hypothesis Hf : ((2 * length vs + 4) * (2 * length vs + 4) <= fuel)%nat.
Hypothesis Hcs : forall e, In e cs -> efrom e < lenN vs /\ eto e < lenN vs /\ clear_between at_ (lenN vs) (efrom e) (eto e).
Hypothesis Hstrict : forall e, In e cs -> in_open_box (at_ a) (at_ c) (at_ (efrom e)) /\ in_open_box (at_ a) (at_ c) (at_ (eto e)).

Lemma area_outside : simple_loops at_ cs -> cs <> [] -> (forall e, In e cs -> near at_ cs e (1#2) 0) ->
  exists out, constrained_triangulation_from_2d_vertices fuel 1 vs cs = Ret out /\
    (total_area at_ out == box_area (at_ a) (at_ c) + enclosed_area at_ cs)%Q.
Proof.
  intros SL NE Ne. 
  assert (I0 : exists e0, In e0 cs) by (destruct cs as [|e0 l]; [destruct (NE eq_refl)|exists e0; now left]). destruct I0 as (e0 & I0).
  destruct (value_box vs at_ bound fuel n a b c d G Hid Hf Hb Hn Pm Bx Hin cs Hcs 0 e0 SL I0 Ne) as (out & R & C).
  exists out. split; [exact R|]. assert (Hf' : (4 * length vs + 12 <= fuel)%nat) by nia.
  pose proof (meet_noncrossing at_ cs SL) as X.
  assert (Ends : forall e, In e cs -> efrom e < lenN vs /\ eto e < lenN vs) by (intros e I; destruct (Hcs e I) as (A & B & _); auto).
  destruct (returned_valid vs at_ bound fuel 1 out G Hid Hf' (or_intror (ex_intro _ cs R))) as (VM & Rg).
  pose proof (off_inside vs at_ bound fuel 1 cs out G Hid Hf' Ends X R) as Off.
  assert (Rs : forall t e, In t out -> In e cs -> respects at_ (lenN vs) out (efrom e) (eto e)).
  { intros t e T Ie. assert (H3 : 3 <= lenN vs) by lia.
    pose proof (sl_proper _ _ SL e Ie) as P. clear - G Hid Hf' R X Ie P H3. revert R X P. pair_input G. intros R X P.
    exact (proj1 (grid_cdt_edges vs px py bound G Hid fuel 1 Hf' cs e out H3 X Ie P R)). }
  apply (box_match at_ (lenN vs) out cs (at_ a) (at_ c) a VM Rg SL Ne Ends Off wide); [|exact Rs|exact all_boxed| |exact Hstrict].
  - intros p Nc. exact (proj2 (C p Nc)).
  - split; [exact corner_id|split; reflexivity].
Qed.
End Box.

Lemma turned_area at_ cs : (enclosed_area at_ (turned_loop cs) == - enclosed_area at_ cs)%Q.
Proof. induction cs as [|e l IH]; cbn [turned_loop map enclosed_area]; [reflexivity|]. fold (turned_loop l). rewrite IH. cbn [turned_edge efrom eto]. ring. Qed.

Lemma turned_twice cs : turned_loop (turned_loop cs) = cs.
Proof. unfold turned_loop. rewrite map_map. rewrite <- (map_id cs) at 2. apply map_ext. intros []. reflexivity. Qed.

Section Both.
Context {E : Env}.
Variables (vs : list vertex) (at_ : N -> point) (bound : Z) (fuel : nat) (n a b c d : N).
Hypothesis G : exact_input vs at_ bound.
Hypothesis Hid : 2 * lenN vs + 2 <= idmax.
Hypothesis Hf : ((2 * length vs + 4) * (2 * length vs + 4) <= fuel)%nat.
Hypothesis Hb : (1 <= bound)%Z.
Hypothesis Hn : lenN vs = n + 4.
Hypothesis Pm : Permutation [a; b; c; d] [n; n + 1; n + 2; n + 3].
Hypothesis Bx : box_corners (at_ a) (at_ b) (at_ c) (at_ d).
Hypothesis Hin : forall v, v < n -> in_box (at_ a) (at_ c) (at_ v).

Lemma area_both cs : (forall e, In e cs -> efrom e < lenN vs /\ eto e < lenN vs /\ clear_between at_ (lenN vs) (efrom e) (eto e)) ->
  (forall e, In e cs -> in_open_box (at_ a) (at_ c) (at_ (efrom e)) /\ in_open_box (at_ a) (at_ c) (at_ (eto e))) ->
  simple_loops at_ cs -> cs <> [] -> (forall e, In e cs -> near at_ cs e (1#2) 1) ->
  exists out out', constrained_triangulation_from_2d_vertices fuel 1 vs cs = Ret out /\
    constrained_triangulation_from_2d_vertices fuel 1 vs (turned_loop cs) = Ret out' /\
    (total_area at_ out == enclosed_area at_ cs /\ total_area at_ out' == box_area (at_ a) (at_ c) - enclosed_area at_ cs)%Q.
Proof.
  intros Hcs Hst SL NE Ne. pose proof (turned_loops at_ cs SL) as TS.
  destruct (box_border vs at_ bound fuel n a b c d cs G Hid Hf Hb Hn Pm Bx Hin Hcs SL Ne) as (out & R & _ & A).
  destruct (area_outside vs at_ bound fuel n a b c d G Hid Hb Hn Pm Bx Hin (turned_loop cs) Hf (turned_clear at_ _ cs Hcs)) as (out' & R' & A').
  - intros e I. apply in_map_iff in I. destruct I as (f & <- & I). destruct (Hst f I). cbn [turned_edge efrom eto]. auto.
  - exact TS.
  - intros Q. apply NE. destruct cs; [reflexivity|discriminate].
  - intros e I. apply turned_near. rewrite turned_twice. apply Ne. rewrite <- (turned_twice cs). now apply turned_in.
  - exists out, out'. split; [exact R|]. split; [exact R'|]. split; [exact A|]. rewrite A', turned_area. ring.
Qed.
End Both.
