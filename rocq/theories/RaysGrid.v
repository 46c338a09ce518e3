(** * RaysGrid: the number of triangles of an area with several loops, on exact inputs. *)

From Coq Require Import ZArith NArith List Bool QArith Qabs Qminmax Lqa Lia Permutation.
From Verif Require Import Base BaseFacts Arith Types Spec SpecBox SpecDomain SpecTally SpecWinding SpecFilling Infinite Triangulation Constrained
  GridSpec InputSpec GridApi GridCdt Winding Inside InsideGrid TallyGrid Germ GermCount Tally Tube Polygon Jordan Ring Diagonal Filling FillingGrid Rays.
Import ListNotations.
Local Open Scope N_scope.

Lemma total_opp (F G : edge -> Z) l : (forall e, F e = (- G e)%Z) -> total (map F l) = (- total (map G l))%Z.
Proof. intros H. induction l as [|e l IH]; [reflexivity|]. cbn [map]. rewrite !total_cons, IH, H. lia. Qed.

Section Boxed.
Context {E : Env}.
Variables (vs : list vertex) (at_ : N -> point) (bound : Z) (fuel : nat) (n a b c d : N).
Hypothesis G : exact_input vs at_ bound.
Hypothesis Hid : 2 * lenN vs + 2 <= idmax.
Hypothesis Hf : ((2 * length vs + 4) * (2 * length vs + 4) <= fuel)%nat.
Hypothesis Hb : (1 <= bound)%Z.
Hypothesis Hn : lenN vs = n + 4.
Hypothesis Pm : Permutation [a; b; c; d] [n; n + 1; n + 2; n + 3].
Hypothesis Bx : box_corners (at_ a) (at_ b) (at_ c) (at_ d).
Hypothesis Hin : forall v, v < n -> in_box (at_ a) (at_ c) (at_ v).

Definition sides_ok (cs : list edge) : Prop := forall e, In e cs -> efrom e < lenN vs /\ eto e < lenN vs /\ clear_between at_ (lenN vs) (efrom e) (eto e).

(** A vertex on the sides is at a corner. *)
Lemma on_corner at1 cs v : (forall e, In e cs -> clear_between at1 (lenN vs) (efrom e) (eto e)) -> simple_loops at1 cs -> v < lenN vs ->
  on_constraint at1 cs (at1 v) -> exists e, In e cs /\ same_place (at1 v) (at1 (efrom e)).
Proof.
  intros Cl SL V (e & s & Ie & Pe & (S1 & S2) & K). destruct (Q_dec s 0) as [[X|X]|X]; [exfalso; lra| |exists e; split; [exact Ie|]; apply (Ring.place_trans _ _ _ K); now apply along_zero].
  destruct (Q_dec s 1) as [[Y|Y]|Y]; [|exfalso; lra|].
  - exfalso. exact (Cl e Ie v s V (conj X Y) K).
  - destruct (sl_next _ _ SL e Ie) as (f & If & Vf). exists f. split; [exact If|]. apply (Ring.place_trans _ _ _ K).
    apply (Ring.place_trans _ (at1 (eto e))); [now apply along_one|exact Vf].
Qed.

(** The mesh of one polygon on its corners only. *)
Lemma only_polygon P : sides_ok P -> simple_polygon at_ P -> (exists p, ~ on_constraint at_ P p /\ (0 < winding at_ P p)%Z) ->
  exists at1 pk out, (forall v, v < lenN vs -> at1 v = at_ (pk v) /\ pk v < lenN vs) /\
    (forall e, In e P -> at1 (efrom e) = at_ (efrom e) /\ at1 (eto e) = at_ (eto e)) /\
    valid_mesh at1 (lenN vs) out /\ (forall t x, In t out -> tri_corner t x -> x < lenN vs) /\
    (forall p, ~ on_constraint at_ P p -> (covered at1 out p <-> winding at_ P p = 1%Z)) /\
    (forall v, v < lenN vs -> covered at1 out (at1 v) -> exists e, In e P /\ same_place (at1 v) (at_ (efrom e))) /\
    lenN out + 2 = lenN P.
Proof.
  intros Hcs SP Pos.
  assert (Ra : a < lenN vs /\ b < lenN vs /\ c < lenN vs /\ d < lenN vs /\ n <= a /\ n <= b /\ n <= c /\ n <= d).
  { assert (K : forall x, In x [a; b; c; d] -> n <= x < lenN vs) by (intros x I; apply (Permutation_in _ Pm) in I; cbn [In] in I; lia).
    pose proof (K a ltac:(cbn; auto)). pose proof (K b ltac:(cbn; auto)). pose proof (K c ltac:(cbn; auto)). pose proof (K d ltac:(cbn; auto)). lia. }
  destruct Ra as (La & Lb & Lc & Ld & Na & Nb & Nc & Nd).
  set (keep := fun v => (n <=? v) || existsb (fun e => (efrom e =? v) || (eto e =? v)) P).
  set (pk := fun v => if keep v then v else a).
  assert (Kn : forall v, n <= v -> pk v = v). { intros v V. unfold pk, keep. apply N.leb_le in V. now rewrite V. }
  assert (Ke : forall e, In e P -> pk (efrom e) = efrom e /\ pk (eto e) = eto e).
  { intros e I. unfold pk, keep. split.
    - assert (X : existsb (fun f => (efrom f =? efrom e) || (eto f =? efrom e)) P = true) by (apply existsb_exists; exists e; split; [exact I|now rewrite N.eqb_refl]).
      rewrite X, orb_true_r. reflexivity.
    - assert (X : existsb (fun f => (efrom f =? eto e) || (eto f =? eto e)) P = true) by (apply existsb_exists; exists e; split; [exact I|now rewrite N.eqb_refl, orb_true_r]).
      rewrite X, orb_true_r. reflexivity. }
  assert (Kind : forall v, v < lenN vs -> (n <= pk v < lenN vs) \/ exists e, In e P /\ (pk v = efrom e \/ pk v = eto e)).
  { intros v V. unfold pk. destruct (keep v) eqn:K; [|left; lia]. unfold keep in K. apply orb_true_iff in K. destruct K as [K|K]; [left; apply N.leb_le in K; lia|].
    right. apply existsb_exists in K. destruct K as (e & I & K). exists e. split; [exact I|]. apply orb_true_iff in K. destruct K as [K|K]; apply N.eqb_eq in K; auto. }
  assert (Pk : forall v, v < lenN vs -> pk v < lenN vs).
  { intros v V. destruct (Kind v V) as [K|(e & I & K)]; [lia|]. destruct (Hcs e I) as (A & B & _). destruct K as [-> | ->]; assumption. }
  assert (Ab : forall v, v < lenN vs -> in_box (at_ a) (at_ c) (at_ v)) by (intros v; exact (all_in_box vs at_ fuel n a b c d Hid Hf Hn Pm Bx Hin v)).
  destruct (moved_input vs bound a c pk La Lc (Kn a Na) (Kn c Nc) Pk at_ Ab G) as (at1 & G1 & Eq1).
  set (vs1 := moved_vs vs pk) in *. assert (Len : length vs1 = length vs) by (unfold vs1, moved_vs; rewrite map_length, seq_length; reflexivity).
  assert (LenN : lenN vs1 = lenN vs) by (unfold lenN; now rewrite Len).
  assert (Eqn : forall v, n <= v < lenN vs -> at1 v = at_ v) by (intros v V; rewrite (Eq1 v ltac:(lia)), Kn by lia; reflexivity).
  assert (Eqe : forall e, In e P -> at1 (efrom e) = at_ (efrom e) /\ at1 (eto e) = at_ (eto e)).
  { intros e I. destruct (Hcs e I) as (A & B & _). destruct (Ke e I) as (K1 & K2). rewrite (Eq1 _ A), (Eq1 _ B), K1, K2. auto. }
  pose proof (same_on at1 at_ P Eqe) as Son. pose proof (same_winding at1 at_ P Eqe) as Sw.
  assert (Within : forall p, ~ on_constraint at_ P p -> winding at_ P p = 1%Z -> within_box (at_ a) (at_ c) p).
  { intros p. exact (polygon_within vs at_ fuel n a b c d P Hid Hf Hn Pm Bx Hin Hcs SP p). }
  assert (EndOn : forall e, In e P -> on_constraint at_ P (at_ (efrom e)) /\ on_constraint at_ P (at_ (eto e))).
  { intros e I. pose proof (sl_proper _ _ (proj1 SP) e I) as Pe. split; [exists e, 0%Q|exists e, 1%Q]; (split; [exact I|]; split; [exact Pe|]; split; [lra|]); apply Ring.place_sym;
      [now apply along_zero|now apply along_one]. }
  assert (No1 : forall v, v < lenN vs -> ~ on_constraint at_ P (at1 v) -> winding at_ P (at1 v) <> 1%Z).
  { intros v V Nv W. rewrite (Eq1 v V) in *. destruct (Kind v V) as [K|(e & I & K)].
    - pose proof (Within _ Nv W) as Wb. unfold within_box in Wb. destruct Bx as (B1 & B2 & B3 & B4 & B5 & B6).
      destruct (corner_id vs fuel n a b c d Hid Hf Hn Pm (pk v)) as [L|[X|[X|[X|[X|L]]]]]; try (rewrite X in Wb); try lia; lra.
    - apply Nv. destruct (EndOn e I) as (A & B). destruct K as [-> | ->]; assumption. }
  assert (Bx1 : box_corners (at1 a) (at1 b) (at1 c) (at1 d)) by (rewrite !Eqn by lia; exact Bx).
  assert (Hin1 : forall v, v < n -> in_box (at1 a) (at1 c) (at1 v)).
  { intros v V. rewrite (Eqn a), (Eqn c), (Eq1 v) by lia. apply Ab. apply Pk. lia. }
  assert (Hcs1 : forall e, In e P -> efrom e < lenN vs1 /\ eto e < lenN vs1 /\ clear_between at1 (lenN vs1) (efrom e) (eto e)).
  { intros e I. rewrite LenN. destruct (Hcs e I) as (A & B & K). split; [exact A|]. split; [exact B|]. intros v s V S. destruct (Eqe e I) as (-> & ->).
    rewrite (Eq1 v V). exact (K (pk v) s (Pk v V) S). }
  pose proof (same_polygon at1 at_ P Eqe SP) as SP1.
  assert (Pos1 : exists p, ~ on_constraint at1 P p /\ (0 < winding at1 P p)%Z) by (destruct Pos as (p & A & B); exists p; rewrite Son, Sw; auto).
  destruct (box_empty vs1 at1 bound fuel n a b c d P G1 ltac:(rewrite LenN; exact Hid) ltac:(rewrite Len; exact Hf) Hb ltac:(rewrite LenN; exact Hn) Pm Bx1 Hin1 Hcs1 SP1 Pos1) as (out1 & R1 & L1).
  { rewrite LenN. intros v V Nv. rewrite Son in Nv. rewrite Sw. exact (No1 v V Nv). }
  destruct (box_polygon vs1 at1 bound fuel n a b c d P G1 ltac:(rewrite LenN; exact Hid) ltac:(rewrite Len; exact Hf) Hb ltac:(rewrite LenN; exact Hn) Pm Bx1 Hin1 Hcs1 SP1 Pos1) as (out & R & VM & Rg & _ & C).
  assert (Q : out1 = out) by congruence. subst out1. rewrite LenN in VM, Rg.
  assert (Cov : forall p, ~ on_constraint at_ P p -> (covered at1 out p <-> winding at_ P p = 1%Z)) by (intros p Np; rewrite <- (Sw p); apply C; rewrite Son; exact Np).
  exists at1, pk, out. split; [intros v V; split; [exact (Eq1 v V)|exact (Pk v V)]|]. split; [exact Eqe|]. split; [exact VM|]. split; [exact Rg|]. split; [exact Cov|].
  split; [|exact L1]. intros v V Cv. destruct (on_constraint_dec at_ P (at1 v)) as [On|Off].
  - apply Son in On. destruct (on_corner at1 P v) as (e & I & K); [|exact (proj1 SP1)|exact V|exact On|].
    + intros e I. destruct (Hcs1 e I) as (_ & _ & K). rewrite LenN in K. exact K.
    + exists e. split; [exact I|]. destruct (Eqe e I) as (<- & _). exact K.
  - exfalso. exact (No1 v V Off (proj1 (Cov _ Off) Cv)).
Qed.

Section Direction.
Variables (m e0 : Q).
Hypothesis Generic : forall u v, u < lenN vs -> v < lenN vs -> ~ same_place (at_ u) (at_ v) -> ~ (height m (at_ u) == height m (at_ v))%Q.
Hypothesis E0 : (0 < e0)%Q.

Lemma polygon_rays P us : sides_ok P -> simple_polygon at_ P -> (exists p, ~ on_constraint at_ P p /\ (0 < winding at_ P p)%Z) ->
  NoDup us -> (forall u v, In u us -> In v us -> same_place (at_ u) (at_ v) -> u = v) ->
  (forall u, In u us -> exists e, In e P /\ (u = efrom e \/ u = eto e)) ->
  (forall e, In e P -> exists u, In u us /\ same_place (at_ (efrom e)) (at_ u)) ->
  (forall u, In u us -> clear_rays m at_ P e0 u) ->
  total (map (rays m at_ P e0) us) = (Z.of_nat (length P) - 2)%Z.
Proof.
  intros Hcs SP Pos ND Dis Ends All Cl.
  destruct (only_polygon P Hcs SP Pos) as (at1 & pk & out & Pk & Eqe & VM & Rg & Cov & Co & L).
  pose proof (same_on at1 at_ P Eqe) as Son. pose proof (same_winding at1 at_ P Eqe) as Sw.
  assert (Equ : forall u, In u us -> at1 u = at_ u).
  { intros u U. destruct (Ends u U) as (e & I & [-> | ->]); apply (Eqe e I). }
  assert (Er : map (rays m at1 P e0) us = map (rays m at_ P e0) us).
  { apply map_ext_in. intros u U. unfold rays. rewrite (Equ u U), !Sw. reflexivity. }
  rewrite <- Er. rewrite <- (mesh_rays m at1 (lenN vs) out P e0 us VM Rg).
  - unfold lenN in L. lia.
  - intros u v U V D. destruct (Pk u U) as (Qu & U'). destruct (Pk v V) as (Qv & V'). rewrite Qu, Qv in *. exact (Generic _ _ U' V' D).
  - exact (proj1 (same_polygon at1 at_ P Eqe SP)).
  - intros p Np. rewrite Sw. rewrite Son in Np. exact (polygon_values at_ P SP Pos p Np).
  - intros p Np. rewrite Sw. rewrite Son in Np. exact (Cov p Np).
  - exact ND.
  - intros u v U V. rewrite (Equ u U), (Equ v V). exact (Dis u v U V).
  - intros u U. destruct (Ends u U) as (e & I & K). destruct (Hcs e I) as (A & B & _). destruct K as [-> | ->]; assumption.
  - exact E0.
  - intros u U b' e Le. rewrite Son, (Equ u U). exact (Cl u U b' e Le).
  - intros v V Cv. destruct (Co v V Cv) as (e & I & K). destruct (All e I) as (u & U & K'). exists u. split; [exact U|]. rewrite (Equ u U). exact (Ring.place_trans _ _ _ K K').
Qed.

(** The rays of one loop among the others. *)
Lemma loop_rays L M : sides_ok (L ++ M) -> simple_loops at_ (L ++ M) -> simple_polygon at_ L -> simple_loops at_ M ->
  (forall e, In e (L ++ M) -> near at_ (L ++ M) e (1#2) 1) -> (forall e, In e L -> clear_rays m at_ (L ++ M) e0 (efrom e)) ->
  ((exists p, ~ on_constraint at_ L p /\ (0 < winding at_ L p)%Z) -> total (map (fun e => rays m at_ (L ++ M) e0 (efrom e)) L) = (Z.of_nat (length L) - 2)%Z) /\
  ((exists p, ~ on_constraint at_ L p /\ (winding at_ L p < 0)%Z) -> total (map (fun e => rays m at_ (L ++ M) e0 (efrom e)) L) = (Z.of_nat (length L) + 2)%Z).
Proof.
  intros Hcs SC SP SM Ne Cl. pose proof (proj1 SP) as SL.
  assert (HL : sides_ok L) by (intros e I; apply Hcs; apply in_or_app; auto).
  assert (ClL : forall e, In e L -> clear_rays m at_ L e0 (efrom e)).
  { intros e I. apply (clear_sub m at_ L (L ++ M)); [intros f J; apply in_or_app; auto|exact (Cl e I)]. }
  assert (ND : NoDup (map efrom L)).
  { apply NoDup_nth_error. intros i j Li Q. rewrite map_length in Li. apply (proj1 (NoDup_nth_error L) (sl_once _ _ SL)); [exact Li|].
    rewrite !nth_error_map in Q. destruct (nth_error L i) as [e|] eqn:Ei; [|apply nth_error_None in Ei; lia]. cbn in Q. destruct (nth_error L j) as [f|] eqn:Ej; [|discriminate Q].
    cbn in Q. injection Q as Q. f_equal. apply (sl_start _ _ SL e f); [eapply nth_error_In; eauto..|]. rewrite Q. apply Ring.place_refl. }
  assert (Dis : forall u v, In u (map efrom L) -> In v (map efrom L) -> same_place (at_ u) (at_ v) -> u = v).
  { intros u v U V K. apply in_map_iff in U, V. destruct U as (e & <- & U), V as (f & <- & V). f_equal. exact (sl_start _ _ SL e f U V K). }
  assert (Near : forall z, (forall e, In e L -> near at_ L e (1#2) z) ->
    total (map (fun e => rays m at_ (L ++ M) e0 (efrom e)) L) = (total (map (fun e => rays m at_ L e0 (efrom e)) L) + 2 * (1 - z) * Z.of_nat (length L))%Z).
  { intros z Nz. apply total_offset. intros e I. apply (offset m at_ L M e z e0 SC SL SM I); auto. apply Ne. apply in_or_app. auto. }
  split; intros Pos.
  - rewrite (Near 1%Z (polygon_inside at_ L SL (proj2 SP) Pos)). rewrite <- (map_map efrom (rays m at_ L e0)). rewrite (polygon_rays L (map efrom L) HL SP Pos ND Dis).
    + lia.
    + intros u U. apply in_map_iff in U. destruct U as (e & <- & I). exists e. auto.
    + intros e I. exists (efrom e). split; [now apply in_map|apply Ring.place_refl].
    + intros u U. apply in_map_iff in U. destruct U as (e & <- & I). exact (ClL e I).
  - pose proof (turned_polygon at_ L SP) as TP.
    assert (TPos : exists p, ~ on_constraint at_ (turned_loop L) p /\ (0 < winding at_ (turned_loop L) p)%Z).
    { destruct Pos as (p & A & B). exists p. rewrite turned_on, turned_winding. split; [exact A|lia]. }
    assert (N0 : forall e, In e L -> near at_ L e (1#2) 0).
    { intros e I. apply turned_near. apply (polygon_inside at_ (turned_loop L) (proj1 TP) (proj2 TP) TPos). now apply turned_in. }
    rewrite (Near 0%Z N0).
    assert (K : total (map (rays m at_ (turned_loop L) e0) (map efrom L)) = (Z.of_nat (length (turned_loop L)) - 2)%Z).
    { apply polygon_rays; auto.
      - intros e I. apply in_map_iff in I. destruct I as (f & <- & I). destruct (HL f I) as (A & B & C). cbn [turned_edge efrom eto]. split; [exact B|]. split; [exact A|].
        intros v s V S X. apply (C v (1 - s)%Q V); [lra|]. apply (Ring.place_trans _ _ _ X). unfold along; split; cbn [fst snd]; ring.
      - intros u U. apply in_map_iff in U. destruct U as (e & <- & I). exists (turned_edge e). split; [now apply turned_in|]. now right.
      - intros e I. apply in_map_iff in I. destruct I as (f & <- & I). destruct (sl_next _ _ SL f I) as (g & J & V). exists (efrom g). split; [now apply in_map|]. exact V.
      - intros u U. apply in_map_iff in U. destruct U as (e & <- & I). intros b' x Lx X. apply (proj1 (turned_on at_ L _)) in X. exact (ClL e I b' x Lx X). }
    assert (K' : total (map (fun e => rays m at_ L e0 (efrom e)) L) = (- total (map (rays m at_ (turned_loop L) e0) (map efrom L)))%Z).
    { rewrite map_map. apply total_opp. intros e. rewrite turned_rays. lia. }
    rewrite K', K. unfold turned_loop. rewrite map_length. lia.
Qed.
End Direction.

(** ** All loops *)
Lemma values_near cs : simple_loops at_ cs -> (forall p, ~ on_constraint at_ cs p -> winding at_ cs p = 0%Z \/ winding at_ cs p = 1%Z) ->
  forall e, In e cs -> near at_ cs e (1#2) 1.
Proof.
  intros SL Vals e I. destruct (near_exists at_ cs SL e (1#2) I half) as (z & r1 & R1 & K1).
  destruct (clear_but at_ cs SL e (1#2) I half) as (r & R & C).
  pose proof (Q.min_glb_lt _ _ _ R R1) as Mi. pose proof (Q.le_min_l r r1) as M1. pose proof (Q.le_min_r r r1) as M2. set (r0 := Qmin r r1) in *. clearbody r0.
  assert (Sq : forall x y k q, (x <= y)%Q -> square k x q -> square k y q) by (intros x y k q L; now apply square_less).
  destruct (jump at_ cs SL e (1#2) r0 I half Mi) as (p & q & P & Q & Op & Oq & J).
  { intros q Q. apply C. exact (Sq _ _ _ _ M1 Q). }
  assert (Off : forall x, square (along (at_ (efrom e)) (at_ (eto e)) (1#2)) r0 x -> ~ (orient (at_ (efrom e)) (at_ (eto e)) x == 0)%Q -> ~ on_constraint at_ cs x).
  { intros x X O (f & u & If & _ & U & K). destruct (edge_dec f e) as [->|Ne].
    - apply O. rewrite (Polygon.orient_place _ _ _ _ K). apply orient_on.
    - exact (C x (Sq _ _ _ _ M1 X) f u If Ne U K). }
  assert (Z1 : z = 1%Z).
  { pose proof (Vals p (Off p P ltac:(lra))) as Vp. pose proof (Vals q (Off q Q ltac:(lra))) as Vq. pose proof (proj1 (K1 p (Sq _ _ _ _ M2 P)) Op) as W. lia. }
  subst z. exists r1. split; [exact R1|exact K1].
Qed.

Lemma simple_perm l l' : Permutation l l' -> simple_loops at_ l -> simple_loops at_ l'.
Proof.
  intros P [A1 A2 A3 A4 A5 A6 A7]. assert (B : forall e, In e l' -> In e l) by (intros e; apply Permutation_in; now apply Permutation_sym).
  assert (F : forall e, In e l -> In e l') by (intros e; now apply Permutation_in). constructor; auto.
  - now apply (Permutation_NoDup P).
  - intros e I. destruct (A3 e (B e I)) as (f & J & V). eauto.
  - intros e I. destruct (A4 e (B e I)) as (f & J & V). eauto.
  - intros e f s r I J. apply A7; auto.
Qed.

Lemma winding_perm l l' p : Permutation l l' -> winding at_ l p = winding at_ l' p.
Proof. intros P. unfold winding. apply (Ring.total_perm). now apply Permutation_map. Qed.

Lemma near_perm l l' e s z : Permutation l l' -> near at_ l e s z -> near at_ l' e s z.
Proof. intros P (r & R & K). exists r. split; [exact R|]. intros q Q. rewrite <- (winding_perm l l' q P). exact (K q Q). Qed.

Lemma total_concat (F : edge -> Z) (Ls : list (list edge)) k : (forall L, In L Ls -> total (map F L) = (Z.of_nat (length L) + k)%Z) ->
  total (map F (concat Ls)) = (Z.of_nat (length (concat Ls)) + k * Z.of_nat (length Ls))%Z.
Proof.
  induction Ls as [|L Ls IH]; intros H; [cbn; lia|]. cbn [concat length]. rewrite map_app, total_app, app_length, IH by (intros x X; apply H; now right).
  rewrite (H L) by now left. lia.
Qed.

Lemma box_loops_count cs outer holes inner :
  Permutation cs (concat (outer ++ holes)) -> sides_ok cs -> simple_loops at_ cs ->
  (forall L, In L (outer ++ holes) -> simple_polygon at_ L) ->
  (forall L, In L outer -> exists p, ~ on_constraint at_ L p /\ (0 < winding at_ L p)%Z) ->
  (forall L, In L holes -> exists p, ~ on_constraint at_ L p /\ (winding at_ L p < 0)%Z) ->
  (forall p, ~ on_constraint at_ cs p -> winding at_ cs p = 0%Z \/ winding at_ cs p = 1%Z) ->
  inside_vertices at_ (lenN vs) cs inner ->
  exists out, constrained_triangulation_from_2d_vertices fuel 1 vs cs = Ret out /\
    lenN out + 2 * lenN outer = lenN cs + 2 * lenN holes + 2 * lenN inner.
Proof.
  intros Ec Hcs SL Pol Out Hol Vals [Inn Dis All].
  pose proof (values_near cs SL Vals) as Ne.
  destruct (box_call vs at_ bound fuel n a b c d cs G Hid Hf Hb Hn Pm Bx Hin) as (out & R & VM & Rg & Of & C).
  { intros e I. destruct (Hcs e I) as (A & B & K). auto. }
  { exact (meet_noncrossing at_ cs SL). }
  exists out. split; [exact R|].
  assert (Ab : forall v, v < lenN vs -> in_box (at_ a) (at_ c) (at_ v)) by (intros v; exact (all_in_box vs at_ fuel n a b c d Hid Hf Hn Pm Bx Hin v)).
  assert (Cov : forall p, ~ on_constraint at_ cs p -> (covered at_ out p <-> winding at_ cs p = 1%Z)).
  { intros p Np. rewrite (C p Np). rewrite (winding_domain at_ cs (simple_closed at_ cs SL) (near_inside at_ cs SL Ne) p Np).
    split; [intros (_ & W); destruct (Vals p Np); lia|]. intros W. split; [|lia].
    assert (Dec : in_box (at_ a) (at_ c) p \/ ~ in_box (at_ a) (at_ c) p).
    { unfold in_box. destruct (Qlt_le_dec (fst p) (fst (at_ a))); [right; lra|]. destruct (Qlt_le_dec (fst (at_ c)) (fst p)); [right; lra|].
      destruct (Qlt_le_dec (snd p) (snd (at_ a))); [right; lra|]. destruct (Qlt_le_dec (snd (at_ c)) (snd p)); [right; lra|]. left. repeat split; assumption. }
    destruct Dec as [D|D]; [exact D|]. rewrite (winding_outside at_ cs (simple_closed at_ cs SL) (at_ a) (at_ c)) in W; [discriminate W| |exact D].
    intros e I. destruct (Hcs e I) as (A & B & _). split; now apply Ab. }
  destruct (direction (map at_ (map N.of_nat (seq 0 (N.to_nat (lenN vs))))) []) as (m & _ & Gen).
  assert (Ge : forall u v, u < lenN vs -> v < lenN vs -> ~ same_place (at_ u) (at_ v) -> ~ (height m (at_ u) == height m (at_ v))%Q).
  { intros u v U V. apply Gen; apply in_map; apply in_rangeN'; lia. }
  assert (Hts : forall f, In f cs -> ~ (height m (at_ (efrom f)) == height m (at_ (eto f)))%Q).
  { intros f I. destruct (Hcs f I) as (A & B & _). apply Ge; [exact A|exact B|exact (sl_proper _ _ SL f I)]. }
  set (all := inner ++ map efrom cs).
  destruct (rays_clear m at_ cs all Hts) as (e0 & E0 & Cl).
  assert (On : forall e, In e cs -> on_constraint at_ cs (at_ (efrom e))).
  { intros e I. exists e, 0%Q. split; [exact I|]. split; [exact (sl_proper _ _ SL e I)|]. split; [lra|]. apply Ring.place_sym. now apply along_zero. }
  assert (DisI : forall u v, In u inner -> In v inner -> same_place (at_ u) (at_ v) -> u = v).
  { intros u v U V P. destruct (ordpairs_in _ _ Dis u v U V) as [K|[K|K]]; [exact K|destruct (K P)|destruct (K (Ring.place_sym _ _ P))]. }
  assert (DisC : forall u v, In u (map efrom cs) -> In v (map efrom cs) -> same_place (at_ u) (at_ v) -> u = v).
  { intros u v U V K. apply in_map_iff in U, V. destruct U as (e & <- & U), V as (f & <- & V). f_equal. exact (sl_start _ _ SL e f U V K). }
  assert (Mix : forall u v, In u inner -> In v (map efrom cs) -> same_place (at_ u) (at_ v) -> False).
  { intros u v U V K. apply in_map_iff in V. destruct V as (e & <- & V). destruct (Inn u U) as (_ & Nu & _). apply Nu.
    apply (on_place at_ cs _ _ (Ring.place_sym _ _ K)). exact (On e V). }
  assert (NDc : NoDup (map efrom cs)).
  { apply NoDup_nth_error. intros i j Li Q. rewrite map_length in Li. apply (proj1 (NoDup_nth_error cs) (sl_once _ _ SL)); [exact Li|].
    rewrite !nth_error_map in Q. destruct (nth_error cs i) as [e|] eqn:Ei; [|apply nth_error_None in Ei; lia]. cbn in Q. destruct (nth_error cs j) as [f|] eqn:Ej; [|discriminate Q].
    cbn in Q. injection Q as Q. f_equal. apply (sl_start _ _ SL e f); [eapply nth_error_In; eauto..|]. rewrite Q. apply Ring.place_refl. }
  assert (Count : Z.of_nat (length out) = total (map (rays m at_ cs e0) all)).
  { apply (mesh_rays m at_ (lenN vs) out cs e0 all VM Rg Ge SL Vals Cov).
    - unfold all. apply nodup_both; [refine (ordpairs_nodup _ _ _ Dis); intros x X; exact (X (Ring.place_refl _))|exact NDc|].
      intros x P Q. exact (Mix x x P Q (Ring.place_refl _)).
    - intros u v U V K. unfold all in U, V. apply in_app_or in U, V. destruct U as [U|U], V as [V|V]; [exact (DisI u v U V K)|destruct (Mix u v U V K)|destruct (Mix v u V U (Ring.place_sym _ _ K))|exact (DisC u v U V K)].
    - intros u U. unfold all in U. apply in_app_or in U. destruct U as [U|U]; [exact (proj1 (Inn u U))|]. apply in_map_iff in U. destruct U as (e & <- & I). exact (proj1 (Hcs e I)).
    - exact E0.
    - exact Cl.
    - intros v V Cv. destruct (on_constraint_dec at_ cs (at_ v)) as [Ov|Nv].
      + destruct (on_corner at_ cs v (fun e I => proj2 (proj2 (Hcs e I))) SL V Ov) as (e & I & K). exists (efrom e). split; [apply in_or_app; right; now apply in_map|exact K].
      + destruct (All v V Nv (proj1 (Cov _ Nv) Cv)) as (u & U & K). exists u. split; [apply in_or_app; now left|now apply Ring.place_sym]. }
  assert (Ci : total (map (rays m at_ cs e0) inner) = (2 * Z.of_nat (length inner))%Z).
  { assert (K : forall u, In u inner -> rays m at_ cs e0 u = 2%Z).
    { intros u U. destruct (Inn u U) as (_ & Nu & Wu). apply rays_inside; auto. apply Cl. apply in_or_app. now left. }
    clear - K. induction inner as [|u l IH]; [reflexivity|]. cbn [map length]. rewrite total_cons, IH, K; [lia|now left|intros v V; apply K; now right]. }
  assert (Share : forall L, In L (outer ++ holes) ->
    ((exists p, ~ on_constraint at_ L p /\ (0 < winding at_ L p)%Z) -> total (map (fun e => rays m at_ cs e0 (efrom e)) L) = (Z.of_nat (length L) - 2)%Z) /\
    ((exists p, ~ on_constraint at_ L p /\ (winding at_ L p < 0)%Z) -> total (map (fun e => rays m at_ cs e0 (efrom e)) L) = (Z.of_nat (length L) + 2)%Z)).
  { intros L IL. destruct (in_split _ _ IL) as (A & B & Q).
    assert (P : Permutation cs (L ++ concat (A ++ B))).
    { apply (Permutation_trans Ec). rewrite Q, !concat_app. cbn [concat]. rewrite !app_assoc. apply Permutation_app_tail. apply Permutation_app_comm. }
    set (M := concat (A ++ B)) in *.
    assert (Back : forall e, In e (L ++ M) -> In e cs) by (intros e; apply Permutation_in; now apply Permutation_sym).
    pose proof (simple_perm _ _ P SL) as SC.
    assert (Lm : forall e, In e M -> exists L', In L' (outer ++ holes) /\ In e L' /\ incl L' M).
    { intros e I. unfold M in I. apply in_concat in I. destruct I as (L' & I' & I). exists L'. split; [|split; [exact I|]].
      - rewrite Q. apply in_app_or in I'. apply in_or_app. destruct I' as [I'|I']; [now left|right; now right].
      - intros f J. apply in_concat. exists L'. auto. }
    assert (SM : simple_loops at_ M).
    { apply (part_loops at_ M cs SL).
      - pose proof (sl_once _ _ SC) as ND. clear - ND. induction L as [|x l IH]; [exact ND|]. cbn [app] in ND. inversion ND; subst. auto.
      - intros e I. apply Back. apply in_or_app. now right.
      - intros e I. destruct (Lm e I) as (L' & J & K & H). destruct (sl_next _ _ (proj1 (Pol L' J)) e K) as (f & If & V). exists f. split; [exact (H f If)|exact V].
      - intros e I. destruct (Lm e I) as (L' & J & K & H). destruct (sl_prev _ _ (proj1 (Pol L' J)) e K) as (f & If & V). exists f. split; [exact (H f If)|exact V]. }
    assert (Er : map (fun e => rays m at_ cs e0 (efrom e)) L = map (fun e => rays m at_ (L ++ M) e0 (efrom e)) L).
    { apply map_ext. intros e. unfold rays. rewrite !(winding_perm _ _ _ P). reflexivity. }
    rewrite Er. apply (loop_rays m e0 Ge E0 L M).
    - intros e I. exact (Hcs e (Back e I)).
    - exact SC.
    - exact (Pol L IL).
    - exact SM.
    - intros e I. apply (near_perm _ _ _ _ _ P). exact (Ne e (Back e I)).
    - intros e I. apply (clear_sub m at_ (L ++ M) cs); [exact Back|]. apply Cl. apply in_or_app. right. apply in_map. apply Back. apply in_or_app. now left. }
  unfold all in Count. rewrite map_app, total_app, Ci, map_map in Count.
  assert (Cs : total (map (fun e => rays m at_ cs e0 (efrom e)) cs) = (Z.of_nat (length (concat outer)) + (-2) * Z.of_nat (length outer) + (Z.of_nat (length (concat holes)) + 2 * Z.of_nat (length holes)))%Z).
  { assert (Sp : forall F : edge -> Z, total (map F cs) = (total (map F (concat outer)) + total (map F (concat holes)))%Z) by (intros F; rewrite (Ring.total_perm _ _ (Permutation_map F Ec)), concat_app, map_app, total_app; reflexivity).
    rewrite Sp. f_equal; apply total_concat; intros L IL.
    - rewrite (proj1 (Share L (in_or_app _ _ _ (or_introl IL))) (Out L IL)). lia.
    - rewrite (proj2 (Share L (in_or_app _ _ _ (or_intror IL))) (Hol L IL)). lia. }
  rewrite Cs in Count. assert (Lc : length cs = (length (concat outer) + length (concat holes))%nat) by (rewrite (Permutation_length Ec), concat_app, app_length; reflexivity).
  unfold lenN. lia.
Qed.
End Boxed.
