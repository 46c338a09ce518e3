(** * GridApi: the theorems about exact predicates, for the inputs of [GridSpec.v]. *)

From Coq Require Import ZArith NArith List Bool Lia QArith Lqa.
From Verif Require Import Base BaseFacts Arith Types Utils Infinite Triangulation Geom Mesh Exact ExactC
  DTExact Spec DTOut Rep Norm Near SFRep QExact Grid64 SepNorm GridSpec GridNum InputSpec.
Import ListNotations.
Local Open Scope N_scope.

Lemma fits_two side l mx my : (1 <= side)%Z -> fits side l mx my ->
  exists p p', In p l /\ In p' l /\ (fst p <> fst p' \/ snd p <> snd p').
Proof.
  intros H1 (_ & (p & Hp & Ep) & (q & Hq & Eq) & (r & Hr & Er)).
  destruct Er as [Er|Er].
  - exists p, r. repeat split; auto. left. lia.
  - exists q, r. repeat split; auto. right. lia.
Qed.

Lemma on_grid_len {E : Env} vs l bound : on_grid vs l bound -> length vs = length l /\ 2 <= lenN vs.
Proof.
  intros (val & side & mx & my & Gr & F2 & Fi & B).
  assert (L : length vs = length l) by exact (Forall2_len _ _ _ F2).
  split; auto. unfold lenN. rewrite L.
  destruct (grid_rep _ _ _ _ Gr) as (_ & _ & _ & _ & _ & _ & _ & S1 & _).
  destruct (fits_two _ _ _ _ S1 Fi) as (p & p' & A & A' & Hd).
  destruct l as [|x [|y l]]; simpl in *; [easy| |lia].
  exfalso. destruct A as [->|[]], A' as [->|[]]. destruct Hd; congruence.
Qed.

Lemma grid_api {E : Env} (vs : list vertex) l bound : on_grid vs l bound -> 2 * lenN vs + 2 <= idmax ->
  Exact (normalized vs) (zpx l) (zpy l) /\ ExactC (normalized vs) (zpx l) (zpy l) /\
  forall bins, 1 <= bins -> (Z.of_N bins <= bound)%Z -> exists order, bin_sort bins (normalized vs) = Ret order.
Proof.
  intros G Hid. pose proof (on_grid_len _ _ _ G) as (_ & L2).
  destruct G as (val & side & mx & my & Gr & F2 & Fi & B).
  destruct (grid_rep _ _ _ _ Gr) as (rep & repr & pb & ep & R & -> & Hv & S1 & R4 & R2 & Se).
  destruct (int_grid_exact rep repr pb ep R side S1 R4 R2 Se vs l mx my) as (X & XC & U).
  - clear - F2 Hv. induction F2 as [|v p vs l (A & A') F IH]; constructor; auto. split; now apply Hv.
  - exact Fi.
  - exact B.
  - unfold INF0. lia.
  - lia.
  - split; auto. split; auto. intros bins H1 Hb. now apply (bin_sort_total rep repr pb ep R).
Qed.


(** ** The well separated inputs *)
Lemma precision_near E val bound eps : precision E val bound eps ->
  exists rep repr pb ep rnd u, @Rep E rep repr pb ep /\ @Near E rep rnd u /\ (ep == 2 * u)%Q /\ (eps == 2 * u)%Q /\
    bound = (2 ^ (pb - 10))%Z /\ forall x q, val x q <-> rep x q.
Proof.
  destruct 1 as [maxid|maxid|maxid].
  - exists Qeq, any, 50%Z, (1 # 4503599627370496)%Q, Qeq, (1 # 9007199254740992)%Q.
    split; [apply Q_rep|]. split; [apply Q_near|]. repeat split; auto.
  - exists (repF 53 1024), (reprF 53 1024), 50%Z, eps64, (rndF 53 1024), (1 # 9007199254740992)%Q.
    split; [apply f64_rep|]. split; [apply f64_near|]. split; [reflexivity|]. split; [reflexivity|]. split; [reflexivity|]. apply sf_is_rep.
  - exists (repF 24 128), (reprF 24 128), 23%Z, eps32, (rndF 24 128), (1 # 16777216)%Q.
    split; [apply f32_rep|]. split; [apply f32_near|]. split; [reflexivity|]. split; [reflexivity|]. split; [reflexivity|]. apply sf_is_rep.
Qed.

Lemma qincircle_inc a b c d : (qincircle a b c d == inc a b c d)%Q \/ (qincircle a b c d == - inc a b c d)%Q.
Proof. first [left; unfold qincircle, inc, incircle, sqdist; ring | right; unfold qincircle, inc, incircle, sqdist; ring]. Qed.

Lemma well_separate eps s u l : (eps == 2 * u)%Q -> well_separated eps s l -> separate u l s.
Proof.
  intros Eu [W1 W2 W3 W4]. constructor.
  - intros a b A B. destruct (W1 a b A B) as [K|K]; auto. right. rewrite Eu in K. lra.
  - intros a b A B. destruct (W2 a b A B) as [K|K]; auto. right. rewrite Eu in K. lra.
  - intros a b c A B C. destruct (W3 a b c A B C) as [K|K]; [left; exact K|]. right. rewrite Eu in K.
    change (ori a b c) with (orient a b c). lra.
  - intros a b c d A B C D K1 K2. destruct (W4 a b c d A B C D K1 K2) as [K|K]; [left; exact K|]. right. rewrite Eu in K.
    assert (Q : (Qabs.Qabs (qincircle a b c d) == Qabs.Qabs (inc a b c d))%Q).
    { destruct (qincircle_inc a b c d) as [J|J]; rewrite J; [reflexivity|apply Qabs.Qabs_opp]. }
    rewrite Q in K. lra.
Qed.

Lemma extent_two l s : extent l s -> (2 <= length l)%nat.
Proof.
  intros (mx & my & S & _ & (p & Hp & Ep) & (q & Hq & Eq) & (r & Hr & Er)).
  destruct l as [|x [|y l]]; simpl in *; [easy| |lia].
  exfalso. destruct Hp as [->|[]], Hq as [->|[]], Hr as [->|[]]. destruct Er; lra.
Qed.

Lemma separated_len {E : Env} (vs : list vertex) l bound : separated vs l bound -> length vs = length l /\ 2 <= lenN vs.
Proof.
  intros (val & eps & s & _ & F2 & _ & Ex & _).
  assert (L : length vs = length l) by exact (Forall2_len _ _ _ F2).
  split; auto. unfold lenN. rewrite L. apply extent_two in Ex. lia.
Qed.

Lemma separated_api {E : Env} (vs : list vertex) l bound : separated vs l bound -> 2 * lenN vs + 2 <= idmax ->
  Exact (normalized vs) (qpx l) (qpy l) /\ ExactC (normalized vs) (qpx l) (qpy l) /\
  forall bins, 1 <= bins -> (Z.of_N bins <= bound)%Z -> exists order, bin_sort bins (normalized vs) = Ret order.
Proof.
  intros G Hid. pose proof (separated_len _ _ _ G) as (_ & L2).
  destruct G as (val & eps & s & Pr & F2 & B & (mx & my & Ex) & W).
  destruct (precision_near _ _ _ _ Pr) as (rep & repr & pb & ep & rnd & u & R & Nr & Eu & Eu' & -> & Hv).
  destruct (separate_exact rep repr pb ep R rnd u Nr Eu vs l mx my s) as (X & XC & U).
  - clear - F2 Hv. induction F2 as [|v p vs l (A & A') F IH]; constructor; auto. split; now apply Hv.
  - intros p Hp. destruct (B p Hp) as (B1 & B2). apply Qabs.Qabs_Qlt_condition in B1, B2. split; [exact B1|exact B2].
  - exact Ex.
  - exact (well_separate _ _ _ _ Eu' W).
  - unfold INF0. lia.
  - lia.
  - split; auto. split; auto. intros bins H1 Hb. now apply (bin_sort_total rep repr pb ep R).
Qed.

(** ** Both families *)
Definition pair_at (px py : N -> Q) (v : N) : point := (px v, py v).

Lemma input_pair {E : Env} (vs : list vertex) at_ bound : exact_input vs at_ bound -> exists px py, at_ = pair_at px py.
Proof.
  intros [l b _|l b _].
  - exists (zpx l), (zpy l). reflexivity.
  - exists (qpx l), (qpy l). reflexivity.
Qed.

Lemma input_facts {E : Env} (vs : list vertex) at_ bound : exact_input vs at_ bound ->
  2 <= lenN vs /\ exists px' py', at_ = pair_at px' py' /\ (2 * lenN vs + 2 <= idmax ->
    Exact (normalized vs) px' py' /\ ExactC (normalized vs) px' py' /\
    forall bins, 1 <= bins -> (Z.of_N bins <= bound)%Z -> exists order, bin_sort bins (normalized vs) = Ret order).
Proof.
  intros [l b G|l b G].
  - split; [exact (proj2 (on_grid_len _ _ _ G))|]. exists (zpx l), (zpy l). split; [reflexivity|]. exact (grid_api vs l b G).
  - split; [exact (proj2 (separated_len _ _ _ G))|]. exists (qpx l), (qpy l). split; [reflexivity|]. exact (separated_api vs l b G).
Qed.

Lemma input_len {E : Env} (vs : list vertex) at_ bound : exact_input vs at_ bound -> 2 <= lenN vs.
Proof. intros G. exact (proj1 (input_facts _ _ _ G)). Qed.

Lemma input_api {E : Env} (vs : list vertex) px py bound : exact_input vs (pair_at px py) bound -> 2 * lenN vs + 2 <= idmax ->
  Exact (normalized vs) px py /\ ExactC (normalized vs) px py /\
  forall bins, 1 <= bins -> (Z.of_N bins <= bound)%Z -> exists order, bin_sort bins (normalized vs) = Ret order.
Proof.
  intros G Hid. destruct (input_facts _ _ _ G) as (_ & px' & py' & Q & K). 
  assert (Qx : px = (fun v => fst (pair_at px py v))) by reflexivity.
  assert (Qy : py = (fun v => snd (pair_at px py v))) by reflexivity.
  rewrite Q in Qx, Qy. change (px = px') in Qx. change (py = py') in Qy. subst px' py'. exact (K Hid).
Qed.

(** Replace the positions by a pair of functions. *)
Ltac pair_input G := let px := fresh "px" in let py := fresh "py" in
  destruct (input_pair _ _ _ G) as (px & py & ->).

(** ** The Delaunay entry point *)
Section Dt.
Context {E : Env}.
Variables (vs : list vertex) (px py : N -> Q) (bound : Z).
Notation at_ := (pair_at px py).
Hypothesis G : exact_input vs at_ bound.
Hypothesis Hid : 2 * lenN vs + 2 <= idmax.

Lemma pair_valid fuel bins out : (4 * length vs + 12 <= fuel)%nat ->
  triangulation_from_2d_vertices fuel bins vs = Ret out ->
  valid_mesh at_ (lenN vs) out /\ lenN out + 2 <= 2 * lenN vs.
Proof.
  intros Hf H. destruct (input_api vs px py bound G Hid) as (X & _ & _).
  destruct (dt_exact fuel bins vs _ _ out X Hid Hf H) as (V & S). split; [exact V|].
  destruct (N.ltb_spec (lenN vs) 3) as [L|L]; [|auto].
  unfold triangulation_from_2d_vertices in H. rewrite (proj2 (N.ltb_lt _ _) L) in H. injection H as <-.
  pose proof (input_len _ _ _ G) as L2. change (lenN []) with 0. lia.
Qed.

Lemma pair_total fuel bins : (4 * length vs + 12 <= fuel)%nat -> 1 <= bins -> (Z.of_N bins <= bound)%Z ->
  (exists out, triangulation_from_2d_vertices fuel bins vs = Ret out) \/
  (exists v, v < lenN vs /\ triangulation_from_2d_vertices fuel bins vs = Fail (ErrPlacementNotFound v)).
Proof.
  intros Hf H1 Hb. destruct (input_api vs px py bound G Hid) as (X & _ & B).
  destruct (B bins H1 Hb) as (order & O). exact (dt_total fuel bins vs _ _ order X Hid Hf O).
Qed.
End Dt.

Section DtAt.
Context {E : Env}.
Variables (vs : list vertex) (at_ : N -> point) (bound : Z).
Hypothesis G : exact_input vs at_ bound.
Hypothesis Hid : 2 * lenN vs + 2 <= idmax.

Lemma grid_valid fuel bins out : (4 * length vs + 12 <= fuel)%nat ->
  triangulation_from_2d_vertices fuel bins vs = Ret out ->
  valid_mesh at_ (lenN vs) out /\ lenN out + 2 <= 2 * lenN vs.
Proof. revert G. intros G'. revert Hid. intros Hid'. pair_input G'. exact (pair_valid vs px py bound G' Hid' fuel bins out). Qed.

Lemma grid_total fuel bins : (4 * length vs + 12 <= fuel)%nat -> 1 <= bins -> (Z.of_N bins <= bound)%Z ->
  (exists out, triangulation_from_2d_vertices fuel bins vs = Ret out) \/
  (exists v, v < lenN vs /\ triangulation_from_2d_vertices fuel bins vs = Fail (ErrPlacementNotFound v)).
Proof. revert G. intros G'. revert Hid. intros Hid'. pair_input G'. exact (pair_total vs px py bound G' Hid' fuel bins). Qed.
End DtAt.

(** ** Normalisation and bin sort, without exactness *)
Lemma numbers_bins E val bound bins (vs : list vertex) : numbers E val bound ->
  1 <= bins -> (Z.of_N bins <= bound)%Z ->
  (forall v, In v vs -> exists x y, val (vx v) x /\ val (vy v) y /\ (0 <= x <= 1)%Q /\ (0 <= y <= 1)%Q) ->
  exists order, bin_sort bins vs = Ret order.
Proof.
  intros Nu H1 Hb H. destruct (numbers_rep _ _ _ Nu) as (rep & repr & pb & ep & R & -> & Hv).
  apply (bin_sort_total rep repr pb ep R); auto. intros v Hin. destruct (H v Hin) as (x & y & A & B & C & D).
  apply Hv in A. apply Hv in B. exists x, y. auto.
Qed.

Lemma numbers_unit E val bound (vs : list vertex) : numbers E val bound ->
  (forall v, In v vs -> exists x y, val (vx v) x /\ val (vy v) y /\
     (Qabs.Qabs x < inject_Z (2 ^ 58))%Q /\ (Qabs.Qabs y < inject_Z (2 ^ 58))%Q) ->
  (exists v v' x y x' y', In v vs /\ In v' vs /\ val (vx v) x /\ val (vy v) y /\ val (vx v') x' /\ val (vy v') y' /\
     ~ same_place (x, y) (x', y')) ->
  forall v, In v (normalized vs) ->
    exists x y, val (vx v) x /\ val (vy v) y /\ (0 <= x <= 1)%Q /\ (0 <= y <= 1)%Q.
Proof.
  intros Nu Hb (v & v' & x & y & x' & y' & Hin & Hin' & X & Y & X' & Y' & Ne) w Hw.
  destruct (numbers_rep _ _ _ Nu) as (rep & repr & pb & ep & R & -> & Hv).
  assert (Ps : exists ps, Forall2 (repv rep) vs ps /\ bounded half ps).
  { clear - Hb Hv. induction vs as [|v vs IH].
    - exists []. split; [constructor|]. intros ? [].
    - destruct IH as (ps & A & B); [intros; apply Hb; now right|].
      destruct (Hb v (or_introl eq_refl)) as (x & y & Vx & Vy & Bx & By).
      exists ((x, y) :: ps). split; [constructor; auto; split; now apply Hv|].
      intros p [<-|Hp]; [|now apply B]. apply Qabs.Qabs_Qlt_condition in Bx, By. simpl. split; auto. }
  destruct Ps as (ps & F2 & B).
  assert (U : in_unit rep w).
  { refine (unit_square rep repr pb ep R vs ps F2 B _ w Hw).
    destruct (Forall2_In_l _ _ _ _ F2 Hin) as ((p1, p2) & Hp & Rp).
    destruct (Forall2_In_l _ _ _ _ F2 Hin') as ((p1', p2') & Hp' & Rp').
    exists (p1, p2), (p1', p2'). split; auto. split; auto. intros (S1 & S2). apply Ne.
    destruct Rp as (Ra & Rb), Rp' as (Ra' & Rb'). cbn [fst snd] in *.
    apply Hv in X, Y, X', Y'.
    assert (Q : forall f a b, rep f a -> rep f b -> (a == b)%Q).
    { clear - R. intros f a b A B. apply (rp_eq _ _ _ _ R f f a b A B). apply (rp_eq _ _ _ _ R f f a a A A). reflexivity. }
    split; cbn [fst snd].
    - rewrite (Q _ _ _ X Ra), (Q _ _ _ X' Ra'). exact S1.
    - rewrite (Q _ _ _ Y Rb), (Q _ _ _ Y' Rb'). exact S2. }
  destruct U as (a & b & A & B' & C & D). exists a, b. rewrite !Hv. auto.
Qed.
