(** * Polygon: on both sides of a simple loop the winding number is the same all along. *)

From Coq Require Import ZArith NArith List Bool QArith Qminmax Lqa Lia.
From Verif Require Import Types Spec SpecDomain SpecWinding Winding Inside TallyGrid Tube.
Import ListNotations.
Local Open Scope Q_scope.

Definition shift (p k : point) (t : Q) : point := (fst p + t * fst k, snd p + t * snd k).

Lemma edge_dec (e f : edge) : {e = f} + {e <> f}.
Proof. decide equality; apply N.eq_dec. Qed.

Lemma same_place_dec' p q : {same_place p q} + {~ same_place p q}.
Proof. destruct (place_eqbP p q); [now left|now right]. Qed.

(** Moving a segment in a direction in which it meets nothing. *)
Lemma tube at_ cs x0 x1 k : ~ same_place x0 x1 ->
  (forall f, In f cs -> proper at_ f ->
    (forall s r, 0 <= s <= 1 -> 0 <= r <= 1 -> ~ same_place (along x0 x1 s) (along (at_ (efrom f)) (at_ (eto f)) r)) \/
    (forall s t r, 0 <= s <= 1 -> 0 < t -> 0 <= r <= 1 -> ~ same_place (shift (along x0 x1 s) k t) (along (at_ (efrom f)) (at_ (eto f)) r))) ->
  exists T, 0 < T /\ forall t, 0 < t <= T -> apart at_ cs (shift x0 k t) (shift x1 k t).
Proof.
  intros N. induction cs as [|f l IH]; intros H.
  - exists 1. split; [lra|]. intros t _ s _ (e & r & [] & _).
  - destruct IH as (T & HT & K). { intros g I. apply H. now right. }
    assert (F : exists T', 0 < T' /\ forall t s r, 0 < t <= T' -> 0 <= s <= 1 -> 0 <= r <= 1 -> proper at_ f ->
      ~ same_place (along (shift x0 k t) (shift x1 k t) s) (along (at_ (efrom f)) (at_ (eto f)) r)).
    { assert (Sh : forall t s, same_place (along (shift x0 k t) (shift x1 k t) s) (shift (along x0 x1 s) k t)).
      { intros t s. unfold along, shift, same_place. cbn [fst snd]. split; ring. }
      destruct (same_place_dec' (at_ (efrom f)) (at_ (eto f))) as [Z|Z]; [exists 1; split; [lra|]; intros; contradiction|].
      destruct (H f (or_introl eq_refl) Z) as [A|A].
      - destruct (disjoint_away x0 x1 _ _ N Z A) as (d & D & B).
        destruct (small d (fst k) (snd k) D) as (T' & (T1 & T2) & (X1 & X2) & Y1 & Y2). exists T'. split; [exact T1|].
        intros t s r Ht S R _. apply (B s _ r S R).
        assert (Mo : forall z, - d <= T' * z -> T' * z <= d -> - d <= t * z <= d).
        { clear - Ht D. intros z Z1 Z2. destruct (Qlt_le_dec z 0); split; nra. }
        destruct (Sh t s) as (E1 & E2). unfold square. rewrite E1, E2. unfold shift. cbn [fst snd].
        pose proof (Mo _ X1 X2). pose proof (Mo _ Y1 Y2). split; split; lra.
      - exists 1. split; [lra|]. intros t s r Ht S R _ P. apply (A s t r S); [lra|exact R|].
        destruct (Sh t s) as (E1 & E2), P as (P1 & P2). split; [rewrite <- E1|rewrite <- E2]; assumption. }
    destruct F as (T' & HT' & F). exists (Qmin T T').
    pose proof (Q.le_min_l T T'). pose proof (Q.le_min_r T T').
    split; [destruct (Q.min_spec T T') as [(_ & ->)|(_ & ->)]; lra|]. intros t Ht s S (e & r & [<-|I] & P & R & Q).
    + apply (F t s r); try assumption. lra.
    + apply (K t ltac:(lra) s S). exists e, r. auto.
Qed.

Section Polygon.
Variable at_ : N -> point.
Variable cs : list edge.
Hypothesis SL : simple_loops at_ cs.

Local Notation "'src' e" := (at_ (efrom e)) (at level 5, e at level 4).
Local Notation "'dst' e" := (at_ (eto e)) (at level 5, e at level 4).
Local Notation w := (winding at_ cs).

Lemma simple_closed : closed_loops at_ cs.
Proof.
  destruct SL as [ND _ Nx Pv St En _]. intros p.
  assert (One : forall h : edge -> N, (forall e f, In e cs -> In f cs -> same_place (at_ (h e)) (at_ (h f)) -> e = f) ->
    forall l, NoDup l -> incl l cs -> (length (filter (fun e => place_eqb (at_ (h e)) p) l) <= 1)%nat).
  { intros h U l. induction l as [|e l IH]; intros N I; [cbn; lia|]. inversion N as [|? ? N1 N2]; subst. cbn [filter].
    destruct (place_eqbP (at_ (h e)) p) as [X|X]; [|apply IH; [exact N2|intros z Z; apply I; now right]].
    destruct (filter (fun e0 => place_eqb (at_ (h e0)) p) l) as [|g l'] eqn:F; [cbn; lia|]. exfalso.
    assert (G : In g (filter (fun e0 => place_eqb (at_ (h e0)) p) l)) by (rewrite F; now left). apply filter_In in G. destruct G as (G & Y).
    destruct (place_eqbP (at_ (h g)) p) as [Z|]; [|discriminate]. apply N1. rewrite (U e g); [exact G|apply I; now left|apply I; now right|].
    destruct X as (X1 & X2), Z as (Z1 & Z2). split; [rewrite X1, Z1|rewrite X2, Z2]; reflexivity. }
  pose proof (One efrom St cs ND (incl_refl _)) as A. pose proof (One eto En cs ND (incl_refl _)) as B.
  assert (Some1 : forall h : edge -> N, (exists e, In e cs /\ same_place (at_ (h e)) p) <-> (0 < length (filter (fun e => place_eqb (at_ (h e)) p) cs))%nat).
  { intros h. split.
    - intros (e & I & P). assert (G : In e (filter (fun e => place_eqb (at_ (h e)) p) cs)). { apply filter_In. split; [exact I|]. destruct (place_eqbP (at_ (h e)) p); [reflexivity|contradiction]. }
      destruct (filter (fun e0 => place_eqb (at_ (h e0)) p) cs); [contradiction|cbn; lia].
    - intros L. destruct (filter (fun e => place_eqb (at_ (h e)) p) cs) as [|e l] eqn:F; [cbn in L; lia|].
      assert (G : In e (filter (fun e => place_eqb (at_ (h e)) p) cs)) by (rewrite F; now left). apply filter_In in G. destruct G as (G & Y).
      exists e. split; [exact G|]. now destruct (place_eqbP (at_ (h e)) p). }
  pose proof (Some1 efrom) as SF. pose proof (Some1 eto) as ST.
  assert (FT : (exists e, In e cs /\ same_place (src e) p) <-> (exists e, In e cs /\ same_place (dst e) p)).
  { split; intros (e & I & P1 & P2).
    - destruct (Pv e I) as (f & J & Q1 & Q2). exists f. split; [exact J|]. split; [rewrite Q1|rewrite Q2]; assumption.
    - destruct (Nx e I) as (f & J & Q1 & Q2). exists f. split; [exact J|]. split; [rewrite <- Q1|rewrite <- Q2]; assumption. }
  destruct (length (filter (fun e => place_eqb (src e) p) cs)) as [|[|?]] eqn:L1; destruct (length (filter (fun e => place_eqb (dst e) p) cs)) as [|[|?]] eqn:L2; try lia; exfalso; [|];
    [assert (K : (0 < 1)%nat) by lia; apply ST in K; apply FT in K; apply SF in K; lia|assert (K : (0 < 1)%nat) by lia; apply SF in K; apply FT in K; apply ST in K; lia].
Qed.

(** ** Around a point of a constraint *)
Lemma orient_on e s : orient (src e) (dst e) (along (src e) (dst e) s) == 0.
Proof. unfold orient, along. cbn [fst snd]. ring. Qed.

Lemma orient_place f g p q : same_place p q -> orient f g p == orient f g q.
Proof. intros (A & B). unfold orient. rewrite A, B. reflexivity. Qed.

Lemma clear_but e s : In e cs -> 0 < s < 1 -> exists r, 0 < r /\
  forall q, square (along (src e) (dst e) s) r q -> forall f u, In f cs -> f <> e -> 0 <= u <= 1 -> ~ same_place q (along (src f) (dst f) u).
Proof.
  intros I S. set (l := filter (fun f => if edge_dec f e then false else true) cs).
  destruct (clear_around at_ l (along (src e) (dst e) s)) as (r & R & K).
  { intros (f & u & J & P & U & Q). apply filter_In in J. destruct J as (J & D). destruct (edge_dec f e) as [|N]; [discriminate|].
    destruct (sl_meet _ _ SL e f s u I J ltac:(lra) U Q) as [Z|(Z & _)]; [congruence|]. destruct Z; lra. }
  exists r. split; [exact R|]. intros q Sq f u J N U Q. apply (K q Sq). exists f, u. split.
  - apply filter_In. split; [exact J|]. destruct (edge_dec f e); [contradiction|reflexivity].
  - split; [exact (sl_proper _ _ SL f J)|]. split; assumption.
Qed.

Lemma square_between m r p q t : square m r p -> square m r q -> 0 <= t <= 1 -> square m r (along p q t).
Proof. unfold square, along. cbn [fst snd]. intros ((A & B) & C & D) ((A' & B') & C' & D') (T0 & T1). repeat split; nra. Qed.

Definition near (e : edge) (s : Q) (z : Z) : Prop := exists r, 0 < r /\
  forall q, square (along (src e) (dst e) s) r q ->
    (orient (src e) (dst e) q < 0 -> w q = z) /\ (0 < orient (src e) (dst e) q -> w q = (z - 1)%Z).

Lemma half_box e s r : In e cs ->
  (forall q, square (along (src e) (dst e) s) r q -> forall f u, In f cs -> f <> e -> 0 <= u <= 1 -> ~ same_place q (along (src f) (dst f) u)) ->
  forall p q, square (along (src e) (dst e) s) r p -> square (along (src e) (dst e) s) r q ->
    (orient (src e) (dst e) p < 0 /\ orient (src e) (dst e) q < 0) \/ (0 < orient (src e) (dst e) p /\ 0 < orient (src e) (dst e) q) -> w p = w q.
Proof.
  intros I K p q P Q O. apply (winding_step at_ cs simple_closed). intros t T (f & u & J & Pf & U & X).
  destruct (edge_dec f e) as [->|N].
  - apply (orient_place (src e) (dst e)) in X. rewrite orient_on, orient_along in X. destruct O as [(O1 & O2)|(O1 & O2)]; nra.
  - exact (K _ (square_between _ _ _ _ t P Q T) f u J N U X).
Qed.

(** Crossing a constraint from its left to its right adds one. *)
Lemma total_but (F : edge -> Z) e l : NoDup l -> In e l -> (forall f, In f l -> f <> e -> F f = 0%Z) -> total (map F l) = F e.
Proof.
  assert (None : forall l, (forall f, In f l -> F f = 0%Z) -> total (map F l) = 0%Z).
  { induction l0 as [|f l0 IH]; intros H; [reflexivity|]. cbn [map]. rewrite total_cons.
    rewrite (H f (or_introl eq_refl)). rewrite IH; [reflexivity|]. intros g J. apply H. now right. }
  induction l as [|f l IH]; intros N I H; [contradiction|]. inversion N as [|? ? N1 N2]; subst. cbn [map]. rewrite total_cons. destruct I as [->|I].
  - rewrite None; [lia|]. intros g J. apply H; [now right|]. intros ->. contradiction.
  - assert (Z : F f = 0%Z). { apply H; [now left|]. intros ->. contradiction. }
    rewrite Z, IH; [reflexivity|exact N2|exact I|]. intros g J. apply H. now right.
Qed.

Lemma jump_sum e p q : In e cs -> fst p <= fst q ->
  (forall f s u, In f cs -> f <> e -> 0 <= s <= 1 -> 0 <= u <= 1 -> ~ same_place (along p q s) (along (src f) (dst f) u)) ->
  (w p - w q = crossing (src e) (dst e) p - crossing (src e) (dst e) q - (over p q (dst e) - over p q (src e)))%Z.
Proof.
  intros I L A. pose proof (loops_balance at_ cs simple_closed (over p q) (over_same p q)) as B.
  pose proof (total_but (fun f => crossing (src f) (dst f) p - crossing (src f) (dst f) q - (over p q (dst f) - over p q (src f)))%Z e cs (sl_once _ _ SL) I) as T.
  cbv beta in T. rewrite <- T.
  - unfold winding. assert (D : forall l, (total (map (fun f => crossing (src f) (dst f) p - crossing (src f) (dst f) q - (over p q (dst f) - over p q (src f)))%Z l) =
      total (map (fun f => crossing (src f) (dst f) p) l) - total (map (fun f => crossing (src f) (dst f) q) l) - total (map (fun f => over p q (dst f) - over p q (src f))%Z l))%Z).
    { induction l as [|f l IH]; [reflexivity|]. cbn [map]. rewrite !total_cons, IH. lia. }
    rewrite D, B. unfold total. lia.
  - intros f J N. rewrite (step (src f) (dst f) p q L); [lia|]. intros s r S R P. exfalso. exact (A f s r J N S R P).
Qed.

Lemma middle x y s : 0 < s < 1 -> x < y -> x < x + s * (y - x) < y /\ x < y + s * (x - y) < y.
Proof. intros S L. split; split; nra. Qed.

Lemma jump e s r : In e cs -> 0 < s < 1 -> 0 < r ->
  (forall q, square (along (src e) (dst e) s) r q -> forall f u, In f cs -> f <> e -> 0 <= u <= 1 -> ~ same_place q (along (src f) (dst f) u)) ->
  exists p q, square (along (src e) (dst e) s) r p /\ square (along (src e) (dst e) s) r q /\
    orient (src e) (dst e) p < 0 /\ 0 < orient (src e) (dst e) q /\ w p = (w q + 1)%Z.
Proof.
  intros I S R K. set (m := along (src e) (dst e) s) in *. pose proof (orient_on e s) as Om. fold m in Om.
  assert (Seg : forall p q, square m r p -> square m r q ->
    forall f t u, In f cs -> f <> e -> 0 <= t <= 1 -> 0 <= u <= 1 -> ~ same_place (along p q t) (along (src f) (dst f) u)).
  { intros p q P Q f t u J N T U. exact (K _ (square_between _ _ _ _ t P Q T) f u J N U). }
  set (f := src e) in *. set (g := dst e) in *.
  assert (Mx : fst m == fst f + s * (fst g - fst f)) by reflexivity. assert (My : snd m == snd f + s * (snd g - snd f)) by reflexivity.
  assert (Up : forall d, orient f g (fst m, snd m + d) == d * (fst g - fst f)).
  { intros d. assert (Z : orient f g (fst m, snd m + d) == orient f g m + d * (fst g - fst f)) by (unfold orient; cbn [fst snd]; ring). rewrite Z, Om. ring. }
  assert (Rt : forall d, orient f g (fst m + d, snd m) == - (d * (snd g - snd f))).
  { intros d. assert (Z : orient f g (fst m + d, snd m) == orient f g m - d * (snd g - snd f)) by (unfold orient; cbn [fst snd]; ring). rewrite Z, Om. ring. }
  assert (Su : square m r (fst m, snd m + r)) by (unfold square; cbn [fst snd]; repeat split; lra).
  assert (Sd : square m r (fst m, snd m + - r)) by (unfold square; cbn [fst snd]; repeat split; lra).
  assert (Sr : square m r (fst m + r, snd m)) by (unfold square; cbn [fst snd]; repeat split; lra).
  assert (Sl : square m r (fst m + - r, snd m)) by (unfold square; cbn [fst snd]; repeat split; lra).
  pose proof (Up r) as U1. pose proof (Up (- r)) as U2. pose proof (Rt r) as R1. pose proof (Rt (- r)) as R2.
  destruct (Q_dec (fst f) (fst g)) as [[L|L]|L].
  - exists (fst m, snd m + - r), (fst m, snd m + r). split; [exact Sd|]. split; [exact Su|]. destruct (middle (fst f) (fst g) s S L) as ((B1 & B2) & _). rewrite <- Mx in B1, B2.
    assert (V : 0 < r * (fst g - fst f)) by (apply Qmult_lt_0_compat; lra). split; [lra|]. split; [lra|].
    pose proof (jump_sum e (fst m, snd m + - r) (fst m, snd m + r) I (Qle_refl _) (Seg _ _ Sd Su)) as J. fold f g in J.
    assert (Ov : forall v, over (fst m, snd m + - r) (fst m, snd m + r) v = 0%Z).
    { intros v. unfold over. cbn [fst]. destruct (Qle_boolP (fst v) (fst m)); reflexivity. }
    rewrite !Ov in J. unfold crossing in J. cbn [fst] in J.
    destruct (Qle_boolP (fst f) (fst m)); [|exfalso; lra]. destruct (Qle_boolP (fst g) (fst m)); [exfalso; lra|]. cbn [andb negb] in J.
    destruct (Qle_boolP 0 (orient f g (fst m, snd m + - r))); [exfalso; lra|]. destruct (Qle_boolP 0 (orient f g (fst m, snd m + r))); [|exfalso; lra]. lia.
  - exists (fst m, snd m + r), (fst m, snd m + - r). split; [exact Su|]. split; [exact Sd|]. destruct (middle (fst g) (fst f) s S L) as (_ & (B1 & B2)). rewrite <- Mx in B1, B2.
    assert (V : 0 < r * (fst f - fst g)) by (apply Qmult_lt_0_compat; lra). split; [lra|]. split; [lra|].
    pose proof (jump_sum e (fst m, snd m + - r) (fst m, snd m + r) I (Qle_refl _) (Seg _ _ Sd Su)) as J. fold f g in J.
    assert (Ov : forall v, over (fst m, snd m + - r) (fst m, snd m + r) v = 0%Z).
    { intros v. unfold over. cbn [fst]. destruct (Qle_boolP (fst v) (fst m)); reflexivity. }
    rewrite !Ov in J. unfold crossing in J. cbn [fst] in J.
    destruct (Qle_boolP (fst f) (fst m)); [exfalso; lra|]. destruct (Qle_boolP (fst g) (fst m)); [|exfalso; lra]. cbn [andb negb] in J.
    destruct (Qle_boolP (orient f g (fst m, snd m + - r)) 0); [exfalso; lra|]. destruct (Qle_boolP (orient f g (fst m, snd m + r)) 0); [|exfalso; lra]. lia.
  - assert (Xm : fst m == fst f) by (rewrite Mx, L; ring).
    assert (Nv : ~ snd f == snd g). { intros Z. apply (sl_proper _ _ SL e I). split; assumption. }
    assert (W : fst m + - r <= fst m + r) by lra.
    pose proof (jump_sum e (fst m + - r, snd m) (fst m + r, snd m) I W (Seg _ _ Sl Sr)) as J. fold f g in J.
    assert (Cr : forall p, crossing f g p = 0%Z).
    { intros p. unfold crossing. destruct (Qle_boolP (fst f) (fst p)); destruct (Qle_boolP (fst g) (fst p)); cbn [andb negb]; try reflexivity; exfalso; lra. }
    rewrite !Cr in J.
    assert (Ov : forall v, fst v == fst m -> over (fst m + - r, snd m) (fst m + r, snd m) v = if Qle_bool (snd v) (snd m) then 0%Z else 1%Z).
    { intros v V. unfold over. cbn [fst]. destruct (Qle_boolP (fst v) (fst m + - r)); [exfalso; lra|]. destruct (Qle_boolP (fst v) (fst m + r)); [|exfalso; lra]. cbn [andb negb].
      assert (O : orient (fst m + - r, snd m) (fst m + r, snd m) v == 2 * r * (snd v - snd m)) by (unfold orient; cbn [fst snd]; ring).
      destruct (Qle_boolP (orient (fst m + - r, snd m) (fst m + r, snd m) v) 0); destruct (Qle_boolP (snd v) (snd m)); try reflexivity; exfalso; rewrite O in *; nra. }
    rewrite (Ov g), (Ov f) in J by lra.
    destruct (Q_dec (snd f) (snd g)) as [[M|M]|M]; [| |contradiction].
    + exists (fst m + r, snd m), (fst m + - r, snd m). split; [exact Sr|]. split; [exact Sl|]. destruct (middle (snd f) (snd g) s S M) as ((B1 & B2) & _). rewrite <- My in B1, B2.
      assert (V : 0 < r * (snd g - snd f)) by (apply Qmult_lt_0_compat; lra). split; [lra|]. split; [lra|].
      destruct (Qle_boolP (snd g) (snd m)); [exfalso; lra|]. destruct (Qle_boolP (snd f) (snd m)); [|exfalso; lra]. lia.
    + exists (fst m + - r, snd m), (fst m + r, snd m). split; [exact Sl|]. split; [exact Sr|]. destruct (middle (snd g) (snd f) s S M) as (_ & (B1 & B2)). rewrite <- My in B1, B2.
      assert (V : 0 < r * (snd f - snd g)) by (apply Qmult_lt_0_compat; lra). split; [lra|]. split; [lra|].
      destruct (Qle_boolP (snd g) (snd m)); [|exfalso; lra]. destruct (Qle_boolP (snd f) (snd m)); [exfalso; lra|]. lia.
Qed.

Lemma near_exists e s : In e cs -> 0 < s < 1 -> exists z, near e s z.
Proof.
  intros I S. destruct (clear_but e s I S) as (r & R & K). destruct (jump e s r I S R K) as (p & q & P & Q & Op & Oq & J).
  exists (w p). exists r. split; [exact R|]. intros x X. split; intros O.
  - apply (half_box e s r I K x p X P). left. auto.
  - rewrite (half_box e s r I K x q X Q); [lia|]. right. auto.
Qed.

(** ** Along the constraints *)
Definition cross (e : edge) (k : point) : Q := (fst (dst e) - fst (src e)) * snd k - (snd (dst e) - snd (src e)) * fst k.

Lemma orient_shift e p k t : orient (src e) (dst e) (shift p k t) == orient (src e) (dst e) p + t * cross e k.
Proof. unfold orient, shift, cross. cbn [fst snd]. ring. Qed.

Lemma near_shift e s z k : near e s z -> cross e k < 0 ->
  exists T, 0 < T /\ forall t, 0 < t <= T -> w (shift (along (src e) (dst e) s) k t) = z.
Proof.
  intros (r & R & H) C. destruct (small r (fst k) (snd k) R) as (T & (T1 & T2) & (X1 & X2) & Y1 & Y2). exists T. split; [exact T1|].
  intros t Ht. destruct (H (shift (along (src e) (dst e) s) k t)) as (K & _).
  - assert (Mo : forall z, - r <= T * z -> T * z <= r -> - r <= t * z <= r).
    { clear - Ht R. intros y Z1 Z2. destruct (Qlt_le_dec y 0); split; nra. }
    pose proof (Mo _ X1 X2). pose proof (Mo _ Y1 Y2). unfold square, shift. cbn [fst snd]. split; split; lra.
  - apply K. rewrite orient_shift, orient_on. nra.
Qed.

Lemma near_same e s u z : s == u -> near e s z -> near e u z.
Proof.
  intros E (r & R & H). exists r. split; [exact R|]. intros q Sq. apply H. unfold square, along in *. cbn [fst snd] in *. rewrite E. exact Sq.
Qed.

Lemma near_along e s u z : In e cs -> 0 < s < 1 -> 0 < u < 1 -> near e s z -> near e u z.
Proof.
  intros I S U Ne. destruct (Qeq_dec s u) as [E|D]; [exact (near_same e s u z E Ne)|].
  destruct (near_exists e u I U) as (z' & Ne'). enough (Z : z = z') by (now rewrite Z).
  set (k := (snd (dst e) - snd (src e), - (fst (dst e) - fst (src e)))).
  assert (C : cross e k < 0).
  { pose proof (square_pos (src e) (dst e) (sl_proper _ _ SL e I)) as Sp.
    assert (E : cross e k == - dot (src e) (dst e) (dst e)) by (unfold cross, k, dot; cbn [fst snd]; ring). lra. }
  destruct (near_shift e s z k Ne C) as (T1 & P1 & W1). destruct (near_shift e u z' k Ne' C) as (T2 & P2 & W2).
  set (x0 := along (src e) (dst e) s) in *. set (x1 := along (src e) (dst e) u) in *.
  assert (Al : forall t, same_place (along x0 x1 t) (along (src e) (dst e) (s + t * (u - s)))).
  { intros t. unfold x0, x1, along, same_place. cbn [fst snd]. split; ring. }
  assert (N : ~ same_place x0 x1).
  { intros (E1 & E2). unfold x0, x1, along in E1, E2. cbn [fst snd] in E1, E2. apply (sl_proper _ _ SL e I).
    assert (F1 : (s - u) * (fst (dst e) - fst (src e)) == 0) by lra. assert (F2 : (s - u) * (snd (dst e) - snd (src e)) == 0) by lra.
    destruct (Qmult_integral _ _ F1); [exfalso; apply D; lra|]. destruct (Qmult_integral _ _ F2); [exfalso; apply D; lra|]. split; lra. }
  destruct (tube at_ cs x0 x1 k N) as (T3 & P3 & W3).
  { intros f J Pf. destruct (edge_dec f e) as [->|Ne1].
    - right. intros t v r Ht Hv Hr X. apply (orient_place (src e) (dst e)) in X. rewrite orient_on, orient_shift in X.
      rewrite (orient_place _ _ _ _ (Al t)), orient_on in X. nra.
    - left. intros t r Ht Hr (X1 & X2). destruct (Al t) as (A1 & A2). rewrite A1 in X1. rewrite A2 in X2.
      destruct (sl_meet _ _ SL e f (s + t * (u - s)) r I J) as [Q|(Q & _)]; [split; nra|exact Hr|split; assumption|congruence|].
      destruct Ht. destruct Q; nra. }
  set (t := Qmin T1 (Qmin T2 T3)). pose proof (Q.le_min_l T1 (Qmin T2 T3)). pose proof (Q.le_min_r T1 (Qmin T2 T3)).
  pose proof (Q.le_min_l T2 T3). pose proof (Q.le_min_r T2 T3).
  assert (Pt : 0 < t). { unfold t. destruct (Q.min_spec T1 (Qmin T2 T3)) as [(_ & ->)|(_ & ->)]; [lra|]. destruct (Q.min_spec T2 T3) as [(_ & ->)|(_ & ->)]; lra. }
  fold t in H, H0. rewrite <- (W1 t), <- (W2 t) by lra. apply (winding_step at_ cs simple_closed). apply W3. lra.
Qed.

(** The direction [k] leads to the right of two constraints that follow each other. *)
Lemma corner_direction e f : In e cs -> In f cs -> same_place (dst e) (src f) -> exists k, cross e k < 0 /\ cross f k < 0.
Proof.
  intros I J (V1 & V2).
  set (ax := fst (dst e) - fst (src e)). set (ay := snd (dst e) - snd (src e)).
  set (bx := fst (dst f) - fst (src f)). set (by_ := snd (dst f) - snd (src f)). set (X := ax * by_ - ay * bx).
  assert (Ce : forall k, cross e k == ax * snd k - ay * fst k) by (intros; reflexivity).
  assert (Cf : forall k, cross f k == bx * snd k - by_ * fst k) by (intros; reflexivity).
  destruct (Q_dec X 0) as [[L|L]|L].
  - exists (bx - ax, by_ - ay). rewrite Ce, Cf. cbn [fst snd].
    assert (E1 : ax * (by_ - ay) - ay * (bx - ax) == X) by (unfold X; ring). assert (E2 : bx * (by_ - ay) - by_ * (bx - ax) == X) by (unfold X; ring). lra.
  - exists (ax - bx, ay - by_). rewrite Ce, Cf. cbn [fst snd].
    assert (E1 : ax * (ay - by_) - ay * (ax - bx) == - X) by (unfold X; ring). assert (E2 : bx * (ay - by_) - by_ * (ax - bx) == - X) by (unfold X; ring). lra.
  - pose proof (square_pos _ _ (sl_proper _ _ SL e I)) as Pa. pose proof (square_pos _ _ (sl_proper _ _ SL f J)) as Pb.
    unfold dot in Pa, Pb. fold ax ay in Pa. fold bx by_ in Pb.
    exists (ay, - ax). rewrite Ce, Cf. cbn [fst snd]. split; [lra|].
    enough (D : 0 < ax * bx + ay * by_) by lra. apply Qnot_le_lt. intros D.
    (* otherwise they go back on each other *)
    set (n := ax * ax + ay * ay) in *. set (h := ax * bx + ay * by_) in *.
    assert (B1 : n * bx == h * ax). { assert (Z : n * bx - h * ax == - X * ay) by (unfold n, h, X; ring). rewrite L in Z. lra. }
    assert (B2 : n * by_ == h * ay). { assert (Z : n * by_ - h * ay == X * ax) by (unfold n, h, X; ring). rewrite L in Z. lra. }
    assert (Hn : h < 0).
    { apply Qnot_le_lt. intros Z. assert (Z0 : h == 0) by lra. rewrite Z0 in B1, B2.
      assert (bx == 0) by (destruct (Qmult_integral n bx); lra). assert (by_ == 0) by (destruct (Qmult_integral n by_); lra). rewrite H, H0 in Pb. lra. }
    set (u := n / (n - h)). assert (Du : u * (n - h) == n) by (unfold u; field; lra).
    assert (U : 0 < u < 1). { clearbody u n h. split; nra. }
    assert (Hu : u * h == - (n * (1 - u))) by lra.
    destruct (sl_meet _ _ SL e f u u I J) as [Q|(Q & _)]; [lra|lra| | |destruct Q; lra].
    + assert (G1 : n * (u * bx + (1 - u) * ax) == 0).
      { assert (Z : n * (u * bx + (1 - u) * ax) == u * (n * bx) + n * (1 - u) * ax) by ring. rewrite Z, B1. assert (Z' : u * (h * ax) == u * h * ax) by ring. rewrite Z', Hu. ring. }
      assert (G2 : n * (u * by_ + (1 - u) * ay) == 0).
      { assert (Z : n * (u * by_ + (1 - u) * ay) == u * (n * by_) + n * (1 - u) * ay) by ring. rewrite Z, B2. assert (Z' : u * (h * ay) == u * h * ay) by ring. rewrite Z', Hu. ring. }
      assert (G3 : u * bx + (1 - u) * ax == 0) by (destruct (Qmult_integral _ _ G1); lra).
      assert (G4 : u * by_ + (1 - u) * ay == 0) by (destruct (Qmult_integral _ _ G2); lra).
      unfold along, same_place. cbn [fst snd]. fold ax ay bx by_. rewrite <- V1, <- V2. unfold ax, ay in G3, G4 |- *. split; lra.
    + subst f. apply (sl_proper _ _ SL e I). split; [rewrite V1|rewrite V2]; reflexivity.
Qed.

Lemma near_next e f z : In e cs -> In f cs -> same_place (dst e) (src f) -> near e (1#2) z -> near f (1#2) z.
Proof.
  intros I J V Ne. destruct (near_exists f (1#2) J ltac:(split; reflexivity)) as (z' & Ne'). enough (Z : z = z') by (now rewrite Z).
  destruct (corner_direction e f I J V) as (k & Ke & Kf). destruct V as (V1 & V2).
  destruct (near_shift e _ z k Ne Ke) as (T1 & P1 & W1). destruct (near_shift f _ z' k Ne' Kf) as (T2 & P2 & W2).
  set (x0 := along (src e) (dst e) (1#2)) in *. set (x1 := along (src f) (dst f) (1#2)) in *.
  assert (Nef : e <> f). { intros ->. apply (sl_proper _ _ SL f J). split; [rewrite V1|rewrite V2]; reflexivity. }
  assert (A0 : forall t, same_place (along x0 (dst e) t) (along (src e) (dst e) ((1#2) + t * (1#2)))).
  { intros t. unfold x0, along, same_place. cbn [fst snd]. split; ring. }
  assert (A1 : forall t, same_place (along (dst e) x1 t) (along (src f) (dst f) (t * (1#2)))).
  { intros t. unfold x1, along, same_place. cbn [fst snd]. rewrite V1, V2. split; ring. }
  assert (N0 : ~ same_place x0 (dst e)).
  { intros (E1 & E2). apply (sl_proper _ _ SL e I). unfold x0, along in E1, E2. cbn [fst snd] in E1, E2. split; lra. }
  assert (N1 : ~ same_place (dst e) x1).
  { intros (E1 & E2). apply (sl_proper _ _ SL f J). unfold x1, along in E1, E2. cbn [fst snd] in E1, E2. split; lra. }
  set (X := (fst (dst e) - fst (src e)) * (snd (dst f) - snd (src f)) - (snd (dst e) - snd (src e)) * (fst (dst f) - fst (src f))).
  destruct (tube at_ cs x0 (dst e) k N0) as (T3 & P3 & W3).
  { intros g Ig Pg. destruct (edge_dec g e) as [->|Ng]; [|destruct (edge_dec g f) as [->|Nf]].
    - right. intros t v r Ht Hv Hr K. apply (orient_place (src e) (dst e)) in K. rewrite orient_on, orient_shift in K.
      rewrite (orient_place _ _ _ _ (A0 t)), orient_on in K. nra.
    - right. intros t v r Ht Hv Hr (K1 & K2). unfold shift in K1, K2. destruct (A0 t) as (B1 & B2). cbn [fst snd] in K1, K2.
      rewrite B1 in K1. rewrite B2 in K2. unfold along in K1, K2. cbn [fst snd] in K1, K2. rewrite <- V1 in K1. rewrite <- V2 in K2.
      set (mu := (1#2) - t * (1#2)). assert (M : 0 <= mu) by (unfold mu; lra).
      assert (F1 : v * cross e k == r * X).
      { unfold cross, X. rewrite <- V1, <- V2.
        assert (H1 : v * fst k == r * (fst (dst f) - fst (dst e)) + mu * (fst (dst e) - fst (src e))) by (unfold mu; lra).
        assert (H2 : v * snd k == r * (snd (dst f) - snd (dst e)) + mu * (snd (dst e) - snd (src e))) by (unfold mu; lra).
        transitivity ((fst (dst e) - fst (src e)) * (v * snd k) - (snd (dst e) - snd (src e)) * (v * fst k)); [ring|]. rewrite H1, H2. ring. }
      assert (F2 : v * cross f k == - (mu * X)).
      { unfold cross, X. rewrite <- V1, <- V2.
        assert (H1 : v * fst k == r * (fst (dst f) - fst (dst e)) + mu * (fst (dst e) - fst (src e))) by (unfold mu; lra).
        assert (H2 : v * snd k == r * (snd (dst f) - snd (dst e)) + mu * (snd (dst e) - snd (src e))) by (unfold mu; lra).
        transitivity ((fst (dst f) - fst (dst e)) * (v * snd k) - (snd (dst f) - snd (dst e)) * (v * fst k)); [ring|]. rewrite H1, H2. ring. }
      clearbody mu X. clear - F1 F2 M Ke Kf Hv Hr.
      assert (v * cross e k < 0) by nra. assert (v * cross f k < 0) by nra. destruct (Qlt_le_dec X 0); nra.
    - left. intros t r Ht Hr (K1 & K2). destruct (A0 t) as (B1 & B2). rewrite B1 in K1. rewrite B2 in K2.
      destruct (sl_meet _ _ SL e g ((1#2) + t * (1#2)) r I Ig) as [Q|(Q & Q')]; [lra|exact Hr|split; assumption|congruence|].
      assert (Ht1 : (1#2) + t * (1#2) == 1) by (destruct Q; lra). unfold along in K1, K2. cbn [fst snd] in K1, K2. rewrite Ht1 in K1, K2.
      destruct Q' as [Q'|Q']; rewrite Q' in K1, K2.
      + apply Nf. symmetry. apply (sl_start _ _ SL f g J Ig). split; [rewrite <- V1|rewrite <- V2]; lra.
      + apply Ng. symmetry. apply (sl_end _ _ SL e g I Ig). split; lra. }
  destruct (tube at_ cs (dst e) x1 k N1) as (T4 & P4 & W4).
  { intros g Ig Pg. destruct (edge_dec g f) as [->|Nf]; [|destruct (edge_dec g e) as [->|Ng]].
    - right. intros t v r Ht Hv Hr K. apply (orient_place (src f) (dst f)) in K. rewrite orient_on, orient_shift in K.
      rewrite (orient_place _ _ _ _ (A1 t)), orient_on in K. nra.
    - right. intros t v r Ht Hv Hr (K1 & K2). unfold shift in K1, K2. destruct (A1 t) as (B1 & B2). cbn [fst snd] in K1, K2.
      rewrite B1 in K1. rewrite B2 in K2. unfold along in K1, K2. cbn [fst snd] in K1, K2. rewrite <- V1 in K1. rewrite <- V2 in K2.
      set (la := t * (1#2)) in *. assert (M : 0 <= la) by (unfold la; lra).
      assert (F1 : v * cross e k == - (la * X)).
      { unfold cross, X. rewrite <- V1, <- V2.
        assert (H1 : v * fst k == - ((1 - r) * (fst (dst e) - fst (src e))) - la * (fst (dst f) - fst (dst e))) by lra.
        assert (H2 : v * snd k == - ((1 - r) * (snd (dst e) - snd (src e))) - la * (snd (dst f) - snd (dst e))) by lra.
        transitivity ((fst (dst e) - fst (src e)) * (v * snd k) - (snd (dst e) - snd (src e)) * (v * fst k)); [ring|]. rewrite H1, H2. ring. }
      assert (F2 : v * cross f k == (1 - r) * X).
      { unfold cross, X. rewrite <- V1, <- V2.
        assert (H1 : v * fst k == - ((1 - r) * (fst (dst e) - fst (src e))) - la * (fst (dst f) - fst (dst e))) by lra.
        assert (H2 : v * snd k == - ((1 - r) * (snd (dst e) - snd (src e))) - la * (snd (dst f) - snd (dst e))) by lra.
        transitivity ((fst (dst f) - fst (dst e)) * (v * snd k) - (snd (dst f) - snd (dst e)) * (v * fst k)); [ring|]. rewrite H1, H2. ring. }
      clearbody la X. clear - F1 F2 M Ke Kf Hv Hr.
      assert (v * cross e k < 0) by nra. assert (v * cross f k < 0) by nra. destruct (Qlt_le_dec X 0); nra.
    - left. intros t r Ht Hr (K1 & K2). destruct (A1 t) as (B1 & B2). rewrite B1 in K1. rewrite B2 in K2.
      destruct (sl_meet _ _ SL f g (t * (1#2)) r J Ig) as [Q|(Q & Q')]; [lra|exact Hr|split; assumption|congruence|].
      assert (Ht1 : t * (1#2) == 0) by (destruct Q; lra). unfold along in K1, K2. cbn [fst snd] in K1, K2. rewrite Ht1 in K1, K2.
      destruct Q' as [Q'|Q']; rewrite Q' in K1, K2.
      + apply Nf. symmetry. apply (sl_start _ _ SL f g J Ig). split; lra.
      + apply Ng. symmetry. apply (sl_end _ _ SL e g I Ig). split; [rewrite V1|rewrite V2]; lra. }
  set (t := Qmin (Qmin T1 T2) (Qmin T3 T4)).
  pose proof (Q.le_min_l (Qmin T1 T2) (Qmin T3 T4)). pose proof (Q.le_min_r (Qmin T1 T2) (Qmin T3 T4)).
  pose proof (Q.le_min_l T1 T2). pose proof (Q.le_min_r T1 T2). pose proof (Q.le_min_l T3 T4). pose proof (Q.le_min_r T3 T4).
  assert (Pt : 0 < t).
  { unfold t. destruct (Q.min_spec (Qmin T1 T2) (Qmin T3 T4)) as [(_ & ->)|(_ & ->)];
      [destruct (Q.min_spec T1 T2) as [(_ & ->)|(_ & ->)]|destruct (Q.min_spec T3 T4) as [(_ & ->)|(_ & ->)]]; lra. }
  fold t in H, H0. rewrite <- (W1 t), <- (W2 t) by lra.
  rewrite (winding_step at_ cs simple_closed _ _ (W3 t ltac:(lra))). exact (winding_step at_ cs simple_closed _ _ (W4 t ltac:(lra))).
Qed.
End Polygon.
