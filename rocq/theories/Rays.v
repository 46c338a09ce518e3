(** * Rays: counting the triangles of an area with several loops, by a ray from each corner. *)

From Coq Require Import ZArith NArith List Bool QArith Qminmax Lqa Lia Permutation.
From Verif Require Import Types Spec SpecDomain SpecWinding Winding Inside TallyGrid Germ GermCount Tally Tube Polygon Jordan Ring Diagonal Filling.
Import ListNotations.
Local Open Scope Q_scope.

(** ** One triangle per ray *)
Section Tokens.
Variables (m : Q) (at_ : N -> point) (n : N) (out : list (N * N * N)).
Hypothesis VM : valid_mesh at_ n out.
Hypothesis Range : forall t c, In t out -> tri_corner t c -> (c < n)%N.
Hypothesis Generic : forall u v, (u < n)%N -> (v < n)%N -> ~ same_place (at_ u) (at_ v) -> ~ height m (at_ u) == height m (at_ v).

Lemma token_count (tokens : list (N * bool)) : NoDup tokens ->
  (forall u v b, In (u, b) tokens -> In (v, b) tokens -> same_place (at_ u) (at_ v) -> u = v) ->
  (forall u b, In (u, b) tokens -> (u < n)%N) ->
  (forall u b, In (u, b) tokens -> forall e1, 0 < e1 -> exists e, 0 < e < e1 /\ covered at_ out (ray m (at_ u) b e)) ->
  (forall t c b, In t out -> germ m at_ t c b -> exists u, In (u, b) tokens /\ same_place (at_ c) (at_ u)) ->
  length out = length tokens.
Proof.
  intros TN TD TR TC TA. apply Nat.le_antisymm.
  - apply (injection_le (fun t (x : N * bool) => exists c, germ m at_ t c (snd x) /\ same_place (at_ c) (at_ (fst x)))).
    + exact (mesh_nodup _ _ _ VM).
    + intros t I. destruct (mesh_germ m at_ n out VM Range Generic t I) as (c & b & G). destruct (TA t c b I G) as (u & U & P). exists (u, b). split; [exact U|]. exists c. auto.
    + intros s t (u, b) S T (c & G & P) (c' & G' & P'). cbn [fst snd] in *. apply (germ_once m at_ n out VM s t c c' b S T G G').
      apply (Ring.place_trans _ (at_ u)); [exact P|now apply Ring.place_sym].
  - apply (injection_le (fun (x : N * bool) t => exists c, germ m at_ t c (snd x) /\ same_place (at_ c) (at_ (fst x)))); [exact TN| |].
    + intros (u, b) U. destruct (germ_found m at_ n out VM Range Generic u b (TR u b U) (TC u b U)) as (t & c & I & G & P). exists t. split; [exact I|]. exists c. auto.
    + intros (u, b) (v, b') t U V (c & G & P) (c' & G' & P'). cbn [fst snd] in *. destruct (germ_fun m at_ t c b c' b' G G') as (<- & <-).
      f_equal. apply (TD u v b U V). apply (Ring.place_trans _ (at_ c)); [now apply Ring.place_sym|exact P'].
Qed.
End Tokens.

(** ** Rays off the constraints *)
Lemma avoid_zero A K : ~ K == 0 -> exists e1, 0 < e1 /\ forall e, 0 < e < e1 -> ~ A - e * K == 0.
Proof.
  intros NK. destruct (Qlt_le_dec 0 (A / K)) as [L|L].
  - exists (A / K). split; [exact L|]. intros e (E1 & E2) Z. assert (X : A / K == e); [|lra]. assert (Y : A == e * K) by lra. rewrite Y. field. exact NK.
  - exists 1. split; [reflexivity|]. intros e (E1 & E2) Z. assert (X : A / K == e); [|lra]. assert (Y : A == e * K) by lra. rewrite Y. field. exact NK.
Qed.

Lemma ray_between m p b e e' t : same_place (along (ray m p b e) (ray m p b e') t) (ray m p b (e + t * (e' - e))).
Proof. unfold along, ray; split; cbn [fst snd]; ring. Qed.
Lemma ray_from m p b e t : same_place (along p (ray m p b e) t) (ray m p b (t * e)).
Proof. unfold along, ray; split; cbn [fst snd]; ring. Qed.

Section Rays.
Variables (m : Q) (at_ : N -> point).
Local Notation "'src' e" := (at_ (efrom e)) (at level 5, e at level 4).
Local Notation "'dst' e" := (at_ (eto e)) (at level 5, e at level 4).

Lemma ray_clear cs p b : (forall f, In f cs -> ~ height m (src f) == height m (dst f)) ->
  exists e1, 0 < e1 /\ forall e, 0 < e < e1 -> ~ on_constraint at_ cs (ray m p b e).
Proof.
  induction cs as [|f cs IH]; intros H; [exists 1; split; [reflexivity|]; intros e _ (g & s & [] & _)|].
  destruct IH as (e1 & E1 & K1); [intros g I; apply H; now right|].
  assert (NK : ~ sg b * (height m (dst f) - height m (src f)) == 0).
  { intros Z. apply (H f (or_introl eq_refl)). destruct b; cbn [sg] in Z; lra. }
  destruct (avoid_zero (orient (src f) (dst f) p) _ NK) as (e2 & E2 & K2).
  exists (Qmin e1 e2). split; [now apply Q.min_glb_lt|]. intros e (L1 & L2) (g & s & [<-|I] & P & S & X).
  - apply (K2 e); [split; [exact L1|]; eapply Qlt_le_trans; [exact L2|apply Q.le_min_r]|].
    rewrite <- orient_ray. rewrite (Polygon.orient_place _ _ _ _ X). apply orient_on.
  - apply (K1 e); [split; [exact L1|]; eapply Qlt_le_trans; [exact L2|apply Q.le_min_l]|]. exists g, s. auto.
Qed.

(** One length for all the vertices of a list. *)
Definition clear_rays (cs : list edge) (e0 : Q) (u : N) : Prop :=
  forall b e, 0 < e <= e0 -> ~ on_constraint at_ cs (ray m (at_ u) b e).

Lemma rays_clear cs (l : list N) : (forall f, In f cs -> ~ height m (src f) == height m (dst f)) ->
  exists e0, 0 < e0 /\ forall u, In u l -> clear_rays cs e0 u.
Proof.
  intros H. induction l as [|u l (e1 & E1 & K)]; [exists 1; split; [reflexivity|intros u []]|].
  destruct (ray_clear cs (at_ u) true H) as (e2 & E2 & K2). destruct (ray_clear cs (at_ u) false H) as (e3 & E3 & K3).
  pose proof (Q.min_glb_lt _ _ _ E2 E3) as M. pose proof (Q.le_min_l e2 e3). pose proof (Q.le_min_r e2 e3). set (f := Qmin e2 e3) in *. clearbody f.
  assert (F : 0 < f * (1#2)) by lra. pose proof (Q.min_glb_lt _ _ _ E1 F) as M'. pose proof (Q.le_min_l e1 (f * (1#2))). pose proof (Q.le_min_r e1 (f * (1#2))).
  set (g := Qmin e1 (f * (1#2))) in *. clearbody g. exists g. split; [exact M'|].
  intros v [<- |I] b e (L1 & L2); [destruct b; [apply K2|apply K3]; lra|apply (K v I); lra].
Qed.

Lemma ray_winding cs e0 u b e : simple_loops at_ cs -> clear_rays cs e0 u -> 0 < e <= e0 ->
  winding at_ cs (ray m (at_ u) b e) = winding at_ cs (ray m (at_ u) b e0).
Proof.
  intros SL C (L1 & L2). apply (winding_step at_ cs (simple_closed at_ cs SL)). intros t (T1 & T2) X.
  apply (on_place at_ cs _ _ (ray_between m (at_ u) b e e0 t)) in X. refine (C b _ _ X). split; nra.
Qed.

(** ** The rays of a mesh *)
Definition rays (cs : list edge) (e0 : Q) (u : N) : Z :=
  (winding at_ cs (ray m (at_ u) true e0) + winding at_ cs (ray m (at_ u) false e0))%Z.

Lemma mesh_rays n out cs e0 all : valid_mesh at_ n out -> (forall t c, In t out -> tri_corner t c -> (c < n)%N) ->
  (forall u v, (u < n)%N -> (v < n)%N -> ~ same_place (at_ u) (at_ v) -> ~ height m (at_ u) == height m (at_ v)) ->
  simple_loops at_ cs -> (forall p, ~ on_constraint at_ cs p -> winding at_ cs p = 0%Z \/ winding at_ cs p = 1%Z) ->
  (forall p, ~ on_constraint at_ cs p -> (covered at_ out p <-> winding at_ cs p = 1%Z)) ->
  NoDup all -> (forall u v, In u all -> In v all -> same_place (at_ u) (at_ v) -> u = v) ->
  (forall u, In u all -> (u < n)%N) -> 0 < e0 -> (forall u, In u all -> clear_rays cs e0 u) ->
  (forall c, (c < n)%N -> covered at_ out (at_ c) -> exists u, In u all /\ same_place (at_ c) (at_ u)) ->
  Z.of_nat (length out) = total (map (rays cs e0) all).
Proof.
  intros VM Rg Ge SL Vals Cov ND Dis Ids E0 Cl All.
  set (opt := fun u b => if Z.eqb (winding at_ cs (ray m (at_ u) b e0)) 1 then [(u, b)] else []).
  set (tokens := flat_map (fun u => opt u true ++ opt u false) all).
  assert (Opt : forall u b x, In x (opt u b) <-> x = (u, b) /\ winding at_ cs (ray m (at_ u) b e0) = 1%Z).
  { intros u b x. unfold opt. destruct (Z.eqb_spec (winding at_ cs (ray m (at_ u) b e0)) 1) as [Q|Q]; cbn [In]; split; [intros [<-|[]]; auto|intros (-> & _); auto|tauto|intros (_ & K); tauto]. }
  assert (Tin : forall u b, In (u, b) tokens <-> In u all /\ winding at_ cs (ray m (at_ u) b e0) = 1%Z).
  { intros u b. unfold tokens. rewrite in_flat_map. split.
    - intros (v & V & K). apply in_app_or in K. destruct K as [K|K]; apply Opt in K; destruct K as (Q & K); injection Q as -> ->; auto.
    - intros (U & K). exists u. split; [exact U|]. apply in_or_app. destruct b; [left|right]; apply Opt; auto. }
  assert (Len : Z.of_nat (length tokens) = total (map (rays cs e0) all)).
  { assert (K : forall u b, In u all -> Z.of_nat (length (opt u b)) = winding at_ cs (ray m (at_ u) b e0)).
    { intros u b U. unfold opt. destruct (Vals _ (Cl u U b e0 ltac:(lra))) as [W|W]; rewrite W; reflexivity. }
    unfold tokens. clear - K. induction all as [|u l IH]; [reflexivity|]. cbn [flat_map map]. rewrite total_cons, !app_length, !Nat2Z.inj_add, IH by (intros v b V; apply K; now right).
    rewrite !K by now left. reflexivity. }
  rewrite <- Len. f_equal. apply (token_count m at_ n out VM Rg Ge).
  - unfold tokens. clear Len Tin Cl All Ids Dis. induction all as [|u l IH]; [constructor|]. inversion ND as [|u0 l0 X Y]; subst. cbn [flat_map]. apply nodup_both.
    + apply nodup_both; [unfold opt; destruct (Z.eqb _ _); repeat constructor; intros []..|]. intros x P Q. apply Opt in P, Q. destruct P as (-> & _), Q as (Q & _). discriminate.
    + now apply IH.
    + intros x P Q. apply in_flat_map in Q. destruct Q as (v & V & Q). apply in_app_or in P, Q.
      assert (P' : fst x = u) by (destruct P as [P|P]; apply Opt in P; destruct P as (-> & _); reflexivity).
      assert (Q' : fst x = v) by (destruct Q as [Q|Q]; apply Opt in Q; destruct Q as (-> & _); reflexivity). apply X. congruence.
  - intros u v b U V. apply Tin in U, V. apply Dis; tauto.
  - intros u b U. apply Tin in U. apply Ids. tauto.
  - intros u b U e1 E1. apply Tin in U. destruct U as (U & W). pose proof (Q.min_glb_lt _ _ _ E1 E0) as M. pose proof (Q.le_min_l e1 e0). pose proof (Q.le_min_r e1 e0).
    set (f := Qmin e1 e0) in *. clearbody f. exists (f * (1#2)). split; [lra|].
    apply Cov; [apply (Cl u U); lra|]. rewrite (ray_winding cs e0 u b _ SL (Cl u U)); [exact W|lra].
  - intros t c b I G. pose proof (vm_clockwise _ _ _ VM t I) as Cw. pose proof (germ_corner _ _ _ _ _ G) as Co.
    destruct (All c (Rg t c I Co) (corner_covered at_ n out t c VM I Co)) as (u & U & P). exists u. split; [|exact P].
    destruct (germ_inside m at_ t c b (at_ u) Cw G P) as (e1 & E1 & K). pose proof (Q.min_glb_lt _ _ _ E1 E0) as M. pose proof (Q.le_min_l e1 e0). pose proof (Q.le_min_r e1 e0).
    set (f := Qmin e1 e0) in *. clearbody f. apply Tin. split; [exact U|]. rewrite <- (ray_winding cs e0 u b (f * (1#2)) SL (Cl u U)) by lra.
    apply Cov; [apply (Cl u U); lra|]. apply (inside_covered _ _ t); [exact I|]. apply K. lra.
Qed.

(** Both rays of a vertex inside count. *)
Lemma rays_inside cs e0 u : simple_loops at_ cs -> 0 < e0 -> clear_rays cs e0 u -> ~ on_constraint at_ cs (at_ u) -> winding at_ cs (at_ u) = 1%Z -> rays cs e0 u = 2%Z.
Proof.
  intros SL E0 Cl Nu W. assert (K : forall b, winding at_ cs (ray m (at_ u) b e0) = 1%Z); [|unfold rays; rewrite !K; reflexivity].
  intros b. rewrite <- W. symmetry. apply (winding_step at_ cs (simple_closed at_ cs SL)). intros t (T1 & T2) X.
  destruct (Q_dec t 0) as [[Q|Q]|Q]; [lra| |].
  - apply (on_place at_ cs _ _ (ray_from m (at_ u) b e0 t)) in X. refine (Cl b _ _ X). split; nra.
  - apply Nu. apply (on_place at_ cs _ _ (along_zero (at_ u) (ray m (at_ u) b e0) t Q)). exact X.
Qed.
End Rays.

(** ** Loops among others *)
Section Loops.
Variables (m : Q) (at_ : N -> point).
Local Notation "'src' e" := (at_ (efrom e)) (at level 5, e at level 4).
Local Notation "'dst' e" := (at_ (eto e)) (at level 5, e at level 4).

Lemma winding_app l l' p : winding at_ (l ++ l') p = (winding at_ l p + winding at_ l' p)%Z.
Proof. unfold winding. rewrite map_app. exact (total_app _ _). Qed.

Lemma on_sub l l' p : incl l l' -> on_constraint at_ l p -> on_constraint at_ l' p.
Proof. intros H (e & s & I & K). exists e, s. split; [exact (H e I)|exact K]. Qed.

Lemma clear_sub l l' e0 u : incl l l' -> clear_rays m at_ l' e0 u -> clear_rays m at_ l e0 u.
Proof. intros H C b e L K. exact (C b e L (on_sub _ _ _ H K)). Qed.

Lemma offset L M e z e0 : simple_loops at_ (L ++ M) -> simple_loops at_ L -> simple_loops at_ M -> In e L ->
  near at_ (L ++ M) e (1#2) 1 -> near at_ L e (1#2) z -> 0 < e0 -> clear_rays m at_ (L ++ M) e0 (efrom e) ->
  rays m at_ (L ++ M) e0 (efrom e) = (rays m at_ L e0 (efrom e) + 2 * (1 - z))%Z.
Proof.
  intros SC SL SM I N1 Nz E0 Cl.
  assert (Ic : In e (L ++ M)) by (apply in_or_app; auto).
  assert (Sep : forall f, In f L -> In f M -> False).
  { pose proof (sl_once _ _ SC) as ND. clear - ND. induction L as [|x l IH]; [intros f []|]. cbn [app] in ND. inversion ND as [|x0 l0 X Y]; subst.
    intros f [<- |I] J; [apply X; apply in_or_app; auto|exact (IH Y f I J)]. }
  assert (Off : ~ on_constraint at_ M (src e)).
  { intros (f & s & J & P & S & K). assert (Jc : In f (L ++ M)) by (apply in_or_app; auto).
    destruct (sl_meet _ _ SC e f 0 s Ic Jc ltac:(lra) S) as [->|(_ & [Q|Q])].
    - apply (Ring.place_trans _ (src e)); [now apply along_zero|exact K].
    - exact (Sep f I J).
    - assert (X : e = f); [|subst f; exact (Sep e I J)]. apply (sl_start _ _ SC e f Ic Jc). apply (Ring.place_trans _ _ _ K). now apply along_zero.
    - destruct (sl_prev _ _ SL e I) as (e' & I' & V). assert (X : e' = f); [|subst f; exact (Sep e' I' J)].
      apply (sl_end _ _ SC e' f (in_or_app _ _ _ (or_introl I')) Jc). apply (Ring.place_trans _ _ _ V). apply (Ring.place_trans _ _ _ K). now apply along_one. }
  destruct (winding_around at_ M (src e) SM Off) as (r & R & W).
  assert (C1 : winding at_ M (src e) = (1 - z)%Z).
  { destruct (small (r * (1#2)) (fst (dst e) - fst (src e)) (snd (dst e) - snd (src e))) as (t & (T1 & T2) & (X1 & X2) & Y1 & Y2); [lra|].
    set (s := t * (1#2)). assert (S : 0 < s < 1) by (unfold s; lra).
    destruct (near_along at_ L SL e (1#2) s z I half S Nz) as (r2 & R2 & K2).
    pose proof (near_along at_ (L ++ M) SC e (1#2) s 1 Ic half S N1) as K1.
    assert (R' : 0 < r * (1#2)) by lra. pose proof (Q.min_glb_lt _ _ _ R' R2) as Mi. pose proof (Q.le_min_l (r * (1#2)) r2) as M1. pose proof (Q.le_min_r (r * (1#2)) r2) as M2.
    set (r0 := Qmin (r * (1#2)) r2) in *. clearbody r0.
    destruct (right_point at_ (L ++ M) e s 1 r0 SC Ic S K1 Mi) as (q & Sq & Nq & Wq & Oq).
    assert (A : square (along (src e) (dst e) s) r2 q) by (clear - Sq M2; unfold square in *; repeat split; lra).
    assert (B : square (src e) r q).
    { clear - Sq M1 X1 X2 Y1 Y2 R. unfold square, along in *. cbn [fst snd] in *. unfold s in *. set (x := fst (dst e) - fst (src e)) in *. set (y := snd (dst e) - snd (src e)) in *.
      clearbody x y. repeat split; nra. }
    destruct (W q B) as (_ & Wm). rewrite <- Wm. pose proof (proj1 (K2 q A) Oq) as Wl. rewrite winding_app in Wq. lia. }
  assert (Cm : clear_rays m at_ M e0 (efrom e)) by (apply (clear_sub M (L ++ M)); [intros f J; apply in_or_app; auto|exact Cl]).
  assert (K : forall b, winding at_ M (ray m (src e) b e0) = (1 - z)%Z).
  { intros b. destruct (ray_near m (src e) b r R) as (e1 & E1 & Nr).
    pose proof (Q.min_glb_lt _ _ _ E1 E0) as Mi. pose proof (Q.le_min_l e1 e0). pose proof (Q.le_min_r e1 e0). set (f := Qmin e1 e0) in *. clearbody f.
    rewrite <- (ray_winding m at_ M e0 (efrom e) b (f * (1#2)) SM Cm) by lra. rewrite <- C1. apply W. destruct (Nr (f * (1#2)) ltac:(lra)) as (Q1 & Q2).
    unfold square. split; [exact Q1|exact Q2]. }
  unfold rays. rewrite !winding_app, !K. lia.
Qed.

(** ** Loops taken the other way *)
Definition turned_edge (e : edge) : edge := Edge (eto e) (efrom e).
Definition turned_loop (L : list edge) : list edge := map turned_edge L.

Lemma turned_in L e : In e L -> In (turned_edge e) (turned_loop L).
Proof. apply in_map. Qed.

Lemma turned_winding L p : winding at_ (turned_loop L) p = (- winding at_ L p)%Z.
Proof.
  unfold winding, turned_loop. rewrite map_map. induction L as [|e l IH]; [reflexivity|]. cbn [map fold_right]. rewrite IH. unfold turned_edge. cbn [efrom eto].
  rewrite crossing_flip. lia.
Qed.

Lemma along_turned p q s : same_place (along q p (1 - s)) (along p q s).
Proof. unfold along; split; cbn [fst snd]; ring. Qed.

Lemma turned_on L p : on_constraint at_ (turned_loop L) p <-> on_constraint at_ L p.
Proof.
  split.
  - intros (e & s & I & P & S & K). apply in_map_iff in I. destruct I as (f & <- & I). exists f, (1 - s). split; [exact I|].
    split; [intros Q; apply P; now apply Ring.place_sym|]. split; [lra|]. cbn [turned_edge efrom eto] in K. apply (Ring.place_trans _ _ _ K). apply Ring.place_sym. apply along_turned.
  - intros (e & s & I & P & S & K). exists (turned_edge e), (1 - s). split; [now apply turned_in|]. unfold proper, turned_edge. cbn [efrom eto].
    split; [intros Q; apply P; now apply Ring.place_sym|]. split; [lra|]. apply (Ring.place_trans _ _ _ K). apply Ring.place_sym. apply along_turned.
Qed.

Lemma turned_loops L : simple_loops at_ L -> simple_loops at_ (turned_loop L).
Proof.
  intros [A1 A2 A3 A4 A5 A6 A7]. constructor.
  - apply FinFun.Injective_map_NoDup; [|exact A1]. intros (x, y) (x', y') Q. cbn in Q. unfold turned_edge in Q. cbn in Q. congruence.
  - intros e I. apply in_map_iff in I. destruct I as (f & <- & I). intros Q. apply (A2 f I). now apply Ring.place_sym.
  - intros e I. apply in_map_iff in I. destruct I as (f & <- & I). destruct (A4 f I) as (g & J & V). exists (turned_edge g). split; [now apply turned_in|]. cbn [turned_edge efrom eto]. now apply Ring.place_sym.
  - intros e I. apply in_map_iff in I. destruct I as (f & <- & I). destruct (A3 f I) as (g & J & V). exists (turned_edge g). split; [now apply turned_in|]. cbn [turned_edge efrom eto]. now apply Ring.place_sym.
  - intros e e' I I' K. apply in_map_iff in I, I'. destruct I as (f & <- & I), I' as (f' & <- & I'). f_equal. exact (A6 f f' I I' K).
  - intros e e' I I' K. apply in_map_iff in I, I'. destruct I as (f & <- & I), I' as (f' & <- & I'). f_equal. exact (A5 f f' I I' K).
  - intros e e' s r I I' S R K. apply in_map_iff in I, I'. destruct I as (f & <- & I), I' as (f' & <- & I'). cbn [turned_edge efrom eto] in K.
    destruct (A7 f f' (1 - s) (1 - r) I I' ltac:(lra) ltac:(lra)) as [->|(Q1 & Q2)]; [|now left|].
    + apply (Ring.place_trans _ (along (dst f) (src f) s)); [unfold along; split; cbn [fst snd]; ring|].
      apply (Ring.place_trans _ _ _ K). unfold along; split; cbn [fst snd]; ring.
    + right. split; [destruct Q1; [right|left]|destruct Q2; [right|left]]; lra.
Qed.

Lemma turned_same L e f : In e L -> same_loop at_ L e f -> In f L /\ same_loop at_ (turned_loop L) (turned_edge f) (turned_edge e).
Proof.
  intros I H. induction H as [|f g H IH J V]; [split; [exact I|apply loop_here]|]. destruct IH as (If & IH). split; [exact J|].
  apply (same_loop_trans at_ (turned_loop L) _ (turned_edge f)); [|exact IH].
  apply (loop_next _ _ _ (turned_edge g)); [apply loop_here|now apply turned_in|]. cbn [turned_edge efrom eto]. now apply Ring.place_sym.
Qed.

Lemma turned_polygon L : simple_polygon at_ L -> simple_polygon at_ (turned_loop L).
Proof.
  intros (SL & One). split; [now apply turned_loops|]. intros e e' I I'. apply in_map_iff in I, I'. destruct I as (f & <- & I), I' as (f' & <- & I').
  exact (proj2 (turned_same L f' f I' (One f' f I' I))).
Qed.

Lemma turned_near L e : near at_ (turned_loop L) (turned_edge e) (1#2) 1 -> near at_ L e (1#2) 0.
Proof.
  intros (r & R & K). exists r. split; [exact R|]. intros q Sq. destruct (K q) as (A & B).
  { cbn [turned_edge efrom eto]. clear - Sq. unfold square, along in *. cbn [fst snd] in *. repeat split; lra. }
  rewrite turned_winding in A, B. cbn [turned_edge efrom eto] in A, B.
  assert (O : orient (dst e) (src e) q == - orient (src e) (dst e) q) by (unfold orient; ring).
  split; intros X; [specialize (B ltac:(lra))|specialize (A ltac:(lra))]; lia.
Qed.

Lemma turned_rays L e0 u : rays m at_ (turned_loop L) e0 u = (- rays m at_ L e0 u)%Z.
Proof. unfold rays. rewrite !turned_winding. lia. Qed.

(** ** The sum over all loops *)
Lemma part_loops l l' : simple_loops at_ l' -> NoDup l -> incl l l' ->
  (forall e, In e l -> exists f, In f l /\ same_place (dst e) (src f)) -> (forall f, In f l -> exists e, In e l /\ same_place (dst e) (src f)) ->
  simple_loops at_ l.
Proof.
  intros [A1 A2 A3 A4 A5 A6 A7] ND H Nx Pv. constructor; auto. intros e f s r I J. apply A7; auto.
Qed.

Lemma total_offset (F G : edge -> Z) k l : (forall e, In e l -> F e = (G e + k)%Z) -> total (map F l) = (total (map G l) + k * Z.of_nat (length l))%Z.
Proof.
  induction l as [|e l IH]; intros H; [cbn; lia|]. cbn [map length]. rewrite !total_cons, IH by (intros f J; apply H; now right). rewrite (H e) by now left. lia.
Qed.
End Loops.
