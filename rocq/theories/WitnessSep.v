(** * WitnessSep: decimal inputs (not on any grid) that are well separated, in f64 and f32. *)

From Coq Require Lqa.
From Coq Require Import ZArith NArith List Bool QArith Qabs SpecFloat Lia.
From Verif Require Import Base Arith Types Utils Infinite Triangulation Constrained F64 Spec QEnv GridSpec InputSpec.
Import ListNotations.

(** ** A boolean check, on integers: the points are z / 2^k *)
Section Check.
Local Open Scope Q_scope.
Variable k : positive.
Notation K := (inject_Z (2 ^ Zpos k)).
Definition scale_pt (p : Z * Z) : point := (inject_Z (fst p) * / K, inject_Z (snd p) * / K).

Lemma K_pos : 0 < / K.
Proof. apply Qinv_lt_0_compat. change 0 with (inject_Z 0). rewrite <- Zlt_Qlt. apply Z.pow_pos_nonneg; lia. Qed.

Section Integers.
Local Open Scope Z_scope.
Definition zsame (a b : Z * Z) : bool := (fst a =? fst b) && (snd a =? snd b).
Definition zaligned (a b c : Z * Z) : bool :=
  zsame a b || zsame b c || zsame a c || ((fst a =? fst b) && (fst b =? fst c)) || ((snd a =? snd b) && (snd b =? snd c)).
Definition zcorner (a b c : Z * Z) : bool :=
  ((fst c =? fst a) && (snd c =? snd b)) || ((fst c =? fst b) && (snd c =? snd a)).

Definition sepb (m s : Z) (l : list (Z * Z)) : bool :=
  forallb (fun a => forallb (fun b =>
    ((fst a =? fst b) || (40 * s <=? Z.abs (fst a - fst b) * m)) &&
    ((snd a =? snd b) || (40 * s <=? Z.abs (snd a - snd b) * m)) &&
    forallb (fun c =>
      (zaligned a b c || (24 * (s * s) <=? Z.abs (zorient a b c) * m)) &&
      ((0 <=? zorient b a c) || forallb (fun d =>
         (0 <=? zorient d a b) || (zcorner a b c && zcorner a b d) ||
         (192 * (s * s * (s * s)) <=? Z.abs (zincircle a b c d) * m)) l)) l) l) l.
End Integers.

Lemma q_eq x y : (x =? y)%Z = true -> inject_Z x * / K == inject_Z y * / K.
Proof. intros H. apply Z.eqb_eq in H. now subst. Qed.

Lemma margin c m x y z w : (0 < m)%Z -> 0 < w -> (c * y <=? Z.abs x * m)%Z = true -> z == inject_Z y * w ->
  inject_Z c * (1 # Z.to_pos m) * z <= Qabs (inject_Z x * w).
Proof.
  intros Hm Hw H Ez. apply Z.leb_le in H. rewrite Qabs_Qmult, (Qabs_pos w) by now apply Qlt_le_weak.
  assert (Ea : Qabs (inject_Z x) == inject_Z (Z.abs x)) by reflexivity.
  rewrite Ea, Ez. rewrite Qmult_assoc. apply Qmult_le_compat_r; [|now apply Qlt_le_weak].
  assert (Em : (1 # Z.to_pos m) == / inject_Z m).
  { unfold inject_Z. destruct m as [|p|p]; try lia. reflexivity. }
  rewrite Em. setoid_replace (inject_Z c * / inject_Z m * inject_Z y) with (inject_Z (c * y) / inject_Z m)
    by (rewrite inject_Z_mult; unfold Qdiv; ring).
  apply Qle_shift_div_r; [change 0 with (inject_Z 0); now rewrite <- Zlt_Qlt|]. rewrite <- inject_Z_mult. now rewrite <- Zle_Qle.
Qed.

Lemma orient_scale a b c : orient (scale_pt a) (scale_pt b) (scale_pt c) == inject_Z (zorient a b c) * (/ K * / K).
Proof. unfold orient, scale_pt, zorient; cbn [fst snd]. unfold Z.sub. rewrite ?inject_Z_plus, ?inject_Z_opp, ?inject_Z_mult, ?inject_Z_plus, ?inject_Z_opp. ring. Qed.

Lemma incircle_scale a b c d : qincircle (scale_pt a) (scale_pt b) (scale_pt c) (scale_pt d) ==
  inject_Z (zincircle a b c d) * (/ K * / K * (/ K * / K)).
Proof.
  unfold qincircle, sqdist, scale_pt, zincircle, zsq; cbn [fst snd]. unfold Z.sub.
  repeat (rewrite ?inject_Z_plus, ?inject_Z_opp, ?inject_Z_mult). ring.
Qed.

Lemma neg_scale x w : 0 < w -> (0 <=? x)%Z = true -> inject_Z x * w < 0 -> False.
Proof.
  intros Hw H N. apply Z.leb_le in H. apply (Qlt_not_le _ _ N). apply Qmult_le_0_compat; [|now apply Qlt_le_weak].
  change 0 with (inject_Z 0). now rewrite <- Zle_Qle.
Qed.

Lemma zsame_ok a b : zsame a b = true -> same_place (scale_pt a) (scale_pt b).
Proof. unfold zsame. rewrite andb_true_iff. intros (A & B). split; cbn [fst snd scale_pt]; now apply q_eq. Qed.

Lemma sepb_ok m s l : (0 < m)%Z -> sepb m s l = true ->
  well_separated (1 # Z.to_pos m) (inject_Z s * / K) (map scale_pt l).
Proof.
  intros Hm H. unfold sepb in H. rewrite forallb_forall in H. pose proof K_pos as Kp.
  assert (Kp2 : 0 < / K * / K) by now apply Qmult_lt_0_compat.
  assert (Kp4 : 0 < / K * / K * (/ K * / K)) by now apply Qmult_lt_0_compat.
  assert (H2 : forall a b, In a l -> In b l -> _) by (intros a b A B; specialize (H a A); rewrite forallb_forall in H; exact (H b B)).
  clear H. cbv beta in H2.
  assert (H3 : forall a b c, In a l -> In b l -> In c l ->
     (zaligned a b c || (24 * (s * s) <=? Z.abs (zorient a b c) * m)%Z = true) /\
     ((0 <=? zorient b a c)%Z || forallb (fun d => (0 <=? zorient d a b)%Z || (zcorner a b c && zcorner a b d) ||
         (192 * (s * s * (s * s)) <=? Z.abs (zincircle a b c d) * m)%Z) l = true)).
  { intros a b c A B C. specialize (H2 a b A B). rewrite !andb_true_iff, forallb_forall in H2. destruct H2 as (_ & H2).
    specialize (H2 c C). now apply andb_true_iff in H2. }
  constructor.
  - intros a' b' A' B'. apply in_map_iff in A', B'. destruct A' as (a & <- & A), B' as (b & <- & B).
    specialize (H2 a b A B). rewrite !andb_true_iff in H2. destruct H2 as ((J & _) & _).
    apply orb_true_iff in J. destruct J as [J|J]; [left; now apply q_eq|right].
    pose proof (margin 40 m (fst a - fst b) s (inject_Z s * / K) (/ K) Hm Kp J (Qeq_refl _)) as J'.
    cbn [scale_pt fst snd]. setoid_replace (inject_Z (fst a) * / K - inject_Z (fst b) * / K) with (inject_Z (fst a - fst b) * / K); [exact J'|].
    unfold Z.sub. rewrite inject_Z_plus, inject_Z_opp. ring.
  - intros a' b' A' B'. apply in_map_iff in A', B'. destruct A' as (a & <- & A), B' as (b & <- & B).
    specialize (H2 a b A B). rewrite !andb_true_iff in H2. destruct H2 as ((_ & J) & _).
    apply orb_true_iff in J. destruct J as [J|J]; [left; now apply q_eq|right].
    pose proof (margin 40 m (snd a - snd b) s (inject_Z s * / K) (/ K) Hm Kp J (Qeq_refl _)) as J'.
    cbn [scale_pt fst snd]. setoid_replace (inject_Z (snd a) * / K - inject_Z (snd b) * / K) with (inject_Z (snd a - snd b) * / K); [exact J'|].
    unfold Z.sub. rewrite inject_Z_plus, inject_Z_opp. ring.
  - intros a' b' c' A' B' C'. apply in_map_iff in A', B', C'. destruct A' as (a & <- & A), B' as (b & <- & B), C' as (c & <- & C).
    destruct (H3 a b c A B C) as (J & _). apply orb_true_iff in J.
    destruct J as [J|J]; [left|right].
    + unfold zaligned in J. rewrite !orb_true_iff, !andb_true_iff in J. unfold plainly_aligned.
      destruct J as [[[[J|J]|J]|(J & J')]|(J & J')]; try (apply zsame_ok in J; auto); apply q_eq in J, J'; auto 10.
    + rewrite orient_scale. apply (margin 24 m _ (s * s)); auto. rewrite inject_Z_mult. ring.
  - intros a' b' c' d' A' B' C' D' K1 K2. apply in_map_iff in A', B', C', D'.
    destruct A' as (a & <- & A), B' as (b & <- & B), C' as (c & <- & C), D' as (d & <- & D).
    destruct (H3 a b c A B C) as (_ & J). apply orb_true_iff in J. unfold clockwise in *. rewrite orient_scale in K1, K2.
    destruct J as [J|J]; [exfalso; exact (neg_scale _ _ Kp2 J K2)|].
    rewrite forallb_forall in J. specialize (J d D). rewrite !orb_true_iff, andb_true_iff in J.
    destruct J as [[J|(J & J')]|J]; [exfalso; exact (neg_scale _ _ Kp2 J K1)|left|right].
    + unfold zcorner, box_corner in *. rewrite !orb_true_iff, !andb_true_iff in J, J'. split.
      * destruct J as [(L & L')|(L & L')]; apply q_eq in L, L'; auto.
      * destruct J' as [(L & L')|(L & L')]; apply q_eq in L, L'; auto.
    + rewrite incircle_scale. apply (margin 192 m _ (s * s * (s * s))); auto. rewrite !inject_Z_mult. ring.
Qed.

(** The bounding box. *)
Definition boxb (l : list (Z * Z)) (mx my s : Z) : bool :=
  ((0 <? s) &&
  forallb (fun p => (mx <=? fst p) && (fst p <=? mx + s) && ((my <=? snd p) && (snd p <=? my + s))) l &&
  existsb (fun p => fst p =? mx) l && existsb (fun p => snd p =? my) l &&
  existsb (fun p => (fst p =? mx + s) || (snd p =? my + s)) l)%Z.

Lemma le_scale x y : (x <= y)%Z -> inject_Z x * / K <= inject_Z y * / K.
Proof. intros H. apply Qmult_le_compat_r; [now rewrite <- Zle_Qle|]. apply Qlt_le_weak, K_pos. Qed.

Lemma boxb_ok l mx my s : boxb l mx my s = true -> extent (map scale_pt l) (inject_Z s * / K).
Proof.
  unfold boxb. rewrite !andb_true_iff, !existsb_exists, forallb_forall.
  intros ((((S & H) & (p & Hp & Ep)) & (q & Hq & Eq)) & (r & Hr & Er)). exists (inject_Z mx * / K), (inject_Z my * / K).
  assert (Pl : forall a b, inject_Z a * / K + inject_Z b * / K == inject_Z (a + b) * / K) by (intros; rewrite inject_Z_plus; ring).
  split; [|split; [|split; [|split]]].
  - apply Z.ltb_lt in S. rewrite Zlt_Qlt in S. apply Qmult_lt_0_compat; [exact S|apply K_pos].
  - intros z' Hz'. apply in_map_iff in Hz'. destruct Hz' as (z & <- & Hz). specialize (H z Hz).
    rewrite !andb_true_iff, !Z.leb_le in H. destruct H as ((A & B) & (C & D)).
    rewrite !Pl. cbn [scale_pt fst snd]. repeat split; now apply le_scale.
  - exists (scale_pt p). split; [now apply in_map|]. now apply q_eq.
  - exists (scale_pt q). split; [now apply in_map|]. now apply q_eq.
  - exists (scale_pt r). split; [now apply in_map|]. rewrite !Pl. apply orb_true_iff in Er. destruct Er as [Er|Er]; apply q_eq in Er; auto.
Qed.

Definition smallb (l : list (Z * Z)) : bool :=
  forallb (fun p => (Z.abs (fst p) <? 2 ^ (58 + Zpos k)) && (Z.abs (snd p) <? 2 ^ (58 + Zpos k)))%Z l.

Lemma small_scale x : (Z.abs x <? 2 ^ (58 + Zpos k))%Z = true -> Qabs (inject_Z x * / K) < inject_Z (2 ^ 58).
Proof.
  intros H. apply Z.ltb_lt in H. pose proof K_pos as Kp. rewrite Qabs_Qmult, (Qabs_pos (/ K)) by now apply Qlt_le_weak.
  apply Qlt_shift_div_r; [change 0 with (inject_Z 0); rewrite <- Zlt_Qlt; apply Z.pow_pos_nonneg; lia|].
  rewrite <- inject_Z_mult, <- Z.pow_add_r by lia. change (Qabs (inject_Z x)) with (inject_Z (Z.abs x)). now rewrite <- Zlt_Qlt.
Qed.

Lemma smallb_ok l : smallb l = true -> forall p, In p (map scale_pt l) -> Qabs (fst p) < inject_Z (2 ^ 58) /\ Qabs (snd p) < inject_Z (2 ^ 58).
Proof.
  unfold smallb. rewrite forallb_forall. intros H p' Hp'. apply in_map_iff in Hp'. destruct Hp' as (p & <- & Hp).
  specialize (H p Hp). apply andb_true_iff in H. destruct H as (A & B). split; now apply small_scale.
Qed.
End Check.

(** ** Thousandths *)
Definition milli (prec emax z : Z) : spec_float := SFdiv prec emax (sf_of_Z prec emax z) (sf_of_Z prec emax 1000).
Definition mpt (prec emax : Z) (p : Z * Z) : spec_float * spec_float := (milli prec emax (fst p), milli prec emax (snd p)).

(** The value of a float, in units of 1/2^k. *)
Definition units (k : positive) (x : spec_float) : Z :=
  match x with S754_finite s m e => (if s then Zneg m else Zpos m) * 2 ^ (e + Zpos k) | _ => 0 end%Z.
Definition upt (k : positive) (v : spec_float * spec_float) : Z * Z := (units k (fst v), units k (snd v)).

Definition isb (prec emax : Z) (x : spec_float) (q : Q) : bool :=
  valid_binary prec emax x && sf_is_finite x && Qeq_bool (sf_value x) q.

Lemma isb_ok prec emax x q : isb prec emax x q = true -> sf_is prec emax x q.
Proof. unfold isb. rewrite !andb_true_iff. intros ((A & B) & C). split; auto. split; auto. now apply Qeq_bool_iff. Qed.

Lemma verts_ok prec emax k (vs : list (spec_float * spec_float)) :
  forallb (fun v => isb prec emax (fst v) (fst (scale_pt k (upt k v))) && isb prec emax (snd v) (snd (scale_pt k (upt k v)))) vs = true ->
  Forall2 (fun v p => sf_is prec emax (fst v) (fst p) /\ sf_is prec emax (snd v) (snd p)) vs (map (scale_pt k) (map (upt k) vs)).
Proof.
  induction vs as [|v vs IH]; intros H; [constructor|]. cbn [forallb map] in *. apply andb_true_iff in H. destruct H as (H & H').
  constructor; [|auto]. apply andb_true_iff in H. destruct H. split; now apply isb_ok.
Qed.

(** A rectangle with three more points, one of them given twice. *)
Definition lm : list (Z * Z) :=
  [(100, 100); (100, 900); (1300, 100); (1300, 900); (370, 421); (1013, 333); (370, 421); (777, 1411)]%Z.
Definition lm64 := map (mpt 53 1024) lm.
Definition lm32 := map (mpt 24 128) lm.
(** The exact values of these floats. *)
Definition lm64_pts : list point := map (scale_pt 60) (map (upt 60) lm64).
Definition lm32_pts : list point := map (scale_pt 30) (map (upt 30) lm32).

Lemma lm64_separated : separated (E := env64) lm64 lm64_pts (2 ^ 40).
Proof.
  exists (sf_is 53 1024), (1 # 2 ^ 52), (inject_Z (units 60 (milli 53 1024 1411) - units 60 (milli 53 1024 100)) * / inject_Z (2 ^ 60)).
  split; [exact (Prec_f64 u32_max)|]. split; [apply (verts_ok 53 1024 60); vm_compute; reflexivity|].
  split; [apply smallb_ok; vm_compute; reflexivity|].
  split; [apply (boxb_ok 60 _ (units 60 (milli 53 1024 100)) (units 60 (milli 53 1024 100))); vm_compute; reflexivity|].
  apply (sepb_ok 60 (2 ^ 52)); [reflexivity|]. vm_compute. reflexivity.
Qed.

Lemma lm32_separated : separated (E := env32) lm32 lm32_pts (2 ^ 13).
Proof.
  exists (sf_is 24 128), (1 # 2 ^ 23), (inject_Z (units 30 (milli 24 128 1411) - units 30 (milli 24 128 100)) * / inject_Z (2 ^ 30)).
  split; [exact (Prec_f32 u32_max)|]. split; [apply (verts_ok 24 128 30); vm_compute; reflexivity|].
  split; [apply smallb_ok; vm_compute; reflexivity|].
  split; [apply (boxb_ok 30 _ (units 30 (milli 24 128 100)) (units 30 (milli 24 128 100))); vm_compute; reflexivity|].
  apply (sepb_ok 30 (2 ^ 23)); [reflexivity|]. vm_compute. reflexivity.
Qed.

Definition out_m : list (N * N * N) :=
  [(7, 3, 6); (2, 0, 5); (5, 0, 6); (3, 5, 6); (3, 2, 5); (7, 6, 1); (1, 6, 0)]%N.

Lemma lm64_input : exact_input (E := env64) lm64 (qpoint lm64_pts) (2 ^ 40).
Proof. exact (Input_separated (E := env64) lm64 lm64_pts _ lm64_separated). Qed.
Lemma lm32_input : exact_input (E := env32) lm32 (qpoint lm32_pts) (2 ^ 13).
Proof. exact (Input_separated (E := env32) lm32 lm32_pts _ lm32_separated). Qed.

Lemma lm64_dt : triangulation_from_2d_vertices (E := env64) 100 3 lm64 = Ret out_m.
Proof. vm_compute. reflexivity. Qed.
Lemma lm32_dt : triangulation_from_2d_vertices (E := env32) 100 3 lm32 = Ret out_m.
Proof. vm_compute. reflexivity. Qed.

Lemma lm64_cdt : constrained_triangulation_from_2d_vertices (E := env64) 1000 3 lm64 [Edge 1 5; Edge 4 2; Edge 5 7] =
  Ret [(2, 0, 6); (1, 6, 0); (5, 7, 3); (3, 2, 5); (2, 6, 5); (5, 6, 1); (5, 1, 7)]%N.
Proof. vm_compute. reflexivity. Qed.
