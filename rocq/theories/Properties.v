(** * Properties: the theorems that state the properties of properties.jsonl.

    Each theorem is closed by a lemma of another file; [Print Assumptions] lists what it
    rests on.  Statements use the model's functions only to name the code under
    scrutiny; the vocabulary of the claims is in [Spec.v]. *)

From Coq Require Lra.
From Coq Require Import Reals.
From Coq Require Import ZArith NArith List Bool Permutation QArith SpecFloat Sorted.
From Verif Require Import SpecArea Facing Area AreaGrid BoxArea BoxAreaGrid Used SpecTiles Tiles SpecTilesArea TilesArea TilesCount SpecConforming TilesBorder TypesMore TypesFacts SpecAlone TilesAlone WitnessTiles WitnessAlone WitnessFork WitnessFrame Anywhere AnywhereCount WitnessAnywhere Outside WitnessOutside RaysGrid FillingGrid SpecFilling Jordan InsideGrid TallyGrid SelectGrid Base Arith Types Utils Infinite Triangulation Constrained F64 QEnv Spec GridSpec InputSpec SpecSelect WitnessSelect SpecTally WitnessTally SpecWinding WitnessWinding WitnessPolygon WitnessRays
  SpecBox BoxGrid WitnessError WitnessBox SpecDomain LocalGrid WitnessLocal DomainGrid WitnessHole CDelGrid WitnessDel COrderGrid WitnessOrder SpecUnique UniqueGrid WitnessUnique Charact WitnessMove SpecVisible VisibleGrid WitnessVisible CCharact WitnessCExact SpecAngle AngleApi WitnessAngle SpecRound3d Round3dApi WitnessRound3d
  SpecCount Count WitnessCount Slope Identical Input2d SpecCast CastApi Cast3d WitnessCast
  AnyDT SpecCdt AnyCDT Small Refuted DTOut GridApi ApiProps ApiGrid PredApi QNorm GridCdt LawsonGrid Witness WitnessSep WitnessLawson Quality SpecQuality QualityFacts QualityApi WitnessQuality SpecMargin RoundCircleApi WitnessMargin BaseFacts Debug SpecDebug DebugFacts DebugEnd DebugTrace DebugReplay WitnessDebug Space3d Spec3d Space3dFacts Witness3d.
Import ListNotations.
Local Open Scope N_scope.

(** ** C01 *)
Theorem C01_fewer_than_three {E : Env} fuel bins (vs : list vertex) (cs : list edge) :
  lenN vs < 3 ->
  triangulation_from_2d_vertices fuel bins vs = Ret [] /\
  constrained_triangulation_from_2d_vertices fuel bins vs cs = Ret [].
Proof. exact (small_input fuel bins vs cs). Qed.
Print Assumptions C01_fewer_than_three.

(** Two vertices, one of them NaN, with an out of range constraint. *)
Example C01_case : lenN [(S754_nan, S754_nan); pt 0 1] < 3 /\
  constrained_triangulation_from_2d_vertices (E := env64) 10 1 [(S754_nan, S754_nan); pt 0 1] [Edge 7 9] = Ret [].
Proof. split; reflexivity. Qed.

(** ** C02 *)
Theorem C02_indices_valid_dt {E : Env} fuel bins (vs : list vertex) out :
  lenN vs <= idmax + 1 -> triangulation_from_2d_vertices fuel bins vs = Ret out ->
  forall a b c, In (a, b, c) out -> a < lenN vs /\ b < lenN vs /\ c < lenN vs.
Proof. exact (fun H R => proj1 (dt_ids fuel bins vs out H R)). Qed.
Print Assumptions C02_indices_valid_dt.

Theorem C02_indices_valid_cdt {E : Env} fuel bins (vs : list vertex) cs out :
  lenN vs <= idmax + 1 -> constrained_triangulation_from_2d_vertices fuel bins vs cs = Ret out ->
  forall a b c, In (a, b, c) out -> a < lenN vs /\ b < lenN vs /\ c < lenN vs.
Proof. exact (fun H R => proj1 (cdt_ids fuel bins vs cs out H R)). Qed.
Print Assumptions C02_indices_valid_cdt.

Example C02_case : lenN (pts lw) <= @idmax env64 + 1 /\ dt64 100 2 lw = Ret out_w /\
  exists out, cdt64 1000 2 lw [(0, 3); (4, 3)] = Ret out /\ out <> [].
Proof.
  split; [vm_compute; discriminate|]. split; [exact lw_dt|].
  eexists. split; [vm_compute; reflexivity|discriminate].
Qed.

(** ** C03 *)
Theorem C03_bin_sort_permutation {E : Env} bins (vs : list vertex) order :
  lenN vs <= idmax + 1 -> bin_sort bins vs = Ret order ->
  Permutation order (rangeN 0 (length vs)).
Proof. exact (bin_sort_permutation bins vs order). Qed.
Print Assumptions C03_bin_sort_permutation.

Example C03_case : bin_sort (E := env64) 2 (normalized (E := env64) (pts lw)) = Ret order_w.
Proof. vm_compute. reflexivity. Qed.

(** ** C04 (refuted part) *)
Theorem C04_zero_bins_refuted {E : Env} fuel (vs : list vertex) :
  3 <= lenN vs -> triangulation_from_2d_vertices fuel 0 vs = Panic.
Proof. exact (zero_bins_panics fuel vs). Qed.
Print Assumptions C04_zero_bins_refuted.

(** Exact rationals, f64 and f32. *)
Theorem C04_bin_sort_in_range E val bound bins (vs : list vertex) :
  numbers E val bound -> 1 <= bins -> (Z.of_N bins <= bound)%Z ->
  (forall v, In v vs -> exists x y, val (vx v) x /\ val (vy v) y /\ (0 <= x <= 1)%Q /\ (0 <= y <= 1)%Q) ->
  exists order, bin_sort bins vs = Ret order.
Proof. exact (numbers_bins E val bound bins vs). Qed.
Print Assumptions C04_bin_sort_in_range.

Example C04_case : numbers env64 (sf_is 53 1024) (2 ^ 40) /\
  (forall v, In v [pt 0 1; pt 1 1; pt 1 0] ->
     exists x y, sf_is 53 1024 (fst v) x /\ sf_is 53 1024 (snd v) y /\ (0 <= x <= 1)%Q /\ (0 <= y <= 1)%Q).
Proof.
  split; [apply Num_f64|]. intros v [<-|[<-|[<-|[]]]].
  - exists 0%Q, 1%Q. vm_compute. repeat split; try reflexivity; discriminate.
  - exists 1%Q, 1%Q. vm_compute. repeat split; try reflexivity; discriminate.
  - exists 1%Q, 0%Q. vm_compute. repeat split; try reflexivity; discriminate.
Qed.

(** ** C05 *)
Theorem C05_unit_square E val bound (vs : list vertex) :
  numbers E val bound ->
  (forall v, In v vs -> exists x y, val (vx v) x /\ val (vy v) y /\
     (Qabs.Qabs x < inject_Z (2 ^ 58))%Q /\ (Qabs.Qabs y < inject_Z (2 ^ 58))%Q) ->
  (exists v v' x y x' y', In v vs /\ In v' vs /\ val (vx v) x /\ val (vy v) y /\ val (vx v') x' /\ val (vy v') y' /\
     ~ same_place (x, y) (x', y')) ->
  forall v, In v (normalized vs) ->
    exists x y, val (vx v) x /\ val (vy v) y /\ (0 <= x <= 1)%Q /\ (0 <= y <= 1)%Q.
Proof. exact (numbers_unit E val bound vs). Qed.
Print Assumptions C05_unit_square.

(** In exact arithmetic, all inputs. *)
Theorem C05_similarity_exact maxid (vs : list point) :
  moderate vs -> (exists p q, In p vs /\ In q vs /\ ~ same_place p q) ->
  exists k tx ty, (0 < k)%Q /\ Forall2 (moved k tx ty) vs (normalized (E := envQ maxid) vs).
Proof. exact (normalize_similarity maxid vs). Qed.
Print Assumptions C05_similarity_exact.

(** What a similarity preserves. *)
Theorem C05_similarity_preserves k tx ty a b c d a' b' c' d' :
  (0 < k)%Q -> moved k tx ty a a' -> moved k tx ty b b' -> moved k tx ty c c' -> moved k tx ty d d' ->
  (clockwise a' b' c' <-> clockwise a b c) /\
  (in_circumcircle a' b' c' d' <-> in_circumcircle a b c d).
Proof. exact (similarity_preserves k tx ty a b c d a' b' c' d'). Qed.
Print Assumptions C05_similarity_preserves.

(** On the grids, also in f64 and f32: no rounding at all. *)
Theorem C05_similarity_grid {E : Env} (vs : list vertex) l bound : on_grid vs l bound ->
  exists val side mx my, grid E val bound side /\ (0 < side)%Z /\
    forall v w, nthN (normalized vs) v = Some w ->
      val (vx w) ((fst (zpoint l v) - inject_Z mx) / inject_Z side)%Q /\
      val (vy w) ((snd (zpoint l v) - inject_Z my) / inject_Z side)%Q.
Proof. exact (grid_similarity vs l bound). Qed.
Print Assumptions C05_similarity_grid.

Example C05_case : moderate [(1 # 3, 5); (2, 1 # 7)]%Q /\
  (exists p q, In p [(1 # 3, 5); (2, 1 # 7)]%Q /\ In q [(1 # 3, 5); (2, 1 # 7)]%Q /\ ~ same_place p q) /\
  on_grid (E := env64) (pts lw) lw (2 ^ 40) /\ on_grid (E := envQ u32_max) (map ptQ lw) lw (2 ^ 40).
Proof.
  split; [intros v [<-|[<-|[]]]; split; reflexivity|]. split; [|split; [exact lw_grid64|exact lw_gridQ]].
  exists (1 # 3, 5)%Q, (2, 1 # 7)%Q. simpl. repeat split; auto. intros (H & _). discriminate H.
Qed.

(** ** C06 *)
Theorem C06_output_size_dt {E : Env} fuel bins (vs : list vertex) out :
  lenN vs <= idmax + 1 -> triangulation_from_2d_vertices fuel bins vs = Ret out ->
  lenN out <= 2 * lenN vs + 2.
Proof. exact (fun H R => proj2 (dt_ids fuel bins vs out H R)). Qed.
Print Assumptions C06_output_size_dt.

Theorem C06_output_size_cdt {E : Env} fuel bins (vs : list vertex) cs out :
  lenN vs <= idmax + 1 -> constrained_triangulation_from_2d_vertices fuel bins vs cs = Ret out ->
  lenN out <= 2 * lenN vs + 2.
Proof. exact (fun H R => proj2 (cdt_ids fuel bins vs cs out H R)). Qed.
Print Assumptions C06_output_size_cdt.

(** With exact predicates. *)
Theorem C06_output_size_exact {E : Env} (vs : list vertex) at_ bound fuel bins out :
  exact_input vs at_ bound -> 2 * lenN vs + 2 <= idmax -> (4 * length vs + 12 <= fuel)%nat ->
  triangulation_from_2d_vertices fuel bins vs = Ret out ->
  lenN out + 2 <= 2 * lenN vs.
Proof. exact (fun G H Hf R => proj2 (grid_valid vs at_ bound G H fuel bins out Hf R)). Qed.
Print Assumptions C06_output_size_exact.

(** Seven vertices, two of them at the same place: six triangles, at most 2 * 7 - 2. *)
Example C06_case : on_grid (E := env64) (pts lw) lw (2 ^ 40) /\ 2 * lenN (pts lw) + 2 <= @idmax env64 /\
  triangulation_from_2d_vertices (E := env64) 100 2 (pts lw) = Ret out_w /\
  constrained_triangulation_from_2d_vertices (E := env64) 1000 2 (pts lw) cs_w = Ret cdt_w /\
  lenN (pts lw) = 7 /\ lenN out_w = 6.
Proof. exact (conj lw_grid64 (conj lw_ids (conj lw_dt (conj lw_cdt (conj eq_refl eq_refl))))). Qed.

(** ** C07 *)
Theorem C07_merged_vertices {E : Env} fuel bins (vs : list vertex) s :
  lenN vs <= INF0 ->
  wrap_and_triangulate fuel bins vs (Some (rangeN 0 (length vs))) = Ret s ->
  exists m, s_map s = Some m /\ lenN m = lenN vs /\
    (forall v, v < lenN vs ->
       nthN m v = Some v \/
       exists w p q, nthN m v = Some w /\ w <> v /\ w < lenN vs /\ nthN m w = Some w /\
         nthN vs w = Some q /\ nthN vs v = Some p /\ is_vertex_pair_too_close q p = true) /\
    (forall t k, In t (s_ts s) -> INF0 <= tv t k \/ nthN m (tv t k) = Some (tv t k)).
Proof. exact (wrap_mapping' fuel bins vs s). Qed.
Print Assumptions C07_merged_vertices.

(** The last vertex comes first in the order, so the fifth is merged into it. *)
Example C07_case : lenN (pts lw) <= @INF0 env64 /\
  exists s, wrap_and_triangulate (E := env64) 100 2 (normalized (E := env64) (pts lw)) (Some (rangeN 0 7)) = Ret s /\
    s_map s = Some [0; 1; 2; 3; 6; 5; 6].
Proof. split; [vm_compute; discriminate|]. eexists. split; [vm_compute; reflexivity|reflexivity]. Qed.

(** ** C08 *)
Theorem C08_duplicates_merged {E : Env} (vs : list vertex) at_ bound fuel bins s :
  exact_input vs at_ bound -> 2 * lenN vs + 2 <= idmax -> (4 * length vs + 12 <= fuel)%nat ->
  wrap_and_triangulate fuel bins (normalized vs) (Some (rangeN 0 (length vs))) = Ret s ->
  exists m, s_map s = Some m /\ lenN m = lenN vs /\
    (forall v, v < lenN vs -> exists w, nthN m v = Some w /\ w < lenN vs /\
       (exists t, In t (s_ts s) /\ tri_corner (tverts t) w) /\
       same_place (at_ w) (at_ v)) /\
    (forall s1 t u v, In s1 (s_ts s) -> In t (s_ts s) -> tri_corner (tverts s1) u -> tri_corner (tverts t) v ->
       u < lenN vs -> v < lenN vs -> same_place (at_ u) (at_ v) -> u = v).
Proof. intros G. pair_input G. exact ((fun G H => grid_merge vs px py bound G H fuel bins s) G). Qed.
Print Assumptions C08_duplicates_merged.

Example C08_case : on_grid (E := env64) (pts lw) lw (2 ^ 40) /\ 2 * lenN (pts lw) + 2 <= @idmax env64 /\
  (4 * length (pts lw) + 12 <= 100)%nat /\ same_place (zpoint lw 4) (zpoint lw 6).
Proof. split; [exact lw_grid64|]. split; [exact lw_ids|]. split; [apply Nat.leb_le; reflexivity|]. split; reflexivity. Qed.

(** ** C09 - C12: the returned triangles form a valid mesh *)
Theorem C09_clockwise {E : Env} (vs : list vertex) at_ bound fuel bins out :
  exact_input vs at_ bound -> 2 * lenN vs + 2 <= idmax -> (4 * length vs + 12 <= fuel)%nat ->
  triangulation_from_2d_vertices fuel bins vs = Ret out ->
  forall a b c, In (a, b, c) out ->
    clockwise (at_ a) (at_ b) (at_ c) /\ a <> b /\ b <> c /\ a <> c.
Proof. intros G. pair_input G. exact ((fun G H => grid_clockwise vs px py bound G H fuel bins out) G). Qed.
Print Assumptions C09_clockwise.

Theorem C10_disjoint {E : Env} (vs : list vertex) at_ bound fuel bins out :
  exact_input vs at_ bound -> 2 * lenN vs + 2 <= idmax -> (4 * length vs + 12 <= fuel)%nat ->
  triangulation_from_2d_vertices fuel bins vs = Ret out ->
  forall i j s t p, i <> j -> nth_error out i = Some s -> nth_error out j = Some t ->
    tri_inside at_ s p -> tri_inside at_ t p -> False.
Proof. exact (fun G H Hf R => vm_disjoint _ _ _ (proj1 (grid_valid vs at_ bound G H fuel bins out Hf R))). Qed.
Print Assumptions C10_disjoint.

Theorem C11_edges_once {E : Env} (vs : list vertex) at_ bound fuel bins out :
  exact_input vs at_ bound -> 2 * lenN vs + 2 <= idmax -> (4 * length vs + 12 <= fuel)%nat ->
  triangulation_from_2d_vertices fuel bins vs = Ret out -> NoDup (directed_edges out).
Proof. exact (fun G H Hf R => vm_edges _ _ _ (proj1 (grid_valid vs at_ bound G H fuel bins out Hf R))). Qed.
Print Assumptions C11_edges_once.

Theorem C12_no_vertex_inside {E : Env} (vs : list vertex) at_ bound fuel bins out :
  exact_input vs at_ bound -> 2 * lenN vs + 2 <= idmax -> (4 * length vs + 12 <= fuel)%nat ->
  triangulation_from_2d_vertices fuel bins vs = Ret out ->
  forall t v, In t out -> v < lenN vs -> tri_inside_or_on at_ t (at_ v) ->
    exists c, tri_corner t c /\ same_place (at_ c) (at_ v).
Proof. exact (fun G H Hf R => vm_empty _ _ _ (proj1 (grid_valid vs at_ bound G H fuel bins out Hf R))). Qed.
Print Assumptions C12_no_vertex_inside.

Example C09_case : on_grid (E := env64) (pts lw) lw (2 ^ 40) /\ 2 * lenN (pts lw) + 2 <= @idmax env64 /\
  (4 * length (pts lw) + 12 <= 100)%nat /\ triangulation_from_2d_vertices (E := env64) 100 2 (pts lw) = Ret out_w.
Proof. split; [exact lw_grid64|]. split; [exact lw_ids|]. split; [apply Nat.leb_le; reflexivity|exact lw_dt]. Qed.

(** An input of decimal numbers, on no grid: 0.1, 0.9, 1.3, 0.37, ... in f64 and in f32. *)
Example C09_case_decimal :
  exact_input (E := env64) lm64 (qpoint lm64_pts) (2 ^ 40) /\
  triangulation_from_2d_vertices (E := env64) 100 3 lm64 = Ret out_m /\
  exact_input (E := env32) lm32 (qpoint lm32_pts) (2 ^ 13) /\
  triangulation_from_2d_vertices (E := env32) 100 3 lm32 = Ret out_m /\ length lm = 8%nat.
Proof. exact (conj lm64_input (conj lm64_dt (conj lm32_input (conj lm32_dt eq_refl)))). Qed.

(** ** C13 *)
Theorem C13_point_location {E : Env} (vs : list vertex) at_ bound fuel m first rest s P p from :
  exact_input vs at_ bound -> 2 * lenN vs + 2 <= idmax -> (4 * length vs + 12 <= fuel)%nat ->
  start_map vs m -> NoDup (first :: rest) -> (forall v, In v (first :: rest) -> v < lenN vs) ->
  inserted fuel (normalized vs) m first rest s ->
  nthN (normalized vs) P = Some p -> from < lenN (s_ts s) ->
  exists pl, find_vertex_placement p from (s_ts s) (normalized vs) = Ret pl /\
    located at_ (s_ts s) P pl.
Proof. intros G. pair_input G. exact ((fun G H => grid_locate vs px py bound G H fuel m first rest s P p from) G). Qed.
Print Assumptions C13_point_location.

Example C13_case :
  let nvs := normalized (E := env64) (pts lw) in
  exists s, inserted (E := env64) 100 nvs None 6 [4; 0; 5; 1] s /\
    exists p, nthN nvs 3 = Some p /\ find_vertex_placement (E := env64) p 0 (s_ts s) nvs = Ret (InsideTriangle 1).
Proof. eexists. split; [vm_compute; reflexivity|]. eexists. split; [vm_compute; reflexivity|]. vm_compute. reflexivity. Qed.

(** ** C14 *)
Theorem C14_terminates {E : Env} (vs : list vertex) at_ bound fuel bins :
  exact_input vs at_ bound -> 2 * lenN vs + 2 <= idmax -> (4 * length vs + 12 <= fuel)%nat ->
  1 <= bins -> (Z.of_N bins <= bound)%Z ->
  (exists out, triangulation_from_2d_vertices fuel bins vs = Ret out) \/
  (exists v, v < lenN vs /\ triangulation_from_2d_vertices fuel bins vs = Fail (ErrPlacementNotFound v)).
Proof. exact (fun G H => grid_total vs at_ bound G H fuel bins). Qed.
Print Assumptions C14_terminates.

Example C14_case : on_grid (E := env64) (pts lw) lw (2 ^ 40) /\ 2 * lenN (pts lw) + 2 <= @idmax env64 /\
  (4 * length (pts lw) + 12 <= 100)%nat /\ 1 <= 2 /\ (Z.of_N 2 <= 2 ^ 40)%Z /\
  triangulation_from_2d_vertices (E := env64) 100 2 (pts lw) = Ret out_w.
Proof.
  refine (conj lw_grid64 (conj lw_ids (conj _ (conj _ (conj _ lw_dt))))); [|discriminate|discriminate].
  apply Nat.leb_le. reflexivity.
Qed.

(** ** C15, C16, C18, C25, C35 (refutations) *)
Theorem C15_not_delaunay_refuted :
  exists l out a b c d, dt64 100 1 l = Ret out /\
    In (a, b, c) out /\ In (a, c, d) out /\
    (zorient (zat l a) (zat l b) (zat l d) < 0)%Z /\
    (zorient (zat l b) (zat l c) (zat l d) < 0)%Z /\
    zin_circumcircle (zat l a) (zat l b) (zat l c) (zat l d).
Proof. exact not_delaunay_flippable. Qed.
Print Assumptions C15_not_delaunay_refuted.

(** What holds: after every insertion the edges opposite to the inserted vertex are legal
    (or the vertex was merged).  The full Delaunay property is false, see above; C41 and C43
    say when it holds. *)
Theorem C15_insertion_partial {E : Env} (vs : list vertex) at_ bound fuel m first rest P s s' :
  exact_input vs at_ bound -> 2 * lenN vs + 2 <= idmax -> (4 * length vs + 12 <= fuel)%nat ->
  start_map vs m -> NoDup (first :: rest ++ [P]) -> (forall v, In v (first :: rest ++ [P]) -> v < lenN vs) ->
  inserted fuel (normalized vs) m first rest s ->
  insert_vertex fuel (normalized vs) s P = Ret s' ->
  (s_ts s' = s_ts s /\
   exists w t, w < lenN vs /\ In t (s_ts s) /\ tri_corner (tverts t) w /\ same_place (at_ w) (at_ P)) \/
  (lenN (s_ts s') = lenN (s_ts s) + 2 /\
   forall a b c, is_tri (filter_triangles (s_ts s')) P a b -> is_tri (filter_triangles (s_ts s')) b a c ->
     ~ in_circumcircle (at_ P) (at_ a) (at_ b) (at_ c)).
Proof. intros G. pair_input G. exact ((fun G H => grid_insert_legal vs px py bound G H fuel m first rest P s s') G). Qed.
Print Assumptions C15_insertion_partial.

(** In the result: the edges opposite to the last vertex of the insertion order. *)
Theorem C15_last_vertex_partial {E : Env} (vs : list vertex) at_ bound fuel bins first rest P out :
  exact_input vs at_ bound -> 2 * lenN vs + 2 <= idmax -> (4 * length vs + 12 <= fuel)%nat -> 3 <= lenN vs ->
  bin_sort bins (normalized vs) = Ret (first :: rest ++ [P]) ->
  triangulation_from_2d_vertices fuel bins vs = Ret out ->
  forall a b c, is_tri out P a b -> is_tri out b a c ->
    ~ in_circumcircle (at_ P) (at_ a) (at_ b) (at_ c).
Proof. intros G. pair_input G. exact ((fun G H => grid_last_legal vs px py bound G H fuel bins first rest P out) G). Qed.
Print Assumptions C15_last_vertex_partial.

Example C15_case :
  bin_sort (E := env64) 2 (normalized (E := env64) (pts lw)) = Ret (6 :: [4; 0; 5; 1; 3] ++ [2]) /\
  is_tri out_w 2 3 6 /\ is_tri out_w 6 3 5.
Proof. split; [vm_compute; reflexivity|]. split; [left|right; left]; simpl; auto 10. Qed.

Theorem C16_hull_covered_refuted :
  exists l, length l = 3%nat /\ ~ zcollinear l /\ dt64 100 1 l = Ret [].
Proof. exact hull_not_covered. Qed.
Print Assumptions C16_hull_covered_refuted.

(** What remains true: the triangles leave no hole, every point they do not cover can leave to
    infinity along one of the four axis directions without meeting a triangle. *)
Theorem C16_no_holes_partial {E : Env} (vs : list vertex) at_ bound fuel bins out :
  exact_input vs at_ bound -> 2 * lenN vs + 2 <= idmax -> (4 * length vs + 12 <= fuel)%nat ->
  triangulation_from_2d_vertices fuel bins vs = Ret out -> no_holes at_ out.
Proof. intros G. pair_input G. exact ((fun G H => grid_no_holes vs px py bound G H fuel bins out) G). Qed.
Print Assumptions C16_no_holes_partial.

(** The origin is not covered by the triangles of [lq], and the ray to the right meets them. *)
Example C16_case : dt64 100 1 lq = Ret out_q /\ ~ covered (zpoint lq) out_q (0, 0)%Q /\
  covered (zpoint lq) out_q (on_ray (0, 0) (1, 0) 7)%Q.
Proof.
  split; [apply lq_dt|]. split.
  - intros (t & Ht & H). unfold out_q in Ht. simpl in Ht.
    repeat (destruct Ht as [<-|Ht]; [vm_compute in H; destruct H as (h1 & h2 & h3); try (now apply h1); try (now apply h2); now apply h3|]).
    destruct Ht.
  - exists (1, 3, 2). split; [right; left; reflexivity|]. vm_compute. repeat split; discriminate.
Qed.

(** ** C17 *)
Theorem C17_swaps_convex {E : Env} (vs : list vertex) at_ bound a b c P :
  exact_input vs at_ bound -> 2 * lenN vs + 2 <= idmax ->
  known vs a -> known vs b -> known vs c -> P < lenN vs ->
  let site v := site_at at_ v in
  (turn (site P) (site a) (site b) < 0)%Q -> (turn (site b) (site a) (site c) < 0)%Q ->
  exists r, should_swap_diagonals (Quad a b c P) (normalized vs) = Ret r /\
    (r = true -> c < lenN vs /\
       (turn (site P) (site a) (site c) < 0)%Q /\ (turn (site P) (site c) (site b) < 0)%Q /\
       forall p, in_sites (site P) (site a) (site b) p \/ in_sites (site b) (site a) (site c) p <->
                 in_sites (site P) (site a) (site c) p \/ in_sites (site P) (site c) (site b) p).
Proof. intros G. pair_input G. exact ((fun G H => grid_swap_region vs px py bound G H a b c P) G). Qed.
Print Assumptions C17_swaps_convex.

(** A swap between input vertices and a swap of an edge to a vertex at infinity. *)
Example C17_case :
  let l := [(1, 0); (1, 4); (0, 2); (2, 2)]%Z in
  let at_ v := site_at (E := env64) (zpoint l) v in
  (forall b, b = 1 \/ b = @INF1 env64 ->
     should_swap_diagonals (E := env64) (Quad 0 b 2 3) (normalized (E := env64) (pts l)) = Ret true /\
     known (E := env64) (pts l) b /\ (turn (at_ 3%N) (at_ 0%N) (at_ b) < 0)%Q /\ (turn (at_ b) (at_ 0%N) (at_ 2%N) < 0)%Q).
Proof.
  intros l at_ b [-> | ->].
  - split; [vm_compute; reflexivity|]. split; [left; reflexivity|]. split; vm_compute; reflexivity.
  - split; [vm_compute; reflexivity|]. split; [right; split; vm_compute; discriminate|]. split; vm_compute; reflexivity.
Qed.

Theorem C18_error_refuted :
  exists l v, length l = 4%nat /\ dt64 100 1 l = Fail (ErrPlacementNotFound v).
Proof. exact finite_input_error. Qed.
Print Assumptions C18_error_refuted.

Theorem C18_ccw_refuted :
  exists l out a b c, dt64 100 1 l = Ret out /\ In (a, b, c) out /\
    (zorient (zat l a) (zat l b) (zat l c) > 0)%Z.
Proof. exact finite_input_ccw. Qed.
Print Assumptions C18_ccw_refuted.

Theorem C18_flat_refuted :
  exists l out a b c, dt64 100 1 l = Ret out /\ In (a, b, c) out /\
    zorient (zat l a) (zat l b) (zat l c) = 0%Z.
Proof. exact finite_input_flat. Qed.
Print Assumptions C18_flat_refuted.

Theorem C18_edge_twice_refuted :
  exists l out, dt64 100 1 l = Ret out /\ ~ NoDup (directed_edges out).
Proof. exact finite_input_edge_twice. Qed.
Print Assumptions C18_edge_twice_refuted.

Theorem C25_cdt_panics_refuted :
  exists l a b, a < lenN l /\ b < lenN l /\
    (forall i j k, (i < j)%nat -> (j < k)%nat -> (k < length l)%nat ->
       zorient (nth i l (0,0)%Z) (nth j l (0,0)%Z) (nth k l (0,0)%Z) <> 0%Z) /\
    cdt64 1000 1 l [(a, b)] = Panic.
Proof. exact cdt_panics. Qed.
Print Assumptions C25_cdt_panics_refuted.

Theorem C35_identical_vertices_refuted :
  exists l a b c, (forall p, In p l -> p = (7, 7)%Z) /\ dt64 100 1 l = Ret [(a, b, c)] /\
    a <> b /\ b <> c /\ a <> c.
Proof. exact identical_not_merged. Qed.
Print Assumptions C35_identical_vertices_refuted.

(** The whole outcome, for every number [n] of copies of the vertex [(x, y)], in both precisions: the
    call returns normally, with [2 n - 5] triangles, and no copy is merged. *)
Theorem C35_identical_vertices prec emax maxid fuel bins (x y : spec_float) n :
  let E := sf_env prec emax maxid in
  flt (Env := E) fMIN x = true -> flt (Env := E) x fMAX = true ->
  flt (Env := E) fMIN y = true -> flt (Env := E) y fMAX = true ->
  1 <= bins -> 3 <= N.of_nat n -> 2 * N.of_nat n + 2 <= maxid -> (3 <= fuel)%nat ->
  exists out, triangulation_from_2d_vertices (E := E) fuel bins (repeat (x, y) n) = Ret out /\
    lenN out = 2 * N.of_nat n - 5 /\
    (forall v, v < N.of_nat n -> exists a b c, In (a, b, c) out /\ (v = a \/ v = b \/ v = c)).
Proof. intros E X X' Y Y'. exact (identical prec emax maxid fuel bins x y n (conj X X') (conj Y Y')). Qed.
Print Assumptions C35_identical_vertices.

Example C35_case : flt (Env := env64) fMIN (z64 7) = true /\ flt (Env := env64) (z64 7) fMAX = true /\
  triangulation_from_2d_vertices (E := env64) 3 2 (repeat (z64 7, z64 7) 5)
    = Ret [(1, 4, 2); (1, 3, 4); (0, 3, 1); (0, 2, 3); (0, 1, 2)].
Proof. repeat split; vm_compute; reflexivity. Qed.

(** ** C19: the constrained edges are edges *)
Theorem C19_constraints_respected {E : Env} (vs : list vertex) at_ bound fuel bins cs c out :
  exact_input vs at_ bound -> 2 * lenN vs + 2 <= idmax -> (4 * length vs + 12 <= fuel)%nat -> 3 <= lenN vs ->
  noncrossing at_ cs -> In c cs -> ~ same_place (at_ (efrom c)) (at_ (eto c)) ->
  constrained_triangulation_from_2d_vertices fuel bins vs cs = Ret out ->
  respects at_ (lenN vs) out (efrom c) (eto c).
Proof. intros G. pair_input G. exact ((fun G H F L N I S R => proj1 (grid_cdt_edges vs px py bound G H fuel bins F cs c out L N I S R)) G). Qed.
Print Assumptions C19_constraints_respected.

(** The same in the mesh from which the result is cut: both directions of the edge are there,
    and the triangle on its clockwise side is returned unless it reaches infinity. *)
Theorem C19_constraints_in_mesh {E : Env} (vs : list vertex) at_ bound fuel bins cs c out :
  exact_input vs at_ bound -> 2 * lenN vs + 2 <= idmax -> (4 * length vs + 12 <= fuel)%nat -> 3 <= lenN vs ->
  noncrossing at_ cs -> In c cs -> ~ same_place (at_ (efrom c)) (at_ (eto c)) ->
  constrained_triangulation_from_2d_vertices fuel bins vs cs = Ret out ->
  exists s m ts cset a b,
    wrap_and_triangulate fuel bins (normalized vs) (Some (rangeN 0 (length vs))) = Ret s /\ s_map s = Some m /\
    apply_constraints fuel (normalized vs) (s_ts s) cs m = Ret (ts, cset) /\
    nthN m (efrom c) = Some a /\ nthN m (eto c) = Some b /\
    same_place (at_ a) (at_ (efrom c)) /\ same_place (at_ b) (at_ (eto c)) /\
    In (b, a) (directed_edges (map tverts ts)) /\
    exists t, In t ts /\ In (a, b) (tri_edges (tverts t)) /\ (tri_is_finite t = true -> In (tverts t) out).
Proof. intros G. pair_input G. exact ((fun G H F L N I S R => proj2 (grid_cdt_edges vs px py bound G H fuel bins F cs c out L N I S R)) G). Qed.
Print Assumptions C19_constraints_in_mesh.

Example C19_case : on_grid (E := env64) (pts lw) lw (2 ^ 40) /\ noncrossing (zpoint lw) cs_w /\
  In (Edge 0 3) cs_w /\ ~ same_place (zpoint lw 0) (zpoint lw 3) /\
  constrained_triangulation_from_2d_vertices (E := env64) 1000 2 (pts lw) cs_w = Ret cdt_w /\ cdt_w <> [] /\
  (* an edge of the unconstrained triangulation crosses the constraint *)
  segments_cross (zpoint lw 0) (zpoint lw 3) (zpoint lw 5) (zpoint lw 6) /\ In (5, 0, 6) out_w.
Proof. exact lw_cdt_facts. Qed.

Example C19_case_decimal : exact_input (E := env64) lm64 (qpoint lm64_pts) (2 ^ 40) /\
  constrained_triangulation_from_2d_vertices (E := env64) 1000 3 lm64 [Edge 1 5; Edge 4 2; Edge 5 7] =
    Ret [(2, 0, 6); (1, 6, 0); (5, 7, 3); (3, 2, 5); (2, 6, 5); (5, 6, 1); (5, 1, 7)].
Proof. exact (conj lm64_input lm64_cdt). Qed.

(** ** C20: a constraint survives the later ones which do not cross it, whatever came before *)
Theorem C20_constraints_survive {E : Env} (vs : list vertex) at_ bound fuel bins l1 c l2 out :
  exact_input vs at_ bound -> 2 * lenN vs + 2 <= idmax -> (4 * length vs + 12 <= fuel)%nat -> 3 <= lenN vs ->
  ~ same_place (at_ (efrom c)) (at_ (eto c)) ->
  (forall r, In r l1 ->
     ~ (same_place (at_ (efrom r)) (at_ (efrom c)) /\ same_place (at_ (eto r)) (at_ (eto c)))) ->
  (forall r, In r l2 ->
     ~ segments_cross (at_ (efrom r)) (at_ (eto r)) (at_ (efrom c)) (at_ (eto c))) ->
  constrained_triangulation_from_2d_vertices fuel bins vs (l1 ++ c :: l2) = Ret out ->
  respects at_ (lenN vs) out (efrom c) (eto c) /\
  edge_of_mesh vs at_ fuel bins (l1 ++ c :: l2) out c.
Proof. intros G. pair_input G. exact ((fun G H F L => grid_cdt_survives vs px py bound G H fuel bins F l1 c l2 out L) G). Qed.
Print Assumptions C20_constraints_survive.

Example C20_case :
  segments_cross (zpoint lw 4) (zpoint lw 5) (zpoint lw 0) (zpoint lw 3) /\
  ~ segments_cross (zpoint lw 2) (zpoint lw 4) (zpoint lw 0) (zpoint lw 3) /\
  exists out, cdt64 1000 2 lw ([(4, 5)] ++ (0, 3) :: [(2, 4)]) = Ret out /\ out <> [].
Proof. exact lw_cdt_survives. Qed.

(** ** C21 *)
Theorem C21_cdt_valid_mesh {E : Env} (vs : list vertex) at_ bound fuel bins cs out :
  exact_input vs at_ bound -> 2 * lenN vs + 2 <= idmax -> (4 * length vs + 12 <= fuel)%nat ->
  constrained_triangulation_from_2d_vertices fuel bins vs cs = Ret out ->
  valid_mesh at_ (lenN vs) out.
Proof. intros G. pair_input G. exact ((fun G H F => grid_cdt_valid vs px py bound G H fuel bins F cs out) G). Qed.
Print Assumptions C21_cdt_valid_mesh.

(** With crossing constraints, given in both directions and with a duplicate vertex. *)
Example C21_case : on_grid (E := env64) (pts lw) lw (2 ^ 40) /\
  exists out, cdt64 1000 2 lw [(0, 3); (4, 5); (6, 5); (3, 0); (2, 5)] = Ret out /\ out <> [].
Proof. exact (conj lw_grid64 lw_cdt_crossing). Qed.

(** ** C22, C23 *)
Theorem C22_filter_exact {E : Env} fuel ts cset out :
  cdt_filter_triangles fuel ts cset = Ret out ->
  exists ids, NoDup ids /\ (forall i, In i ids <-> kept ts cset i) /\
    (forall i, In i ids -> i < lenN ts) /\ out = emitted ts ids.
Proof. exact (cdt_filter_exact fuel ts cset out). Qed.
Print Assumptions C22_filter_exact.

(** The entry point: the triangles returned are those of the constrained mesh which [kept]
    describes; the constrained edges are the given ones, after merging, without the
    degenerate ones. *)
Theorem C22_domains {E : Env} fuel bins (vs : list vertex) cs out :
  3 <= lenN vs -> constrained_triangulation_from_2d_vertices fuel bins vs cs = Ret out ->
  exists s m ts cset ids,
    wrap_and_triangulate fuel bins (normalized vs) (Some (rangeN 0 (length vs))) = Ret s /\ s_map s = Some m /\
    apply_constraints fuel (normalized vs) (s_ts s) cs m = Ret (ts, cset) /\
    (forall e, In e cset <-> efrom e <> eto e /\ exists raw, In raw cs /\
       nthN m (efrom raw) = Some (efrom e) /\ nthN m (eto raw) = Some (eto e)) /\
    NoDup ids /\ (forall i, In i ids <-> kept ts cset i) /\ out = emitted ts ids.
Proof. exact (cdt_domains fuel bins vs cs out). Qed.
Print Assumptions C22_domains.

Example C22_case : constrained_triangulation_from_2d_vertices (E := env64) 1000 2 (pts lw) cs_w = Ret cdt_w.
Proof. exact lw_cdt. Qed.

Theorem C23_filter_terminates {E : Env} fuel ts cset :
  (3 * length ts + 3 <= fuel)%nat ->
  cdt_filter_triangles fuel ts cset <> OutOfFuel /\
  (links_ok ts -> exists out, cdt_filter_triangles fuel ts cset = Ret out).
Proof. exact (cdt_filter_terminates fuel ts cset). Qed.
Print Assumptions C23_filter_terminates.

(** Two triangles sharing the constrained edge 1-2: only the one on its side is kept. *)
Definition two_triangles : list tri := [Tri 0 1 2 u32_max 1 u32_max; Tri 3 2 1 u32_max 0 u32_max].
Example C23_case : links_ok (E := env64) two_triangles /\
  cdt_filter_triangles (E := env64) 9 two_triangles [Edge 1 2] = Ret [(0, 1, 2)].
Proof.
  split; [|vm_compute; reflexivity].
  intros i t k H. apply nthN_In in H. destruct H as [<-|[<-|[]]]; destruct k; (now left) || (right; reflexivity).
Qed.

(** ** C24 *)
Theorem C24_restoration_terminates {E : Env} fuel ts (vs : list vertex) v2t ce news :
  (length news + length ts * length ts <= fuel)%nat ->
  restore_constrained fuel ts vs v2t ce news [] <> OutOfFuel.
Proof. exact (restore_terminates fuel ts vs v2t ce news). Qed.
Print Assumptions C24_restoration_terminates.

(** A flat quad which is not Delaunay: its diagonal is swapped, then the queue is empty. *)
Definition flat_quad : list tri := [Tri 0 1 2 u32_max 1 u32_max; Tri 3 2 1 u32_max 0 u32_max].
Example C24_case : exists ts v2t,
  restore_constrained (E := env64) 5 flat_quad [pt 0 1; pt 8 2; pt (-8) 2; pt 0 3] [0; 0; 0; 1] (Edge 0 9)
    [ED 0 1 (Edge 1 2)] [] = Ret (ts, v2t) /\ ts <> flat_quad.
Proof. eexists. eexists. split; [vm_compute; reflexivity|discriminate]. Qed.

(** ** C25, C40: how a constrained call ends *)
(** Proved part of C25: constraints without a vertex between their ends, and inside the area
    covered by the unconstrained triangulation of the same vertices, give a result.  Missing
    from the full claim: constraints which leave that area (there the code can panic, see
    [C25_cdt_panics_refuted]). *)
Theorem C25_cdt_succeeds_partial {E : Env} (vs : list vertex) at_ bound fuel bins cs out0 :
  exact_input vs at_ bound -> 2 * lenN vs + 2 <= idmax ->
  ((2 * length vs + 4) * (2 * length vs + 4) <= fuel)%nat -> 1 <= bins -> (Z.of_N bins <= bound)%Z ->
  triangulation_from_2d_vertices fuel bins vs = Ret out0 ->
  (forall c, In c cs -> efrom c < lenN vs /\ eto c < lenN vs /\
     (~ same_place (at_ (efrom c)) (at_ (eto c)) ->
        clear_between at_ (lenN vs) (efrom c) (eto c) /\ covers_between at_ out0 (efrom c) (eto c))) ->
  exists out, constrained_triangulation_from_2d_vertices fuel bins vs cs = Ret out.
Proof. intros G. pair_input G. exact ((fun G H F B1 B2 => grid_cdt_returns vs px py bound G H fuel bins F B1 B2 cs out0) G). Qed.
Print Assumptions C25_cdt_succeeds_partial.

(** One of these constraints crosses an edge of the unconstrained triangulation (C19_case). *)
Example C25_case : on_grid (E := env64) (pts lw) lw (2 ^ 40) /\ dt64 1000 2 lw = Ret out_w /\
  (forall c, In c cs_w -> efrom c < 7 /\ eto c < 7 /\
     clear_between (zpoint lw) 7 (efrom c) (eto c) /\ covers_between (zpoint lw) out_w (efrom c) (eto c)).
Proof.
  split; [exact lw_grid64|]. split; [exact lw_dt1000|]. intros c Hc.
  split; [|split; [|split; [now apply lw_clear|now apply lw_covered]]];
    simpl in Hc; decompose [or] Hc; try contradiction; subst c; reflexivity.
Qed.

(** Any list of constraints, even crossing ones or ones with invalid indices. *)
Theorem C40_cdt_ends {E : Env} (vs : list vertex) at_ bound fuel bins cs :
  exact_input vs at_ bound -> 2 * lenN vs + 2 <= idmax ->
  ((2 * length vs + 4) * (2 * length vs + 4) <= fuel)%nat -> 1 <= bins -> (Z.of_N bins <= bound)%Z ->
  let r := constrained_triangulation_from_2d_vertices fuel bins vs cs in
  (exists out, r = Ret out) \/ r = Panic \/ (exists v, v < lenN vs /\ r = Fail (ErrPlacementNotFound v)) \/
  (exists e c, r = Fail e /\
     (e = ErrSearchCycle \/ e = ErrCrossedEdgeNoNeighbor \/ e = ErrFirstIntersectionNotFound \/ e = ErrNoNextIntersection) /\
     In c cs /\ ~ same_place (at_ (efrom c)) (at_ (eto c)) /\
     ~ clear_between at_ (lenN vs) (efrom c) (eto c)).
Proof. intros G. pair_input G. exact ((fun G H F B1 B2 => grid_cdt_outcome vs px py bound G H fuel bins F B1 B2 cs) G). Qed.
Print Assumptions C40_cdt_ends.

(** The three kinds of ends. *)
Example C40_case :
  on_grid (E := env64) (pts lw) lw (2 ^ 40) /\ cdt64 1000 2 lw [(0, 3); (4, 2); (3, 5); (2, 3)] = Ret cdt_w /\
  on_grid (E := env64) (pts l_mid) l_mid (2 ^ 40) /\ cdt64 1000 1 l_mid [(0, 1)] = Fail ErrSearchCycle /\
  on_grid (E := env64) (pts l_out) l_out (2 ^ 40) /\ cdt64 1000 3 l_out [(0, 1)] = Panic.
Proof.
  exact (conj lw_grid64 (conj lw_cdt (conj l_mid_grid (conj l_mid_fails (conj l_out_grid l_out_panics))))).
Qed.

(** ** C26, C27 *)
Theorem C26_ignored_constraints {E : Env} fuel bins (vs : list vertex) l1 l2 raw :
  (efrom raw < lenN vs /\ efrom raw = eto raw) \/ In raw l1 ->
  constrained_triangulation_from_2d_vertices fuel bins vs (l1 ++ raw :: l2)
  = constrained_triangulation_from_2d_vertices fuel bins vs (l1 ++ l2).
Proof. exact (cdt_ignores fuel bins vs l1 l2 raw). Qed.
Print Assumptions C26_ignored_constraints.

(** Repeating a constraint does not bring it back: the second (0, 3) is ignored although
    (4, 5), which crosses it, has removed it. *)
Example C26_case :
  segments_cross (zpoint lw 4) (zpoint lw 5) (zpoint lw 0) (zpoint lw 3) /\
  cdt64 1000 2 lw [(0, 3); (4, 5); (0, 3); (2, 2)] = cdt64 1000 2 lw [(0, 3); (4, 5)] /\
  exists out, cdt64 1000 2 lw [(0, 3); (4, 5)] = Ret out /\ out <> [] /\
    forall a b c, In (a, b, c) out -> ~ (In 0 [a; b; c] /\ In 3 [a; b; c]).
Proof. exact lw_cdt_repeat. Qed.

Theorem C27_no_constraint_empty {E : Env} fuel bins (vs : list vertex) cs out :
  (forall c, In c cs -> efrom c = eto c) ->
  constrained_triangulation_from_2d_vertices fuel bins vs cs = Ret out -> out = [].
Proof. exact (cdt_only_loops fuel bins vs cs out). Qed.
Print Assumptions C27_no_constraint_empty.

Example C27_case : cdt64 100 2 lw [] = Ret [] /\ cdt64 100 2 lw [(3, 3); (6, 6)] = Ret [] /\
  exists out, dt64 100 2 lw = Ret out /\ out <> [].
Proof. split; [vm_compute; reflexivity|]. split; [vm_compute; reflexivity|]. exists out_w. split; [exact lw_dt|discriminate]. Qed.

(** ** C33 *)
Theorem C33_parallel_filter {E : Env} threshold s ts :
  multithreaded_filter_triangles threshold s ts = filter_triangles ts.
Proof. exact (multithreaded_eq threshold s ts). Qed.
Print Assumptions C33_parallel_filter.

(** Two pieces, one of them cut again; the second triangle has an infinite vertex. *)
Example C33_case : multithreaded_filter_triangles (E := env64) 1 (Node 2 (Node 1 Leaf Leaf) Leaf)
    [Tri 0 1 2 9 9 9; Tri 0 (@INF1 env64) 2 9 9 9; Tri 3 2 1 9 9 9] = [(0, 1, 2); (3, 2, 1)].
Proof. vm_compute. reflexivity. Qed.

(** ** C38 *)
Theorem C38_neighbor_update_local t old new :
  (forall k, tv (update_triangle_neighbor t old new) k = tv t k) /\
  (forall k, tn t k <> old -> tn (update_triangle_neighbor t old new) k = tn t k) /\
  (forall k, tn t k = old -> (forall j, tn t j = old -> j = k) ->
     tn (update_triangle_neighbor t old new) k = new) /\
  ((forall k, tn t k <> old) -> update_triangle_neighbor t old new = t).
Proof. exact (update_local t old new). Qed.
Print Assumptions C38_neighbor_update_local.

Example C38_case : update_triangle_neighbor (Tri 0 1 2 7 8 9) 8 5 = Tri 0 1 2 7 5 9 /\
  update_triangle_neighbor (Tri 0 1 2 7 8 9) 4 5 = Tri 0 1 2 7 8 9.
Proof. split; reflexivity. Qed.

(** ** C28 *)
Theorem C28_segment_intersection E (c : F -> Q -> Prop) va vb vc vd p q r s :
  exact_coords E c -> vertex_is c va p -> vertex_is c vb q -> vertex_is c vc r -> vertex_is c vd s ->
  let i := egdes_intersect (va, vb) (vc, vd) in
  let shared := same_place p r \/ same_place p s \/ same_place q r \/ same_place q s in
  let touch := on_closed_segment p q r \/ on_closed_segment p q s \/
               on_closed_segment r s p \/ on_closed_segment r s q in
  (i = ICrossing <-> segments_cross p q r s) /\
  (i = ISharedEdges <-> shared) /\
  (i = IOnEdgeTip <-> ~ shared /\ touch) /\
  egdes_intersect (vc, vd) (va, vb) = i.
Proof. exact (fun C A B D F => intersect_summary E c C va vb vc vd p q r s A B D F). Qed.
Print Assumptions C28_segment_intersection.

(** The specification: crossing by orientations is having a common interior point. *)
Theorem C28_crossing_is_meeting a b c d : segments_cross a b c d <->
  (~ (fst b - fst a) * (snd d - snd c) == (snd b - snd a) * (fst d - fst c) /\
   exists s t, 0 < s < 1 /\ 0 < t < 1 /\ same_place (along a b s) (along c d t))%Q.
Proof. exact (cross_meet a b c d). Qed.
Print Assumptions C28_crossing_is_meeting.

Example C28_case : exact_coords env64 (int_coord 53 1024 (2 ^ 20)) /\
  vertex_is (E := env64) (int_coord 53 1024 (2 ^ 20)) (pt 3 (-1)) (3, -1)%Q /\
  egdes_intersect (E := env64) (pt 3 (-1), pt 5 7) (pt 2 4, pt 6 3) = ICrossing /\
  egdes_intersect (E := env64) (pt 0 0, pt 2 2) (pt 1 1, pt 3 0) = IOnEdgeTip.
Proof.
  split; [apply Coords_f64|]. split; [split|split; vm_compute; reflexivity].
  - split; [vm_compute; repeat split; reflexivity|]. exists 3%Z. split; [reflexivity|vm_compute; discriminate].
  - split; [vm_compute; repeat split; reflexivity|]. exists (-1)%Z. split; [reflexivity|vm_compute; discriminate].
Qed.

(** ** C29 *)
Theorem C29_in_circle E (c : F -> Q -> Prop) va vb vc vd p q r s :
  exact_circle_coords E c -> vertex_is c va p -> vertex_is c vb q -> vertex_is c vc r -> vertex_is c vd s ->
  clockwise s p q -> clockwise q p r ->
  (is_vertex_in_triangle_circumcircle va vb vc vd = true <-> in_circumcircle p q r s) /\
  (in_circumcircle p q r s <-> in_circumcircle s p q r) /\
  is_vertex_in_triangle_circumcircle vb va vd vc = is_vertex_in_triangle_circumcircle va vb vc vd.
Proof. exact (api_circle E c va vb vc vd p q r s). Qed.
Print Assumptions C29_in_circle.

Example C29_case : exact_circle_coords env64 (int_coord 53 1024 (2 ^ 9)) /\
  clockwise (2, 2)%Q (1, 0)%Q (1, 4)%Q /\ clockwise (1, 4)%Q (1, 0)%Q (0, 2)%Q /\
  in_circumcircle (1, 0)%Q (1, 4)%Q (0, 2)%Q (2, 2)%Q /\
  is_vertex_in_triangle_circumcircle (E := env64) (pt 1 0) (pt 1 4) (pt 0 2) (pt 2 2) = true.
Proof. split; [apply Circle_f64|]. split; [vm_compute; reflexivity|]. split; [vm_compute; reflexivity|].
  split; [|vm_compute; reflexivity]. exists (5 # 2, 2)%Q. repeat split; vm_compute; reflexivity. Qed.

(** ** C30 *)
Theorem C30_side_tests E (c : F -> Q -> Prop) va vb vp a b p :
  exact_coords E c -> vertex_is c va a -> vertex_is c vb b -> vertex_is c vp p ->
  let s := test_point_edge_side (va, vb) vp in
  let s' := test_point_edge_side (vb, va) vp in
  ((is_on_left_side s = true <-> 0 < orient a b p) /\ (is_on_right_side s = true <-> orient a b p < 0) /\
   (is_colinear s = true <-> orient a b p == 0) /\
   (is_point_on_right_side_of_edge (va, vb) vp = true <-> orient a b p <= 0))%Q /\
  (is_on_left_side s' = is_on_right_side s /\ is_colinear s' = is_colinear s) /\
  (triplet_orientation va vb vp = CounterClockwise <-> is_on_left_side s = true) /\
  (triplet_orientation va vb vp = Clockwise <-> is_on_right_side s = true) /\
  (triplet_orientation va vb vp = Colinear <-> is_colinear s = true).
Proof. exact (fun C A B P => side_summary E c C va vb vp a b p A B P). Qed.
Print Assumptions C30_side_tests.

Example C30_case : exact_coords env64 (int_coord 53 1024 (2 ^ 20)) /\
  vertex_is (E := env64) (int_coord 53 1024 (2 ^ 20)) (pt (-3) 4) (-3, 4)%Q /\
  is_on_left_side (E := env64) (test_point_edge_side (E := env64) (pt 0 0, pt 2 0) (pt (-3) 4)) = true /\
  is_colinear (E := env64) (test_point_edge_side (E := env64) (pt 0 0, pt 2 2) (pt (-3) (-3))) = true.
Proof.
  split; [apply Coords_f64|]. split; [split|split; vm_compute; reflexivity].
  - split; [vm_compute; repeat split; reflexivity|]. exists (-3)%Z. split; [reflexivity|vm_compute; discriminate].
  - split; [vm_compute; repeat split; reflexivity|]. exists 4%Z. split; [reflexivity|vm_compute; discriminate].
Qed.

(** The tests with a margin, on any finite value of the edge side test; [e] is EPSILON. *)
Theorem C30_margins E val bound (x : @F E) q e : numbers E val bound -> val x q -> val feps e ->
  ((is_strictly_on_left_side x = true <-> e < q) /\
   (is_strictly_on_right_side x = true <-> q < - e) /\
   (is_near_edge x = true <-> - e < q /\ q < e))%Q.
Proof. exact (margins_numbers E val bound x q e). Qed.
Print Assumptions C30_margins.

Example C30_margins_case : sf_is 53 1024 (@feps env64) (1 # 4503599627370496) /\
  sf_is 53 1024 (S754_finite false 4503599627370496 (-103)) (1 # 2251799813685248) /\
  is_strictly_on_left_side (E := env64) (S754_finite false 4503599627370496 (-103)) = true /\
  is_strictly_on_left_side (E := env64) (S754_finite false 4503599627370496 (-104)) = false /\
  is_near_edge (E := env64) (S754_finite true 4503599627370496 (-105)) = true.
Proof. vm_compute. repeat split; reflexivity. Qed.

(** The slope of a line between integer points, in any of the three arithmetics: the quotient if
    it is a number of the format, otherwise no number of the format is between them. *)
Theorem C30_slope E val bound (a b : @vertex E) (p q : Z * Z) : numbers E val bound ->
  vertex_is val a (inject_Z (fst p), inject_Z (snd p)) -> vertex_is val b (inject_Z (fst q), inject_Z (snd q)) ->
  (Z.abs (fst q - fst p) <= 2 ^ 23 -> Z.abs (snd q - snd p) <= 2 ^ 23 -> fst q <> fst p ->
  exists r, val (line_slope a b) r /\
    forall z t, val z t -> ((t * inject_Z (fst q - fst p) == inject_Z (snd q - snd p) -> r == t) /\
      (t <= inject_Z (snd q - snd p) / inject_Z (fst q - fst p) -> t <= r) /\
      (inject_Z (snd q - snd p) / inject_Z (fst q - fst p) <= t -> r <= t))%Q)%Z.
Proof. exact (slope_numbers E val bound a b p q). Qed.
Print Assumptions C30_slope.

Example C30_slope_case : sf_is 53 1024 (fst (pt (-3) 4)) (inject_Z (-3)) /\ sf_is 53 1024 (snd (pt (-3) 4)) (inject_Z 4) /\
  sf_is 53 1024 (line_slope (E := env64) (pt (-3) 4) (pt 1 10)) (3 # 2).
Proof. vm_compute. repeat split; reflexivity. Qed.

(** ** C31 *)
Theorem C31_validate prec emax maxid (vs : list (spec_float * spec_float)) :
  validate_vertices (E := sf_env prec emax maxid) vs = true <->
  forall x y, In (x, y) vs -> forall z, z = x \/ z = y -> z <> S754_nan /\ forall s, z <> S754_infinity s.
Proof. exact (validate_exact prec emax maxid vs). Qed.
Print Assumptions C31_validate.

Example C31_case : validate_vertices (E := env64) [pt 1 2; pt 3 4] = true /\
  validate_vertices (E := env64) [pt 1 2; (z64 3, S754_infinity true)] = false /\
  validate_vertices (E := env64) [(S754_nan, z64 0); pt 3 4] = false.
Proof. repeat split. Qed.

(** ** C32 *)
Theorem C32_degenerate_counts E (c : F -> Q -> Prop) (vs : list vertex) (ps : list point) ts :
  exact_coords E c -> Forall2 (vertex_is c) vs ps ->
  (forall t, In t ts -> forall v, tri_corner t v -> v < lenN vs) ->
  let at_ v := nth (N.to_nat v) ps (0, 0)%Q in
  check_degenerate_triangles ts vs = Ret (lenN (filter (tri_flat at_) ts), lenN (filter (tri_ccw at_) ts)).
Proof. exact (fun C => api_degenerate E c C vs ps ts). Qed.
Print Assumptions C32_degenerate_counts.

Theorem C32_none_degenerate {E : Env} (c : F -> Q -> Prop) (vs : list vertex) l bound fuel bins out :
  exact_coords E c -> Forall2 (fun v p => vertex_is c v (inject_Z (fst p), inject_Z (snd p))) vs l ->
  on_grid vs l bound -> 2 * lenN vs + 2 <= idmax -> (4 * length vs + 12 <= fuel)%nat ->
  triangulation_from_2d_vertices fuel bins vs = Ret out ->
  check_degenerate_triangles out vs = Ret (0, 0).
Proof. exact (fun C F => none_degenerate c vs l bound C F fuel bins out). Qed.
Print Assumptions C32_none_degenerate.

Example C32_case : check_degenerate_triangles (E := env64) [(0, 1, 2); (0, 2, 1); (0, 1, 1)] (pts lw) = Ret (1, 1) /\
  check_degenerate_triangles (E := env64) out_w (pts lw) = Ret (0, 0).
Proof. split; vm_compute; reflexivity. Qed.

(** ** C34: planar 3d input *)
(** In real arithmetic: distances are preserved, and orientations are those seen from the side
    to which the normal points. *)
Theorem C34_isometry v0 v1 rest n :
  v0 <> v1 -> planar (v0 :: v1 :: rest) n ->
  exists f : rvec -> R * R,
    transform_to_2d (V := r_vec3) (v0 :: v1 :: rest) n = Ret (map f (v0 :: v1 :: rest)) /\
    (forall a b, In a (v0 :: v1 :: rest) -> In b (v0 :: v1 :: rest) -> rdist2 (f a) (f b) = rdist3 a b) /\
    (forall a b c, In a (v0 :: v1 :: rest) -> In b (v0 :: v1 :: rest) -> In c (v0 :: v1 :: rest) ->
       rorient2 (f a) (f b) (f c) = rorient3 n a b c).
Proof. exact (transform_isometry v0 v1 rest n). Qed.
Print Assumptions C34_isometry.

Example C34_isometry_case : ((0, 0, 1) <> (3, 4, 1))%R /\ planar [(0, 0, 1); (3, 4, 1); (5, 0, 1)]%R (0, 0, 1)%R.
Proof.
  split; [intros Q; injection Q; intros; Lra.lra|]. split; [unfold rdot; Lra.lra|].
  intros a b Ha Hb. simpl in Ha, Hb. decompose [or] Ha; decompose [or] Hb; subst; try contradiction; unfold rdot, rminus; Lra.lra.
Qed.

(** In f64, f32 and exact arithmetic, for integer points of a plane normal to an axis. *)
Theorem C34_planar_dt {E : Env} sqrt_ one vs nv l u n bound fuel bins out :
  on_grid3 sqrt_ one vs nv l u n bound -> 2 * lenN vs + 2 <= idmax -> (4 * length vs + 12 <= fuel)%nat ->
  triangulation_from_3d_planar_vertices (V := env_vec3 sqrt_ one) fuel bins vs nv = Ret out ->
  valid_mesh (zpoint (map (plane_coords u n) l)) (lenN vs) out /\
  (forall a b c, In (a, b, c) out ->
    (zorient3 n (nth (N.to_nat a) l (0, 0, 0)) (nth (N.to_nat b) l (0, 0, 0)) (nth (N.to_nat c) l (0, 0, 0)) < 0)%Z).
Proof. exact (fun G H F => grid3_dt sqrt_ one vs nv l u n bound G H fuel bins F out). Qed.
Print Assumptions C34_planar_dt.

Theorem C34_planar_cdt {E : Env} sqrt_ one vs nv l u n bound fuel bins cs out :
  on_grid3 sqrt_ one vs nv l u n bound -> 2 * lenN vs + 2 <= idmax -> (4 * length vs + 12 <= fuel)%nat ->
  constrained_triangulation_from_3d_planar_vertices (V := env_vec3 sqrt_ one) fuel bins vs nv cs = Ret out ->
  let at_ := zpoint (map (plane_coords u n) l) in
  valid_mesh at_ (lenN vs) out /\
  (forall a b c, In (a, b, c) out ->
    (zorient3 n (nth (N.to_nat a) l (0, 0, 0)) (nth (N.to_nat b) l (0, 0, 0)) (nth (N.to_nat c) l (0, 0, 0)) < 0)%Z) /\
  (3 <= lenN vs -> noncrossing at_ cs -> forall c, In c cs -> ~ same_place (at_ (efrom c)) (at_ (eto c)) ->
     respects at_ (lenN vs) out (efrom c) (eto c)).
Proof. exact (fun G H F => grid3_cdt sqrt_ one vs nv l u n bound G H fuel bins F cs out). Qed.
Print Assumptions C34_planar_cdt.

Example C34_case :
  on_grid3 (E := env64) (sf_sqrt 53 1024) (sf_one 53 1024) (map pt3 l3) (pt3 n3) l3 u3 n3 (2 ^ 40) /\
  on_grid3 (E := env32) (sf_sqrt 24 128) (sf_one 24 128) (map pt3_32 l3) (pt3_32 n3) l3 u3 n3 (2 ^ 13) /\
  (exists out, dt3d 1000 2 l3 n3 = Ret out /\ out <> []) /\
  exists out, cdt3d 1000 2 l3 n3 [(0, 2); (1, 4)] = Ret out /\ out <> [].
Proof.
  split; [exact l3_grid64|]. split; [exact l3_grid32|]. split.
  - eexists. split; [exact l3_dt|discriminate].
  - eexists. split; [exact l3_cdt|discriminate].
Qed.

(** In any plane: the plane coordinates computed in f64 or f32 differ from the exact ones, which
    preserve distances and orientations by [C34_isometry], by at most 512 rounding errors of the
    largest coordinate M.  Nothing is assumed of the vertices except their size and that the
    first two are not too close. *)
Theorem C34_rounded prec emax maxid vs nv l n M :
  format prec emax -> Forall2 (vec_is prec emax) vs l -> vec_is prec emax nv n -> moderate3 l n M ->
  exists vs2 pl ideal,
    transform_to_2d (V := env_vec3 (E := sf_env prec emax maxid) (sf_sqrt prec emax) (sf_one prec emax)) vs nv = Ret vs2 /\
    Forall2 (vertex_is (E := sf_env prec emax maxid) (sf_is prec emax)) vs2 pl /\
    transform_to_2d (V := r_vec3) (map rvec_of l) (rvec_of n) = Ret ideal /\
    Forall2 (rclose (512 * roundoff prec * M)) pl ideal.
Proof. exact (fun F => rounded_close prec emax F maxid vs nv l n M). Qed.
Print Assumptions C34_rounded.

(** Hence when the computed coordinates are an exact input, the result is a valid mesh of them,
    and each of its triangles is clockwise seen from the normal, or flat up to rounding: twice
    its signed area is less than 16384 rounding errors of M^2, plus a term for the angle between
    the first edge and the plane (t = 0 if the normal is orthogonal to it). *)
Theorem C34_rounded_dt prec emax maxid vs nv l n M t vs2 pl bound fuel bins out :
  format prec emax -> Forall2 (vec_is prec emax) vs l -> vec_is prec emax nv n -> moderate3 l n M -> nearly_orthogonal l n t ->
  transform_to_2d (V := env_vec3 (E := sf_env prec emax maxid) (sf_sqrt prec emax) (sf_one prec emax)) vs nv = Ret vs2 ->
  Forall2 (vertex_is (E := sf_env prec emax maxid) (sf_is prec emax)) vs2 pl ->
  exact_input (E := sf_env prec emax maxid) vs2 (qpoint pl) bound ->
  2 * lenN vs + 2 <= maxid -> (4 * length vs + 12 <= fuel)%nat ->
  triangulation_from_3d_planar_vertices (E := sf_env prec emax maxid)
    (V := env_vec3 (E := sf_env prec emax maxid) (sf_sqrt prec emax) (sf_one prec emax)) fuel bins vs nv = Ret out ->
  valid_mesh (qpoint pl) (lenN vs) out /\
  forall a b c, In (a, b, c) out ->
    (rorient3 (rvec_of n) (at3 l a) (at3 l b) (at3 l c) < (16384 * roundoff prec + 12 * t) * (M * M))%R.
Proof. exact (fun F H1 H2 H3 H4 H5 H6 H7 H8 H9 => rounded_dt prec emax F maxid vs nv l n M t H1 H2 H3 H4 vs2 pl bound H5 H6 H7 H8 fuel bins H9 out). Qed.
Print Assumptions C34_rounded_dt.

Theorem C34_rounded_cdt prec emax maxid vs nv l n M t vs2 pl bound fuel bins cs out :
  format prec emax -> Forall2 (vec_is prec emax) vs l -> vec_is prec emax nv n -> moderate3 l n M -> nearly_orthogonal l n t ->
  transform_to_2d (V := env_vec3 (E := sf_env prec emax maxid) (sf_sqrt prec emax) (sf_one prec emax)) vs nv = Ret vs2 ->
  Forall2 (vertex_is (E := sf_env prec emax maxid) (sf_is prec emax)) vs2 pl ->
  exact_input (E := sf_env prec emax maxid) vs2 (qpoint pl) bound ->
  2 * lenN vs + 2 <= maxid -> (4 * length vs + 12 <= fuel)%nat ->
  constrained_triangulation_from_3d_planar_vertices (E := sf_env prec emax maxid)
    (V := env_vec3 (E := sf_env prec emax maxid) (sf_sqrt prec emax) (sf_one prec emax)) fuel bins vs nv cs = Ret out ->
  valid_mesh (qpoint pl) (lenN vs) out /\
  (forall a b c, In (a, b, c) out ->
    (rorient3 (rvec_of n) (at3 l a) (at3 l b) (at3 l c) < (16384 * roundoff prec + 12 * t) * (M * M))%R) /\
  (3 <= lenN vs -> noncrossing (qpoint pl) cs -> forall c, In c cs -> ~ same_place (qpoint pl (efrom c)) (qpoint pl (eto c)) ->
     respects (qpoint pl) (lenN vs) out (efrom c) (eto c)).
Proof. exact (fun F H1 H2 H3 H4 H5 H6 H7 H8 H9 => rounded_cdt prec emax F maxid vs nv l n M t H1 H2 H3 H4 vs2 pl bound H5 H6 H7 H8 fuel bins H9 cs out). Qed.
Print Assumptions C34_rounded_cdt.

(** Six points of the plane x + y + z = 1 with the normal as glam's [normalize] computes it. *)
Example C34_rounded_case : triangulation_from_3d_planar_vertices (E := env64) (V := dvec3) 100 1 lo_v no_v = Ret out_lo /\
  constrained_triangulation_from_3d_planar_vertices (E := env64) (V := dvec3) 400 1 lo_v no_v cs_lo = Ret cout_lo /\
  valid_mesh (qpoint lo_p) 6 out_lo /\ valid_mesh (qpoint lo_p) 6 cout_lo /\
  forall a b c, In (a, b, c) (out_lo ++ cout_lo) ->
    (rorient3 (rvec_of no_q) (at3 lo_q a) (at3 lo_q b) (at3 lo_q c) < (16384 * roundoff 53 + 12 * 0) * (6 * 6))%R.
Proof.
  assert (K : (100 >= 4 * length lo_v + 12)%nat) by (apply Nat.leb_le; reflexivity).
  assert (K' : (400 >= 4 * length lo_v + 12)%nat) by (apply Nat.leb_le; reflexivity).
  destruct lo_vectors as (A & B).
  destruct (C34_rounded_dt 53 1024 u32_max lo_v no_v lo_q no_q 6 0 lo_2 lo_p _ 100 1 out_lo Format_f64 A B lo_moderate lo_orthogonal
    lo_transform lo_values (Input_separated _ _ _ lo_separated) ltac:(discriminate) K lo_dt) as (V & O).
  destruct (C34_rounded_cdt 53 1024 u32_max lo_v no_v lo_q no_q 6 0 lo_2 lo_p _ 400 1 cs_lo cout_lo Format_f64 A B lo_moderate lo_orthogonal
    lo_transform lo_values (Input_separated _ _ _ lo_separated) ltac:(discriminate) K' lo_cdt) as (V' & O' & _).
  split; [exact lo_dt|]. split; [exact lo_cdt|]. split; [exact V|]. split; [exact V'|].
  intros a b c H. apply in_app_or in H. destruct H as [H|H]; [exact (O a b c H)|exact (O' a b c H)].
Qed.

(** The first two vertices coincide: a triangle of the result has two corners at the same place. *)
Theorem C34_equal_first_vertices_refuted :
  exists l n a b c out, (forall p, In p l -> zdot p n = 7%Z) /\ zdot n n = 1%Z /\ dt3d 1000 2 l n = Ret out /\
    In (a, b, c) out /\ nth (N.to_nat a) l (0, 0, 0)%Z = nth (N.to_nat b) l (0, 0, 0)%Z.
Proof. exact equal_first_vertices. Qed.
Print Assumptions C34_equal_first_vertices_refuted.

(** Distinct lattice points of an oblique plane, the normal as glam's [normalize] computes it,
    f64: the plane coordinates are rounded, and a triangle of the result is flat. *)
Theorem C34_oblique_refuted :
  exists l n a b c out, (forall p, In p l -> zdot p n = 243%Z) /\ NoDup l /\
    triangulation_from_3d_planar_vertices (E := env64) (V := dvec3) 100 1 (map pt3 l)
      (v3_normalize (Vertex3d := dvec3) (pt3 n)) = Ret out /\ In (a, b, c) out /\
    zorient3 n (nth (N.to_nat a) l (0, 0, 0)%Z) (nth (N.to_nat b) l (0, 0, 0)%Z) (nth (N.to_nat c) l (0, 0, 0)%Z) = 0%Z.
Proof. exact oblique_flat. Qed.
Print Assumptions C34_oblique_refuted.

(** ** C36 *)
Theorem C36_translation_scaling maxid k tx ty fuel bins cs (vs vs' : list point) :
  (0 < k)%Q -> moderate vs -> moderate vs' -> Forall2 (moved k tx ty) vs vs' ->
  triangulation_from_2d_vertices (E := envQ maxid) fuel bins vs' =
  triangulation_from_2d_vertices (E := envQ maxid) fuel bins vs /\
  constrained_triangulation_from_2d_vertices (E := envQ maxid) fuel bins vs' cs =
  constrained_triangulation_from_2d_vertices (E := envQ maxid) fuel bins vs cs.
Proof. exact (triangulation_moved maxid k tx ty fuel bins cs vs vs'). Qed.
Print Assumptions C36_translation_scaling.

Example C36_case : moved (3 # 2) 5 (-7) (1, 2)%Q (13 # 2, -4)%Q /\ moderate [(1, 2)%Q].
Proof. split; [split; reflexivity|]. intros v [<-|[]]. split; reflexivity. Qed.

(** ** C37 *)
(** Recording does not change the result, whatever is recorded. *)
Theorem C37_transparent {E : Env} cfg fuel bins (vs : list vertex) (cs : list edge) :
  cfg_force_end cfg = None ->
  fst (d_triangulation_from_2d_vertices cfg fuel bins vs) = triangulation_from_2d_vertices fuel bins vs /\
  fst (d_constrained_triangulation_from_2d_vertices cfg fuel bins vs cs) =
    constrained_triangulation_from_2d_vertices fuel bins vs cs.
Proof. exact (fun H => conj (dt_transparent cfg fuel bins vs H) (cdt_transparent cfg fuel bins vs cs H)). Qed.
Print Assumptions C37_transparent.

(** A configuration yields those snapshots of the run recording everything whose phase and step it asks for. *)
Theorem C37_recording {E : Env} cfg fuel bins (vs : list vertex) (cs : list edge) :
  selects (wanted cfg)
    (x_snapshots (snd (d_triangulation_from_2d_vertices (record_all cfg) fuel bins vs)))
    (x_snapshots (snd (d_triangulation_from_2d_vertices cfg fuel bins vs))) /\
  selects (wanted cfg)
    (x_snapshots (snd (d_constrained_triangulation_from_2d_vertices (record_all cfg) fuel bins vs cs)))
    (x_snapshots (snd (d_constrained_triangulation_from_2d_vertices cfg fuel bins vs cs))).
Proof. exact (conj (proj2 (dt_recording cfg fuel bins vs)) (proj2 (cdt_recording cfg fuel bins vs cs))). Qed.
Print Assumptions C37_recording.

(** A forced end at step [k]: [k - 1] vertices are inserted after the first one, and a constrained
    triangulation of n vertices processes the first [k - n] constraints. *)
Theorem C37_forced_end_result {E : Env} cfg k fuel bins (vs : list vertex) (cs : list edge) :
  3 <= lenN vs ->
  fst (d_triangulation_from_2d_vertices (forced cfg k) fuel bins vs) =
    (let* s := wrap_first (N.to_nat (k - 1)) fuel bins (normalized vs) None in Ret (filter_triangles (s_ts s))) /\
  (lenN vs <= k ->
    fst (d_triangulation_from_2d_vertices (forced cfg k) fuel bins vs) = triangulation_from_2d_vertices fuel bins vs /\
    fst (d_constrained_triangulation_from_2d_vertices (forced cfg k) fuel bins vs cs) =
      constrained_triangulation_from_2d_vertices fuel bins vs (firstn (N.to_nat (k - lenN vs)) cs)).
Proof. exact (forced_end_result cfg k fuel bins vs cs). Qed.
Print Assumptions C37_forced_end_result.

(** Up to the forced end the snapshots are those of the complete run; no later snapshot shows a change. *)
Theorem C37_forced_end_snapshots {E : Env} cfg k fuel bins (vs : list vertex) (cs : list edge) :
  snapshots_before k (snd (d_triangulation_from_2d_vertices (forced cfg k) fuel bins vs)) =
    snapshots_before k (snd (d_triangulation_from_2d_vertices (unforced cfg) fuel bins vs)) /\
  snapshots_before k (snd (d_constrained_triangulation_from_2d_vertices (forced cfg k) fuel bins vs cs)) =
    snapshots_before k (snd (d_constrained_triangulation_from_2d_vertices (unforced cfg) fuel bins vs cs)) /\
  forall sn, 1 <= k -> changes (sn_phase sn) ->
    In sn (x_snapshots (snd (d_triangulation_from_2d_vertices (forced cfg k) fuel bins vs))) \/
    In sn (x_snapshots (snd (d_constrained_triangulation_from_2d_vertices (forced cfg k) fuel bins vs cs))) ->
    sn_step sn < k.
Proof. exact (forced_end_snapshots cfg k fuel bins vs cs). Qed.
Print Assumptions C37_forced_end_snapshots.

(** Steps never decrease along the snapshots, and the vertex split at step [i] is number [i] of the bin order. *)
Theorem C37_trace {E : Env} cfg fuel bins (vs : list vertex) (cs : list edge) shots :
  shots = x_snapshots (snd (d_triangulation_from_2d_vertices cfg fuel bins vs)) \/
  shots = x_snapshots (snd (d_constrained_triangulation_from_2d_vertices cfg fuel bins vs cs)) ->
  StronglySorted N.le (map sn_step shots) /\
  forall sn v, In sn shots -> sn_event sn = Split v ->
    exists order, bin_sort bins (normalized vs) = Ret order /\ nthN order (sn_step sn) = Some v.
Proof. exact (trace_facts cfg fuel bins vs cs shots). Qed.
Print Assumptions C37_trace.

(** When everything is recorded, the last snapshot holds the triangles of the output. *)
Theorem C37_last_snapshot {E : Env} cfg fuel bins (vs : list vertex) (cs : list edge) out run :
  cfg_phase cfg = PAll -> cfg_steps cfg = SAll -> 3 <= lenN vs ->
  run = d_triangulation_from_2d_vertices cfg fuel bins vs \/
  run = d_constrained_triangulation_from_2d_vertices cfg fuel bins vs cs ->
  fst run = Ret out ->
  exists before sn, x_snapshots (snd run) = before ++ [sn] /\ sn_phase sn = FilterTriangles /\
    map tverts (sn_triangles sn) = out.
Proof. exact (last_snapshot cfg fuel bins vs cs out run). Qed.
Print Assumptions C37_last_snapshot.

(** A complete recording misses no change: its last change up to step [i] shows the triangles
    that result from inserting [i] vertices after the first one and, with n vertices, processing
    [i + 1 - n] constraints. *)
Theorem C37_replay {E : Env} fuel bins (vs : list vertex) (cs : list edge) i :
  3 <= lenN vs ->
  (forall s, wrap_first (N.to_nat i) fuel bins (normalized vs) None = Ret s ->
    shown_after i (x_snapshots (snd (d_triangulation_from_2d_vertices default_config fuel bins vs))) (s_ts s)) /\
  (forall s mapping ts cset,
    wrap_first (N.to_nat i) fuel bins (normalized vs) (Some (rangeN 0 (length vs))) = Ret s ->
    s_map s = Some mapping ->
    apply_constraints fuel (normalized vs) (s_ts s) (firstn (N.to_nat (i + 1 - lenN vs)) cs) mapping = Ret (ts, cset) ->
    shown_after i (x_snapshots (snd (d_constrained_triangulation_from_2d_vertices default_config fuel bins vs cs))) ts).
Proof.
  exact (fun H => conj (fun s => dt_replay fuel bins vs i s H) (fun s m ts cset => cdt_replay fuel bins vs cs i s m ts cset H)).
Qed.
Print Assumptions C37_replay.

(** The returned context, with a result or an error: below 3 vertices the default one, whatever
    the configuration; else the given configuration and the frame which takes the vertices to the
    coordinates of the run.  Its step counts every vertex but the first one and every constraint. *)
Theorem C37_context {E : Env} cfg fuel bins (vs : list vertex) (cs : list edge) :
  (forall r c, d_triangulation_from_2d_vertices cfg fuel bins vs = (r, c) ->
    (lenN vs < 3 -> c = Ctx (Config PAll SAll None) f0 f0 f0 [] 0) /\
    (3 <= lenN vs ->
    x_config c = cfg /\
    normalize_vertices_coordinates vs = (normalized vs, x_scale_factor c, x_x_min c, x_y_min c) /\
    normalized vs = map (fun v => (fdiv (fsub (vx v) (x_x_min c)) (x_scale_factor c), fdiv (fsub (vy v) (x_y_min c)) (x_scale_factor c))) vs /\
    (cfg_force_end cfg = None -> (exists out, r = Ret out) -> x_step c = lenN vs - 1))) /\
  (forall r c, d_constrained_triangulation_from_2d_vertices cfg fuel bins vs cs = (r, c) ->
    (lenN vs < 3 -> c = Ctx (Config PAll SAll None) f0 f0 f0 [] 0) /\
    (3 <= lenN vs ->
    x_config c = cfg /\
    normalize_vertices_coordinates vs = (normalized vs, x_scale_factor c, x_x_min c, x_y_min c) /\
    normalized vs = map (fun v => (fdiv (fsub (vx v) (x_x_min c)) (x_scale_factor c), fdiv (fsub (vy v) (x_y_min c)) (x_scale_factor c))) vs /\
    (cfg_force_end cfg = None -> (exists out, r = Ret out) -> x_step c = lenN vs - 1 + lenN cs))).
Proof. exact (conj (fun r c => dt_context cfg fuel bins vs c r) (fun r c => cdt_context cfg fuel bins vs cs c r)). Qed.
Print Assumptions C37_context.

Example C37_context_case :
  let cfg := Config (PIn AfterConstraints) (SFrom 6) None in
  exists c, d_constrained_triangulation_from_2d_vertices (E := env64) cfg 1000 2 (pts lw) cs_w = (Ret cdt_w, c) /\
    x_config c = cfg /\ x_step c = 10 /\ length (x_snapshots c) = 1%nat /\
    d_triangulation_from_2d_vertices (E := env64) cfg 1000 2 (firstn 2 (pts lw)) = (Ret [], default_context).
Proof. exact context_case. Qed.

(** Seven vertices and four constraints in f64.  The second vertex in bin order merges with the
    first one, so step 1 shows no change; the first constraint takes one swap. *)
Example C37_case :
  let run cfg := d_constrained_triangulation_from_2d_vertices (E := env64) cfg 1000 2 (pts lw) cs_w in
  fst (run default_config) = Ret cdt_w /\
  map (fun sn => (sn_step sn, sn_phase sn, sn_event sn)) (x_snapshots (snd (run (Config PAll (SFrom 6) None)))) =
    [(6, SplitTriangle, Split 2); (6, DelaunayRestoreSwapQuadDiagonals, Snapshot);
     (6, DelaunayRestoreSwapQuadDiagonals, Snapshot); (6, BeforeConstraints, Snapshot);
     (7, ConstrainedSwapQuadDiagonals, Snapshot); (10, AfterConstraints, Snapshot); (10, FilterTriangles, Snapshot)] /\
  map (fun sn => (sn_step sn, sn_event sn)) (x_snapshots (snd (run (Config (PInAny [SplitQuad; SplitTriangle]) (SBetween 2 5) None)))) =
    [(2, Split 0); (3, Split 5); (4, Split 1); (5, Split 3)] /\
  fst (run (forced default_config 5)) = Ret [] /\
  map sn_step (x_snapshots (snd (run (forced default_config 5)))) = [0; 2; 3; 3; 4; 4; 5; 6; 6] /\
  fst (run (forced default_config 8)) = constrained_triangulation_from_2d_vertices (E := env64) 1000 2 (pts lw) [Edge 0 3] /\
  exists s mapping r, wrap_first (E := env64) 7 1000 2 (normalized (E := env64) (pts lw)) (Some (rangeN 0 7)) = Ret s /\ s_map s = Some mapping /\
    apply_constraints (E := env64) 1000 (normalized (E := env64) (pts lw)) (s_ts s) (firstn 1 cs_w) mapping = Ret r.
Proof. exact debug_case. Qed.

(** ** C39 *)
Theorem C39_predicates_exact {E : Env} (vs : list vertex) at_ bound a b c d va vb vc vd :
  exact_input vs at_ bound -> 2 * lenN vs + 2 <= idmax ->
  nthN (normalized vs) a = Some va -> nthN (normalized vs) b = Some vb ->
  nthN (normalized vs) c = Some vc -> nthN (normalized vs) d = Some vd ->
  let o := orient (at_ a) (at_ b) (at_ c) in
  let s := test_point_edge_side (va, vb) vc in
  ((is_on_left_side s = true <-> (0 < o)%Q) /\ (is_near_edge s = true <-> (o == 0)%Q) /\
   (is_point_strictly_on_right_side_of_edge (va, vb) vc = true <-> (o < 0)%Q)) /\
  (clockwise (at_ d) (at_ a) (at_ b) -> clockwise (at_ b) (at_ a) (at_ c) ->
   is_vertex_in_triangle_circumcircle va vb vc vd = true <->
   in_circumcircle (at_ a) (at_ b) (at_ c) (at_ d)) /\
  (is_vertex_pair_too_close va vb = true <-> same_place (at_ a) (at_ b)) /\
  (is_crossing (egdes_intersect (va, vb) (vc, vd)) = true <->
   segments_cross (at_ a) (at_ b) (at_ c) (at_ d)).
Proof. intros G. pair_input G. exact ((fun G H => grid_predicates vs px py bound G H a b c d va vb vc vd) G). Qed.
Print Assumptions C39_predicates_exact.

(** The three arithmetics have grids. *)
Example C39_case : on_grid (E := env64) (pts lw) lw (2 ^ 40) /\
  on_grid (E := env32) (map (fun p => (sf_of_Z 24 128 (fst p), sf_of_Z 24 128 (snd p))) lw) lw (2 ^ 13) /\
  on_grid (E := envQ u32_max) (map ptQ lw) lw (2 ^ 40).
Proof. exact (conj lw_grid64 (conj lw_grid32 lw_gridQ)). Qed.

(** ** C41 *)
Theorem C41_interior_insertions {E : Env} (vs : list vertex) at_ bound fuel bins first l1 l2 s out :
  exact_input vs at_ bound -> 2 * lenN vs + 2 <= idmax -> (4 * length vs + 12 <= fuel)%nat -> 3 <= lenN vs ->
  bin_sort bins (normalized vs) = Ret (first :: l1 ++ l2) ->
  inserted fuel (normalized vs) None first l1 s ->
  triangulation_from_2d_vertices fuel bins vs = Ret out ->
  let before := filter_triangles (s_ts s) in
  (forall v, In v l2 -> surrounded at_ before (at_ v)) ->
  locally_delaunay at_ before -> locally_delaunay at_ out.
Proof.
  intros G. pair_input G.
  exact ((fun G H Hf H3 Hb Hs Ho Hin => proj2 (proj2 (grid_more vs px py bound G H fuel bins first l1 l2 s out Hf H3 Hb Hs Ho) Hin)) G).
Qed.
Print Assumptions C41_interior_insertions.

(** The four corners of a quadrilateral are inserted first, then two points inside it. *)
Example C41_case : exact_input (E := env64) (pts lq) (zpoint lq) (2 ^ 40) /\ 2 * lenN (pts lq) + 2 <= @idmax env64 /\
  bin_sort (E := env64) 1 (normalized (E := env64) (pts lq)) = Ret (5 :: [4; 3; 2] ++ [1; 0]) /\
  inserted (E := env64) 100 (normalized (E := env64) (pts lq)) None 5 [4; 3; 2] state_q /\
  triangulation_from_2d_vertices (E := env64) 100 1 (pts lq) = Ret out_q /\
  filter_triangles (E := env64) (s_ts state_q) = before_q /\
  (forall v, In v [1; 0] -> surrounded (zpoint lq) before_q (zpoint lq v)) /\
  locally_delaunay (zpoint lq) before_q.
Proof.
  exact (conj (Input_grid _ _ _ lq_grid64) (conj lq_ids (conj lq_order (conj lq_inserted (conj lq_dt
    (conj lq_before (conj before_q_surrounded before_q_local))))))).
Qed.

(** ** C42 *)
Theorem C42_area_never_shrinks {E : Env} (vs : list vertex) at_ bound fuel bins first l1 l2 s out :
  exact_input vs at_ bound -> 2 * lenN vs + 2 <= idmax -> (4 * length vs + 12 <= fuel)%nat -> 3 <= lenN vs ->
  bin_sort bins (normalized vs) = Ret (first :: l1 ++ l2) ->
  inserted fuel (normalized vs) None first l1 s ->
  triangulation_from_2d_vertices fuel bins vs = Ret out ->
  let before := filter_triangles (s_ts s) in
  (forall p, covered at_ before p -> covered at_ out p) /\
  ((forall v, In v l2 -> surrounded at_ before (at_ v)) -> forall p, covered at_ out p -> covered at_ before p).
Proof.
  intros G. pair_input G.
  exact ((fun G H Hf H3 Hb Hs Ho => let K := grid_more vs px py bound G H fuel bins first l1 l2 s out Hf H3 Hb Hs Ho in
    conj (proj1 K) (fun Hin => proj1 (proj2 K Hin))) G).
Qed.
Print Assumptions C42_area_never_shrinks.

(** In the same input the quadrilateral is covered by the two first triangles. *)
Example C42_case : covered (zpoint lq) before_q (zpoint lq 1) /\ ~ covered (zpoint lq) before_q (0, 0)%Q.
Proof. split; rewrite before_q_area; vm_compute; [repeat split; discriminate|]. intros (_ & _ & _ & K). now apply K. Qed.

(** ** C43 *)
Theorem C43_delaunay {E : Env} (vs : list vertex) at_ bound fuel bins out :
  exact_input vs at_ bound -> 2 * lenN vs + 2 <= idmax -> (4 * length vs + 12 <= fuel)%nat ->
  triangulation_from_2d_vertices fuel bins vs = Ret out ->
  locally_delaunay at_ out -> convex_area at_ out ->
  forall a b c v, is_tri out a b c -> v < lenN vs -> covered at_ out (at_ v) ->
    ~ in_circumcircle (at_ a) (at_ b) (at_ c) (at_ v).
Proof. intros G. pair_input G. exact ((fun G H => grid_empty_circles vs px py bound G H fuel bins out) G). Qed.
Print Assumptions C43_delaunay.

(** With C41 and C42: the vertices inserted after a locally Delaunay convex part, inside it. *)
Theorem C43_delaunay_interior {E : Env} (vs : list vertex) at_ bound fuel bins first l1 l2 s out :
  exact_input vs at_ bound -> 2 * lenN vs + 2 <= idmax -> (4 * length vs + 12 <= fuel)%nat -> 3 <= lenN vs ->
  bin_sort bins (normalized vs) = Ret (first :: l1 ++ l2) ->
  inserted fuel (normalized vs) None first l1 s ->
  triangulation_from_2d_vertices fuel bins vs = Ret out ->
  let before := filter_triangles (s_ts s) in
  locally_delaunay at_ before -> convex_area at_ before ->
  (forall v, In v l2 -> surrounded at_ before (at_ v)) ->
  (forall p, covered at_ out p <-> covered at_ before p) /\
  forall a b c v, is_tri out a b c -> v < lenN vs -> covered at_ before (at_ v) ->
    ~ in_circumcircle (at_ a) (at_ b) (at_ c) (at_ v).
Proof. intros G. pair_input G. exact ((fun G H => grid_interior vs px py bound G H fuel bins first l1 l2 s out) G). Qed.
Print Assumptions C43_delaunay_interior.

Example C43_case : convex_area (zpoint lq) before_q /\ locally_delaunay (zpoint lq) out_q /\
  is_tri out_q 1 4 3 /\ covered (zpoint lq) before_q (zpoint lq 5).
Proof.
  refine (conj before_q_convex (conj out_q_local (conj _ _))); [left; left; reflexivity|].
  apply before_q_area. vm_compute. repeat split; discriminate.
Qed.

(** ** C44 *)

(** In any arithmetic the checker answers, and counts triangles. *)
Theorem C44_checker_total {E : Env} sqrt_ ts (vs : list vertex) : ids_in_range ts vs ->
  exists flat ccw bad, check_delaunay_optimal sqrt_ ts vs = Ret (flat, ccw, bad) /\
    flat + ccw <= lenN ts /\ bad <= lenN ts.
Proof. exact (optimal_total sqrt_ ts vs). Qed.
Print Assumptions C44_checker_total.

Example C44_total_case : ids_in_range tcirc (pts lcirc) /\ optimal64 tcirc lcirc = Ret (0, 0, 1).
Proof. split; [intros t v [<-|[<-|[]]] [->|[->| ->]]; reflexivity|vm_compute; reflexivity]. Qed.

(** Without rounding it counts the triangles whose circumcircle contains another corner. *)
Theorem C44_circle_count_partial ts vs : ids_in_range ts vs ->
  (forall a b c, In (a, b, c) ts -> not_flat (rat vs a) (rat vs b) (rat vs c)) ->
  exists bad, (forall t, In t ts -> (bad t = true <-> crowded vs ts t)) /\
    r_check_circumcircles ts vs = Ret (lenN (filter bad ts)).
Proof. exact (r_check ts vs). Qed.
Print Assumptions C44_circle_count_partial.

Example C44_count_case : ids_in_range tcrowd (rpts lcrowd) /\
  (forall a b c, In (a, b, c) tcrowd -> not_flat (rat (rpts lcrowd) a) (rat (rpts lcrowd) b) (rat (rpts lcrowd) c)) /\
  crowded (rpts lcrowd) tcrowd (0, 1, 2).
Proof. exact lcrowd_case. Qed.

(** Without rounding the results of C43 pass the check. *)
Theorem C44_delaunay_passes_partial {E : Env} (vs : list vertex) at_ bound fuel bins out rvs :
  exact_input vs at_ bound -> 2 * lenN vs + 2 <= idmax -> (4 * length vs + 12 <= fuel)%nat ->
  triangulation_from_2d_vertices fuel bins vs = Ret out ->
  locally_delaunay at_ out -> convex_area at_ out ->
  real_positions at_ (lenN vs) rvs -> r_check_circumcircles out rvs = Ret 0.
Proof. intros G. pair_input G. exact ((fun G H => grid_passes vs px py bound G H fuel bins out rvs) G). Qed.
Print Assumptions C44_delaunay_passes_partial.

Example C44_passes_case : r_check_circumcircles out_q (rpts lq) = Ret 0.
Proof.
  assert (K : (100 >= 4 * length (pts lq) + 12)%nat) by (apply Nat.leb_le; reflexivity).
  destruct (C42_area_never_shrinks (E := env64) _ _ _ 100 1 5 [4; 3; 2] [1; 0] state_q out_q
              (Input_grid _ _ _ lq_grid64) lq_ids K) as (A & B); try exact lq_order; try exact lq_inserted; try exact lq_dt; [discriminate|].
  apply (C44_delaunay_passes_partial (E := env64) (pts lq) (zpoint lq) _ 100 1 out_q (rpts lq)
              (Input_grid _ _ _ lq_grid64) lq_ids K lq_dt out_q_local); [|exact (rpts_real lq)].
  intros p q s Hp Hq Hs. apply A, before_q_convex; auto; apply B; auto; exact before_q_surrounded.
Qed.

(** In f64 and f32, on integer coordinates up to 2^14 (f64) or 2^6 (f32), the report is right
    when no corner is too near the circle of another triangle: no flat triangle, the
    counter-clockwise ones, and those whose circumcircle contains another corner. *)
Theorem C44_rounded prec emax maxid G vs l ts :
  checker_range prec emax G -> int_points prec emax G vs l -> ids_in_range ts l ->
  (forall a b c, In (a, b, c) ts -> ~ (orient (zpoint l a) (zpoint l b) (zpoint l c) == 0)%Q) ->
  clear_mesh prec G (real_points l) ts ->
  exists bad, (forall t, In t ts -> (bad t = true <-> crowded (real_points l) ts t)) /\
    check_delaunay_optimal (E := sf_env prec emax maxid) (sf_sqrt prec emax) ts vs
    = Ret (0, lenN (filter (tri_ccw (zpoint l)) ts), lenN (filter bad ts)).
Proof.
  exact (fun C I R F K => match rounded_check prec emax maxid G vs l ts C I R F K with
    | ex_intro _ bad (conj B (conj _ D)) => ex_intro _ bad (conj B D) end).
Qed.
Print Assumptions C44_rounded.

Example C44_rounded_case : optimal64 tcrowd lcrowd = Ret (0, 0, 2) /\ crowded (real_points lcrowd) tcrowd (0, 1, 2) /\
  exists bad, (forall t, In t tcrowd -> (bad t = true <-> crowded (real_points lcrowd) tcrowd t)) /\
    optimal64 tcrowd lcrowd = Ret (0, 0, lenN (filter bad tcrowd)).
Proof.
  split; [vm_compute; reflexivity|]. split; [exact (proj2 (proj2 lcrowd_case))|].
  destruct (C44_rounded 53 1024 u32_max 4 (pts lcrowd) lcrowd tcrowd lcrowd_range lcrowd_points) as (bad & A & B).
  - exact lcrowd_ids.
  - exact lcrowd_not_flat.
  - exact lcrowd_clear.
  - exists bad. split; [exact A|exact B].
Qed.

(** Hence the results of C43 pass the check with rounding, when no vertex is too near a circle. *)
Theorem C44_rounded_passes prec emax maxid G vs l bound fuel bins out :
  let E := sf_env prec emax maxid in
  checker_range prec emax G -> int_points prec emax G vs l -> on_grid (E := E) vs l bound ->
  2 * lenN vs + 2 <= maxid -> (4 * length vs + 12 <= fuel)%nat ->
  triangulation_from_2d_vertices (E := E) fuel bins vs = Ret out ->
  locally_delaunay (zpoint l) out -> convex_area (zpoint l) out -> clear_mesh prec G (real_points l) out ->
  check_delaunay_optimal (E := E) (sf_sqrt prec emax) out vs = Ret (0, 0, 0).
Proof. exact (rounded_passes prec emax maxid G vs l bound fuel bins out). Qed.
Print Assumptions C44_rounded_passes.

Example C44_rounded_passes_case : optimal64 out_q lq = Ret (0, 0, 0).
Proof.
  assert (K : (100 >= 4 * length (pts lq) + 12)%nat) by (apply Nat.leb_le; reflexivity).
  destruct (C42_area_never_shrinks (E := env64) _ _ _ 100 1 5 [4; 3; 2] [1; 0] state_q out_q
              (Input_grid _ _ _ lq_grid64) lq_ids K) as (A & B); try exact lq_order; try exact lq_inserted; try exact lq_dt; [discriminate|].
  apply (C44_rounded_passes 53 1024 u32_max 8 (pts lq) lq (2 ^ 40) 100 1 out_q lq_range lq_points lq_grid64 lq_ids K lq_dt out_q_local); [|exact lq_clear].
  intros p q s Hp Hq Hs. apply A, before_q_convex; auto; apply B; auto; exact before_q_surrounded.
Qed.

(** In floating point the count is wrong in both directions: four corners on a circle are
    reported, a vertex inside a circle is missed. *)
Theorem C44_float_refuted :
  (exists l ts, ids_in_range ts l /\
     (forall a b c, In (a, b, c) ts -> zorient (zat l a) (zat l b) (zat l c) < 0 /\
        forall v, ~ zin_circumcircle (zat l a) (zat l b) (zat l c) (zat l v))%Z /\
     optimal64 ts l = Ret (0, 0, 1)) /\
  (exists l a b c d, let ts := [(a, b, c); (a, c, d)] in
     (zorient (zat l a) (zat l b) (zat l c) < 0 /\ zorient (zat l a) (zat l c) (zat l d) < 0)%Z /\
     zin_circumcircle (zat l a) (zat l b) (zat l c) (zat l d) /\
     optimal64 ts l = Ret (0, 0, 0)).
Proof. exact (conj false_alarm missed). Qed.
Print Assumptions C44_float_refuted.

(** ** C45 *)

(** Vertices in the convex area of a locally Delaunay part, border included, are always inserted:
    the walk finds them, whatever their order and number.  The area stays the same and the
    result is a Delaunay triangulation. *)
Theorem C45_covered_inserted {E : Env} (vs : list vertex) at_ bound fuel bins first l1 l2 s :
  exact_input vs at_ bound -> 2 * lenN vs + 2 <= idmax -> (4 * length vs + 12 <= fuel)%nat -> 3 <= lenN vs ->
  bin_sort bins (normalized vs) = Ret (first :: l1 ++ l2) ->
  inserted fuel (normalized vs) None first l1 s ->
  let before := filter_triangles (s_ts s) in
  locally_delaunay at_ before -> convex_area at_ before ->
  (forall v, v < lenN vs -> covered at_ before (at_ v)) ->
  exists out, triangulation_from_2d_vertices fuel bins vs = Ret out /\
    (forall p, covered at_ out p <-> covered at_ before p) /\
    forall a b c v, is_tri out a b c -> v < lenN vs -> ~ in_circumcircle (at_ a) (at_ b) (at_ c) (at_ v).
Proof. intros G. pair_input G. exact ((fun G H => grid_succeeds vs px py bound G H fuel bins first l1 l2 s) G). Qed.
Print Assumptions C45_covered_inserted.

Example C45_case : exists out, dt64 100 1 lq = Ret out.
Proof.
  assert (K : (100 >= 4 * length (pts lq) + 12)%nat) by (apply Nat.leb_le; reflexivity).
  destruct (C45_covered_inserted (E := env64) _ _ _ 100 1 5 [4; 3; 2] [1; 0] state_q (Input_grid _ _ _ lq_grid64) lq_ids K)
    as (out & Ho & _);
    try exact lq_order; try exact lq_inserted; rewrite ?lq_before; try exact before_q_local; try exact before_q_convex;
    try exact lq_covered; [discriminate|exists out; exact Ho].
Qed.

(** ** C46 *)

(** An input on a grid, for which no computation is rounded, may still make the call fail, with
    the default number of bins too. *)
Theorem C46_exact_error_refuted :
  exists l v bins, on_grid (E := env64) (pts l) l (2 ^ 40) /\ length l = 8%nat /\
    default_bins (lenN l) bins /\ dt64 100 bins l = Fail (ErrPlacementNotFound v).
Proof. exact exact_error. Qed.
Print Assumptions C46_exact_error_refuted.

(** But once the corners of a box are inserted first, in any order, every vertex of the box,
    sides included, is inserted, the triangles cover the box, and the result is a Delaunay
    triangulation. *)
Theorem C46_boxed_order {E : Env} (vs : list vertex) at_ bound fuel bins a b c d v0 v1 v2 v3 rest :
  exact_input vs at_ bound -> 2 * lenN vs + 2 <= idmax -> (4 * length vs + 12 <= fuel)%nat ->
  box_corners (at_ a) (at_ b) (at_ c) (at_ d) -> Permutation [v0; v1; v2; v3] [a; b; c; d] ->
  bin_sort bins (normalized vs) = Ret (v0 :: v1 :: v2 :: v3 :: rest) ->
  (forall v, In v rest -> in_box (at_ a) (at_ c) (at_ v)) ->
  exists out, triangulation_from_2d_vertices fuel bins vs = Ret out /\
    (forall p, covered at_ out p <-> in_box (at_ a) (at_ c) p) /\
    forall x y z v, is_tri out x y z -> v < lenN vs -> ~ in_circumcircle (at_ x) (at_ y) (at_ z) (at_ v).
Proof. intros G. pair_input G. exact ((fun G H => grid_box vs px py bound G H fuel bins a b c d v0 v1 v2 v3 rest) G). Qed.
Print Assumptions C46_boxed_order.

(** With one bin the vertices are inserted from the last one to the first one: it is enough to
    put the corners at the end of the input. *)
Theorem C46_boxed {E : Env} (vs : list vertex) at_ bound fuel n a b c d :
  exact_input vs at_ bound -> 2 * lenN vs + 2 <= idmax -> (4 * length vs + 12 <= fuel)%nat -> (1 <= bound)%Z ->
  lenN vs = n + 4 -> Permutation [a; b; c; d] [n; n + 1; n + 2; n + 3] ->
  box_corners (at_ a) (at_ b) (at_ c) (at_ d) ->
  (forall v, v < n -> in_box (at_ a) (at_ c) (at_ v)) ->
  exists out, triangulation_from_2d_vertices fuel 1 vs = Ret out /\
    (forall p, covered at_ out p <-> in_box (at_ a) (at_ c) p) /\
    forall x y z v, is_tri out x y z -> v < lenN vs -> ~ in_circumcircle (at_ x) (at_ y) (at_ z) (at_ v).
Proof. intros G. pair_input G. exact ((fun G H => grid_box_last vs px py bound G H fuel n a b c d) G). Qed.
Print Assumptions C46_boxed.

Example C46_case : exists out, dt64 100 1 lbox = Ret out /\
  (forall p, covered (zpoint lbox) out p <-> in_box (0, 0)%Q (32, 16)%Q p) /\
  forall x y z v, is_tri out x y z -> v < 10 ->
    ~ in_circumcircle (zpoint lbox x) (zpoint lbox y) (zpoint lbox z) (zpoint lbox v).
Proof.
  assert (K : (100 >= 4 * length (pts lbox) + 12)%nat) by (apply Nat.leb_le; reflexivity).
  destruct lbox_corners as (P & B).
  exact (C46_boxed (E := env64) (pts lbox) (zpoint lbox) _ 100 6 7 9 6 8 (Input_grid _ _ _ lbox_grid64) lbox_ids K
           ltac:(discriminate) eq_refl P B lbox_inside).
Qed.

(** ** C47 *)

(** For such vertices the constrained triangulation succeeds too, and respects all constraints:
    indices in range, no vertex between the ends of a constraint, no two of them crossing. *)
Theorem C47_boxed_constraints {E : Env} (vs : list vertex) at_ bound fuel n a b c d cs :
  exact_input vs at_ bound -> 2 * lenN vs + 2 <= idmax ->
  ((2 * length vs + 4) * (2 * length vs + 4) <= fuel)%nat -> (1 <= bound)%Z ->
  lenN vs = n + 4 -> Permutation [a; b; c; d] [n; n + 1; n + 2; n + 3] ->
  box_corners (at_ a) (at_ b) (at_ c) (at_ d) ->
  (forall v, v < n -> in_box (at_ a) (at_ c) (at_ v)) ->
  (forall e, In e cs -> efrom e < lenN vs /\ eto e < lenN vs /\
     (~ same_place (at_ (efrom e)) (at_ (eto e)) -> clear_between at_ (lenN vs) (efrom e) (eto e))) ->
  noncrossing at_ cs ->
  exists out, constrained_triangulation_from_2d_vertices fuel 1 vs cs = Ret out /\
    forall e, In e cs -> ~ same_place (at_ (efrom e)) (at_ (eto e)) ->
      respects at_ (lenN vs) out (efrom e) (eto e).
Proof. intros G. pair_input G. exact ((fun G H => grid_box_cdt vs px py bound G H fuel n a b c d cs) G). Qed.
Print Assumptions C47_boxed_constraints.

Example C47_case : exists out,
  constrained_triangulation_from_2d_vertices (E := env64) 1000 1 (pts lbox) cs_box = Ret out /\
  forall e, In e cs_box -> ~ same_place (zpoint lbox (efrom e)) (zpoint lbox (eto e)) ->
    respects (zpoint lbox) 10 out (efrom e) (eto e).
Proof.
  assert (K : (1000 >= (2 * length (pts lbox) + 4) * (2 * length (pts lbox) + 4))%nat) by (apply Nat.leb_le; reflexivity).
  destruct lbox_corners as (P & B).
  exact (C47_boxed_constraints (E := env64) (pts lbox) (zpoint lbox) _ 1000 6 7 9 6 8 cs_box (Input_grid _ _ _ lbox_grid64) lbox_ids K
           ltac:(discriminate) eq_refl P B lbox_inside lbox_clear lbox_noncrossing).
Qed.

(** ** C48 *)

(** The constraints change the triangulation only where they cross it: a triangle of the
    constrained triangulation that overlaps a triangle of the unconstrained one is the same
    triangle, or a constraint goes through the interior of the latter. *)
Theorem C48_local {E : Env} (vs : list vertex) at_ bound fuel bins cs out dt a b c x y z p :
  exact_input vs at_ bound -> 2 * lenN vs + 2 <= idmax -> (4 * length vs + 12 <= fuel)%nat ->
  constrained_triangulation_from_2d_vertices fuel bins vs cs = Ret out ->
  triangulation_from_2d_vertices fuel bins vs = Ret dt ->
  In (a, b, c) out -> In (x, y, z) dt ->
  strictly_inside (at_ a) (at_ b) (at_ c) p -> strictly_inside (at_ x) (at_ y) (at_ z) p ->
  (a, b, c) = (x, y, z) \/
  exists e s, In e cs /\ (0 < s < 1)%Q /\
    strictly_inside (at_ x) (at_ y) (at_ z) (along (at_ (efrom e)) (at_ (eto e)) s).
Proof. intros G. pair_input G. exact ((fun G H F => grid_local vs px py bound G H fuel bins F cs out dt a b c x y z p) G). Qed.
Print Assumptions C48_local.

(** A triangle changed by a constraint. *)
Example C48_case : exists e s, In e cs_nd /\ (0 < s < 1)%Q /\
  strictly_inside (zpoint lnd 0) (zpoint lnd 2) (zpoint lnd 3) (along (zpoint lnd (efrom e)) (zpoint lnd (eto e)) s).
Proof.
  assert (K : (400 >= 4 * length (pts lnd) + 12)%nat) by (apply Nat.leb_le; reflexivity).
  destruct lnd_overlap as (O & D & I & J).
  destruct (C48_local (E := env64) (pts lnd) (zpoint lnd) _ 400 1 cs_nd out_nd dt_nd 6 1 2 0 2 3 _ (Input_grid _ _ _ lnd_grid64)
    lnd_ids K lnd_cdt lnd_dt O D I J) as [Q|Q]; [discriminate Q|exact Q].
Qed.

(** ** C49 *)

(** The constrained triangulation is not always a constrained Delaunay triangulation, even
    without rounding: the pass over the new edges does not come back to the edges around them. *)
Theorem C49_constrained_delaunay_refuted :
  exists l cs out, on_grid (E := env64) (pts l) l (2 ^ 40) /\
    constrained_triangulation_from_2d_vertices (E := env64) 400 1 (pts l) cs = Ret out /\
    ~ constrained_delaunay (zpoint l) cs out.
Proof. exists lnd, cs_nd, out_nd. exact (conj lnd_grid64 (conj lnd_cdt lnd_not_delaunay)). Qed.
Print Assumptions C49_constrained_delaunay_refuted.

(** In a box, a triangle that overlaps a triangle of the unconstrained triangulation crossed by
    no constraint has no vertex in its circumcircle.  Missing from the full claim: the triangles
    in the area crossed by the constraints, for which it is refuted. *)
Theorem C49_far_partial {E : Env} (vs : list vertex) at_ bound fuel bins n a b c d cs out dt u v w x y z p :
  exact_input vs at_ bound -> 2 * lenN vs + 2 <= idmax -> (4 * length vs + 12 <= fuel)%nat -> (1 <= bound)%Z ->
  lenN vs = n + 4 -> Permutation [a; b; c; d] [n; n + 1; n + 2; n + 3] ->
  box_corners (at_ a) (at_ b) (at_ c) (at_ d) ->
  (forall i, i < n -> in_box (at_ a) (at_ c) (at_ i)) -> bins = 1 ->
  constrained_triangulation_from_2d_vertices fuel bins vs cs = Ret out ->
  triangulation_from_2d_vertices fuel bins vs = Ret dt ->
  In (u, v, w) out -> In (x, y, z) dt ->
  strictly_inside (at_ u) (at_ v) (at_ w) p -> strictly_inside (at_ x) (at_ y) (at_ z) p ->
  (forall e s, In e cs -> (0 < s < 1)%Q ->
     ~ strictly_inside (at_ x) (at_ y) (at_ z) (along (at_ (efrom e)) (at_ (eto e)) s)) ->
  forall i, i < lenN vs -> ~ in_circumcircle (at_ u) (at_ v) (at_ w) (at_ i).
Proof. intros G. pair_input G. exact ((fun G H F => grid_box_far vs px py bound G H fuel bins F n a b c d cs out dt u v w x y z p) G). Qed.
Print Assumptions C49_far_partial.

Example C49_case : forall i, i < 7 -> ~ in_circumcircle (zpoint lnd 1) (zpoint lnd 4) (zpoint lnd 5) (zpoint lnd i).
Proof.
  assert (K : (400 >= 4 * length (pts lnd) + 12)%nat) by (apply Nat.leb_le; reflexivity).
  destruct lnd_far as (O & D & I & J). destruct lnd_box as (P & B & Hin).
  exact (C49_far_partial (E := env64) (pts lnd) (zpoint lnd) _ 400 1 3 3 6 5 4 cs_nd out_nd dt_nd 1 4 5 1 4 5 _ (Input_grid _ _ _ lnd_grid64)
    lnd_ids K ltac:(discriminate) eq_refl P B Hin eq_refl lnd_cdt lnd_dt O D I I J).
Qed.

(** An edge that the constrained triangulation has in common with the unconstrained one is
    Delaunay, when the latter is a Delaunay triangulation: none of its two triangles has in its
    circumcircle the opposite corner of the other.  Missing from the full claim: the other
    edges. *)
Theorem C49_common_edge_partial {E : Env} (vs : list vertex) at_ bound fuel bins cs out dt a b c d :
  exact_input vs at_ bound -> 2 * lenN vs + 2 <= idmax -> (4 * length vs + 12 <= fuel)%nat ->
  constrained_triangulation_from_2d_vertices fuel bins vs cs = Ret out ->
  triangulation_from_2d_vertices fuel bins vs = Ret dt ->
  (forall x y z v, is_tri dt x y z -> v < lenN vs -> ~ in_circumcircle (at_ x) (at_ y) (at_ z) (at_ v)) ->
  is_tri out a b c -> is_tri out b a d -> edge_of at_ dt (Edge a b) ->
  ~ in_circumcircle (at_ a) (at_ b) (at_ c) (at_ d).
Proof. intros G. pair_input G. exact ((fun G H F => grid_shared_edge vs px py bound G H fuel bins F cs out dt a b c d) G). Qed.
Print Assumptions C49_common_edge_partial.

Example C49_common_edge_case : ~ in_circumcircle (zpoint lfw 0) (zpoint lfw 2) (zpoint lfw 1) (zpoint lfw 7).
Proof.
  assert (K : (500 >= 4 * length (pts lfw) + 12)%nat) by (apply Nat.leb_le; reflexivity).
  destruct lfw_box as (P & B & Hin). destruct lfw_shared as (T1 & T2 & T3).
  destruct (C46_boxed (E := env64) (pts lfw) (zpoint lfw) _ 500 5 5 8 7 6 (Input_grid _ _ _ lfw_grid64) lfw_ids K
    ltac:(discriminate) eq_refl P B Hin) as (dt & Hd & _ & De).
  exact (C49_common_edge_partial (E := env64) (pts lfw) (zpoint lfw) _ 500 1 cs_fw out_fw dt 0 2 1 7 (Input_grid _ _ _ lfw_grid64)
    lfw_ids K lfw_cdt Hd De T1 T2
    (eq_ind (Ret dt_fw) (fun r => match r with Ret d => edge_of (zpoint lfw) d (Edge 0 2) | _ => True end) T3 (Ret dt)
       (eq_trans (eq_sym lfw_dt) Hd))).
Qed.

(** When the unconstrained triangulation is locally Delaunay and covers the constraints, the
    constraints do not cross each other and each of them crosses at most two edges, the result is
    constrained Delaunay.  Missing from the full claim: constraints that cross three edges or
    more; for three the claim is refuted below. *)
Theorem C49_few_crossed_partial {E : Env} (vs : list vertex) at_ bound fuel bins cs out dt :
  exact_input vs at_ bound -> 2 * lenN vs + 2 <= idmax -> ((2 * length vs + 4) * (2 * length vs + 4) <= fuel)%nat ->
  constrained_triangulation_from_2d_vertices fuel bins vs cs = Ret out ->
  triangulation_from_2d_vertices fuel bins vs = Ret dt ->
  (forall a b c d, is_tri dt a b c -> is_tri dt b a d -> ~ in_circumcircle (at_ a) (at_ b) (at_ c) (at_ d)) ->
  (forall e, In e cs -> proper at_ e -> covers_between at_ dt (efrom e) (eto e)) ->
  noncrossing at_ cs ->
  (forall e, In e cs -> crosses_at_most at_ dt 2 e) ->
  constrained_delaunay at_ cs out.
Proof. intros G. pair_input G. exact ((fun G H F => grid_few vs px py bound G H fuel bins F cs out dt) G). Qed.
Print Assumptions C49_few_crossed_partial.

(** In a box, nothing has to be assumed of the unconstrained triangulation. *)
Theorem C49_few_crossed_box_partial {E : Env} (vs : list vertex) at_ bound fuel bins n a b c d cs out dt :
  exact_input vs at_ bound -> 2 * lenN vs + 2 <= idmax -> ((2 * length vs + 4) * (2 * length vs + 4) <= fuel)%nat -> (1 <= bound)%Z ->
  lenN vs = n + 4 -> Permutation [a; b; c; d] [n; n + 1; n + 2; n + 3] ->
  box_corners (at_ a) (at_ b) (at_ c) (at_ d) ->
  (forall v, v < n -> in_box (at_ a) (at_ c) (at_ v)) -> bins = 1 ->
  constrained_triangulation_from_2d_vertices fuel bins vs cs = Ret out ->
  triangulation_from_2d_vertices fuel bins vs = Ret dt ->
  noncrossing at_ cs ->
  (forall e, In e cs -> crosses_at_most at_ dt 2 e) ->
  constrained_delaunay at_ cs out.
Proof. intros G. pair_input G. exact ((fun G H F => grid_box_few vs px py bound G H fuel bins F n a b c d cs out dt) G). Qed.
Print Assumptions C49_few_crossed_box_partial.

Example C49_few_crossed_case : constrained_delaunay (zpoint lfw) cs_fw out_fw.
Proof.
  assert (K : (500 >= (2 * length (pts lfw) + 4) * (2 * length (pts lfw) + 4))%nat) by (apply Nat.leb_le; reflexivity).
  destruct lfw_box as (P & B & Hin).
  exact (C49_few_crossed_box_partial (E := env64) (pts lfw) (zpoint lfw) _ 500 1 5 5 8 7 6 cs_fw out_fw dt_fw (Input_grid _ _ _ lfw_grid64)
    lfw_ids K ltac:(discriminate) eq_refl P B Hin eq_refl lfw_cdt lfw_dt lfw_noncrossing lfw_few).
Qed.

(** The same hypotheses with three crossed edges in place of two do not suffice. *)
Theorem C49_three_crossed_refuted :
  exists l n a b c d cs out dt, on_grid (E := env64) (pts l) l (2 ^ 40) /\ 2 * lenN (pts l) + 2 <= @idmax env64 /\
    ((2 * length (pts l) + 4) * (2 * length (pts l) + 4) <= 400)%nat /\ lenN (pts l) = n + 4 /\
    Permutation [a; b; c; d] [n; n + 1; n + 2; n + 3] /\
    box_corners (zpoint l a) (zpoint l b) (zpoint l c) (zpoint l d) /\
    (forall v, v < n -> in_box (zpoint l a) (zpoint l c) (zpoint l v)) /\
    constrained_triangulation_from_2d_vertices (E := env64) 400 1 (pts l) cs = Ret out /\
    triangulation_from_2d_vertices (E := env64) 400 1 (pts l) = Ret dt /\
    noncrossing (zpoint l) cs /\ (forall e, In e cs -> crosses_at_most (zpoint l) dt 3 e) /\
    ~ constrained_delaunay (zpoint l) cs out.
Proof.
  assert (K : ((2 * length (pts lnd) + 4) * (2 * length (pts lnd) + 4) <= 400)%nat) by (apply Nat.leb_le; reflexivity).
  destruct lnd_box as (P & B & Hin).
  exists lnd, 3, 3, 6, 5, 4, cs_nd, out_nd, dt_nd.
  exact (conj lnd_grid64 (conj lnd_ids (conj K (conj eq_refl (conj P (conj B (conj Hin (conj lnd_cdt (conj lnd_dt
    (conj lnd_noncrossing (conj lnd_three lnd_not_delaunay))))))))))).
Qed.
Print Assumptions C49_three_crossed_refuted.

(** ** C50 *)

(** A point in a returned triangle, and on no constraint, is in a domain: a path that meets no
    constraint leads from it to the right hand side of a constraint. *)
Theorem C50_inside {E : Env} (vs : list vertex) at_ bound fuel bins cs out p :
  exact_input vs at_ bound -> 2 * lenN vs + 2 <= idmax -> (4 * length vs + 12 <= fuel)%nat ->
  constrained_triangulation_from_2d_vertices fuel bins vs cs = Ret out -> noncrossing at_ cs ->
  ~ on_constraint at_ cs p -> covered at_ out p -> in_domain at_ cs p.
Proof. intros G. pair_input G. exact ((fun G H => grid_inside vs px py bound G H fuel bins cs out p) G). Qed.
Print Assumptions C50_inside.

(** When the unconstrained triangulation covers the constraints, the returned triangles are
    exactly its area in the domains. *)
Theorem C50_domain {E : Env} (vs : list vertex) at_ bound fuel bins cs out dt p :
  exact_input vs at_ bound -> 2 * lenN vs + 2 <= idmax ->
  ((2 * length vs + 4) * (2 * length vs + 4) <= fuel)%nat ->
  constrained_triangulation_from_2d_vertices fuel bins vs cs = Ret out ->
  triangulation_from_2d_vertices fuel bins vs = Ret dt -> noncrossing at_ cs ->
  (forall e, In e cs -> proper at_ e -> covers_between at_ dt (efrom e) (eto e)) ->
  covered at_ dt p -> ~ on_constraint at_ cs p ->
  (covered at_ out p <-> in_domain at_ cs p).
Proof. intros G. pair_input G. exact ((fun G H F => grid_domain vs px py bound G H fuel F bins cs out dt p) G). Qed.
Print Assumptions C50_domain.

(** In a box, whose corners are the last vertices, the call succeeds and the returned triangles
    are exactly the domains in the box. *)
Theorem C50_boxed {E : Env} (vs : list vertex) at_ bound fuel n a b c d cs :
  exact_input vs at_ bound -> 2 * lenN vs + 2 <= idmax ->
  ((2 * length vs + 4) * (2 * length vs + 4) <= fuel)%nat -> (1 <= bound)%Z ->
  lenN vs = n + 4 -> Permutation [a; b; c; d] [n; n + 1; n + 2; n + 3] ->
  box_corners (at_ a) (at_ b) (at_ c) (at_ d) ->
  (forall v, v < n -> in_box (at_ a) (at_ c) (at_ v)) ->
  (forall e, In e cs -> efrom e < lenN vs /\ eto e < lenN vs /\
     (proper at_ e -> clear_between at_ (lenN vs) (efrom e) (eto e))) ->
  noncrossing at_ cs ->
  exists out, constrained_triangulation_from_2d_vertices fuel 1 vs cs = Ret out /\
    forall p, ~ on_constraint at_ cs p ->
      (covered at_ out p <-> in_box (at_ a) (at_ c) p /\ in_domain at_ cs p).
Proof. intros G. pair_input G. exact ((fun G H F => grid_box_domain vs px py bound G H fuel F n a b c d cs) G). Qed.
Print Assumptions C50_boxed.

(** A square with a hole: a point around the hole is covered, a point of the hole is not in a
    domain. *)
Example C50_case : covered (zpoint lhole) out_hole (2, 6)%Q /\ ~ in_domain (zpoint lhole) cs_hole (6, 6)%Q.
Proof.
  destruct lhole_corners as (P & B & Hin). destruct ring_point as (R1 & R2). destruct hole_point as (H1 & H2 & H3).
  destruct (C50_boxed (E := env64) (pts lhole) (zpoint lhole) _ 400 4 4 5 6 7 cs_hole (Input_grid _ _ _ lhole_grid64)
    lhole_ids lhole_fuel ltac:(discriminate) eq_refl P B Hin lhole_clear lhole_noncrossing) as (out & Ho & C).
  assert (K : out = out_hole) by (pose proof lhole_cdt; congruence). subst out. split.
  - apply (C _ R1). exact (conj R2 ring_domain).
  - intros D. exact (H3 (proj2 (C _ H1) (conj H2 D))).
Qed.

(** ** C51 *)

(** Two calls on the same points, perhaps in another order, with another number of bins or in
    another arithmetic.  If both results are Delaunay, triangles that overlap have the same
    circumcircle. *)
Theorem C51_same_circles (E1 E2 : Env) (vs1 : list (@vertex E1)) (vs2 : list (@vertex E2)) at1 at2 bound1 bound2
    fuel1 fuel2 bins1 bins2 out1 out2 :
  exact_input (E := E1) vs1 at1 bound1 -> exact_input (E := E2) vs2 at2 bound2 ->
  2 * lenN vs1 + 2 <= @idmax E1 -> 2 * lenN vs2 + 2 <= @idmax E2 ->
  (4 * length vs1 + 12 <= fuel1)%nat -> (4 * length vs2 + 12 <= fuel2)%nat ->
  same_points at1 at2 (lenN vs1) (lenN vs2) ->
  triangulation_from_2d_vertices (E := E1) fuel1 bins1 vs1 = Ret out1 ->
  triangulation_from_2d_vertices (E := E2) fuel2 bins2 vs2 = Ret out2 ->
  delaunay at1 (lenN vs1) out1 -> delaunay at2 (lenN vs2) out2 ->
  forall a b c x y z p, In (a, b, c) out1 -> In (x, y, z) out2 ->
    strictly_inside (at1 a) (at1 b) (at1 c) p -> inside_or_on (at2 x) (at2 y) (at2 z) p ->
    on_circumcircle (at2 x) (at2 y) (at2 z) (at1 a) /\ on_circumcircle (at2 x) (at2 y) (at2 z) (at1 b) /\
    on_circumcircle (at2 x) (at2 y) (at2 z) (at1 c).
Proof.
  exact (fun G1 G2 I1 I2 F1 F2 S R1 R2 D1 D2 a b c x y z p =>
           grid_same_circle E1 E2 vs1 vs2 at1 at2 bound1 bound2 G1 G2 I1 I2 fuel1 fuel2 bins1 bins2 F1 F2 S
             out1 out2 a b c x y z p R1 R2 D1 D2).
Qed.
Print Assumptions C51_same_circles.

(** If moreover no four points lie on an empty circle and both results cover the same area, they
    are the same triangles. *)
Theorem C51_unique (E1 E2 : Env) (vs1 : list (@vertex E1)) (vs2 : list (@vertex E2)) at1 at2 bound1 bound2
    fuel1 fuel2 bins1 bins2 out1 out2 :
  exact_input (E := E1) vs1 at1 bound1 -> exact_input (E := E2) vs2 at2 bound2 ->
  2 * lenN vs1 + 2 <= @idmax E1 -> 2 * lenN vs2 + 2 <= @idmax E2 ->
  (4 * length vs1 + 12 <= fuel1)%nat -> (4 * length vs2 + 12 <= fuel2)%nat ->
  same_points at1 at2 (lenN vs1) (lenN vs2) -> no_empty_circle_of_four at1 (lenN vs1) ->
  triangulation_from_2d_vertices (E := E1) fuel1 bins1 vs1 = Ret out1 ->
  triangulation_from_2d_vertices (E := E2) fuel2 bins2 vs2 = Ret out2 ->
  delaunay at1 (lenN vs1) out1 -> delaunay at2 (lenN vs2) out2 ->
  (forall p, covered at1 out1 p <-> covered at2 out2 p) ->
  same_triangles at1 at2 out1 out2.
Proof.
  exact (fun G1 G2 I1 I2 F1 F2 S P =>
           grid_unique E1 E2 vs1 vs2 at1 at2 bound1 bound2 G1 G2 I1 I2 fuel1 fuel2 bins1 bins2 F1 F2 S P out1 out2).
Qed.
Print Assumptions C51_unique.

(** This is the case for points in a box whose corners are the last four vertices. *)
Theorem C51_boxed (E1 E2 : Env) (vs1 : list (@vertex E1)) (vs2 : list (@vertex E2)) at1 at2 bound1 bound2 fuel1 fuel2
    n1 n2 a b c d a' b' c' d' :
  exact_input (E := E1) vs1 at1 bound1 -> exact_input (E := E2) vs2 at2 bound2 ->
  2 * lenN vs1 + 2 <= @idmax E1 -> 2 * lenN vs2 + 2 <= @idmax E2 ->
  (4 * length vs1 + 12 <= fuel1)%nat -> (4 * length vs2 + 12 <= fuel2)%nat -> (1 <= bound1)%Z -> (1 <= bound2)%Z ->
  lenN vs1 = n1 + 4 -> Permutation [a; b; c; d] [n1; n1 + 1; n1 + 2; n1 + 3] ->
  box_corners (at1 a) (at1 b) (at1 c) (at1 d) -> (forall v, v < n1 -> in_box (at1 a) (at1 c) (at1 v)) ->
  lenN vs2 = n2 + 4 -> Permutation [a'; b'; c'; d'] [n2; n2 + 1; n2 + 2; n2 + 3] ->
  box_corners (at2 a') (at2 b') (at2 c') (at2 d') -> (forall v, v < n2 -> in_box (at2 a') (at2 c') (at2 v)) ->
  same_points at1 at2 (lenN vs1) (lenN vs2) -> no_empty_circle_of_four at1 (lenN vs1) ->
  exists out1 out2, triangulation_from_2d_vertices (E := E1) fuel1 1 vs1 = Ret out1 /\
    triangulation_from_2d_vertices (E := E2) fuel2 1 vs2 = Ret out2 /\ same_triangles at1 at2 out1 out2.
Proof.
  exact (grid_box_unique E1 E2 vs1 vs2 at1 at2 bound1 bound2 fuel1 fuel2 n1 n2 a b c d a' b' c' d').
Qed.
Print Assumptions C51_boxed.

(** Ten vertices in f64, with duplicates; the same points in another order in f32. *)
Example C51_case : exists out1 out2, triangulation_from_2d_vertices (E := env64) 100 1 (pts lbox) = Ret out1 /\
  triangulation_from_2d_vertices (E := env32) 100 1 (pts32 lmix) = Ret out2 /\
  same_triangles (zpoint lbox) (zpoint lmix) out1 out2.
Proof.
  assert (K : (100 >= 4 * length (pts lbox) + 12)%nat) by (apply Nat.leb_le; reflexivity).
  assert (K' : (100 >= 4 * length (pts32 lmix) + 12)%nat) by (apply Nat.leb_le; reflexivity).
  destruct lbox_corners as (P & B). destruct lmix_corners as (P' & B').
  exact (C51_boxed env64 env32 (pts lbox) (pts32 lmix) (zpoint lbox) (zpoint lmix) _ _ 100 100 6 4 7 9 6 8 6 5 7 4
           (Input_grid _ _ _ lbox_grid64) (Input_grid _ _ _ lmix_grid32) lbox_ids lmix_ids K K'
           ltac:(discriminate) ltac:(discriminate) eq_refl P B lbox_inside eq_refl P' B' lmix_inside lmix_same lbox_general).
Qed.

(** In general the order matters: three vertices give a triangle or none. *)
Theorem C51_order_refuted : exists l1 l2, Permutation l1 l2 /\
  exact_input (E := env64) (pts l1) (zpoint l1) (2 ^ 40) /\ exact_input (E := env64) (pts l2) (zpoint l2) (2 ^ 40) /\
  (exists t, dt64 100 1 l1 = Ret [t]) /\ dt64 100 1 l2 = Ret [].
Proof. destruct order_matters as (l1 & l2 & H1 & H2 & H3 & H4 & H5). exists l1, l2. eauto 8. Qed.
Print Assumptions C51_order_refuted.

(** ** C52: the input vertex types *)

(** [Vec2] vertices in an f64 build: the results are those for the same numbers in f64.  The
    vertex type of the build ([DVec2] with f64, [Vec2] with f32): the vertices are used as
    they are, whatever their coordinates. *)
Theorem C52_no_rounding (maxid : N) (vs : list (spec_float * spec_float)) :
  (floats 24 128 vs ->
   exists ws, Forall2 (both (same_number 24 128 53 1024)) vs ws /\ forall fuel bins cs,
    triangulation_from_vertices (E := sf_env 53 1024 maxid) (V := as_f64) fuel bins vs =
    triangulation_from_2d_vertices (E := sf_env 53 1024 maxid) fuel bins ws /\
    constrained_triangulation_from_vertices (E := sf_env 53 1024 maxid) (V := as_f64) fuel bins vs cs =
    constrained_triangulation_from_2d_vertices (E := sf_env 53 1024 maxid) fuel bins ws cs) /\
  (floats 53 1024 vs -> forall fuel bins cs,
    triangulation_from_vertices (E := sf_env 53 1024 maxid) (V := as_f64) fuel bins vs =
    triangulation_from_2d_vertices (E := sf_env 53 1024 maxid) fuel bins vs /\
    constrained_triangulation_from_vertices (E := sf_env 53 1024 maxid) (V := as_f64) fuel bins vs cs =
    constrained_triangulation_from_2d_vertices (E := sf_env 53 1024 maxid) fuel bins vs cs) /\
  (floats 24 128 vs -> forall fuel bins cs,
    triangulation_from_vertices (E := sf_env 24 128 maxid) (V := as_f32) fuel bins vs =
    triangulation_from_2d_vertices (E := sf_env 24 128 maxid) fuel bins vs /\
    constrained_triangulation_from_vertices (E := sf_env 24 128 maxid) (V := as_f32) fuel bins vs cs =
    constrained_triangulation_from_2d_vertices (E := sf_env 24 128 maxid) fuel bins vs cs).
Proof. exact (conj (widen_api maxid vs) (conj (own_api maxid 53 1024 eq_refl eq_refl vs) (own_api maxid 24 128 eq_refl eq_refl vs))). Qed.
Print Assumptions C52_no_rounding.

(** [DVec2] vertices in an f32 build: the results are those for the nearest f32 numbers. *)
Theorem C52_rounded (maxid : N) (vs : list (spec_float * spec_float)) :
  floats 53 1024 vs ->
  exists ws, Forall2 (both (nearest_number 53 1024 24 128)) vs ws /\ forall fuel bins cs,
    triangulation_from_vertices (E := sf_env 24 128 maxid) (V := as_f32) fuel bins vs =
    triangulation_from_2d_vertices (E := sf_env 24 128 maxid) fuel bins ws /\
    constrained_triangulation_from_vertices (E := sf_env 24 128 maxid) (V := as_f32) fuel bins vs cs =
    constrained_triangulation_from_2d_vertices (E := sf_env 24 128 maxid) fuel bins ws cs.
Proof. exact (narrow_api maxid vs). Qed.
Print Assumptions C52_rounded.

(** The guarantees for exact inputs hold for [Vec2] vertices in an f64 build. *)
Theorem C52_mesh_f64 (maxid : N) vs ws at_ bound fuel bins cs :
  Forall2 (both (same_number 24 128 53 1024)) vs ws -> exact_input (E := sf_env 53 1024 maxid) ws at_ bound ->
  2 * lenN vs + 2 <= maxid -> (4 * length vs + 12 <= fuel)%nat ->
  (forall out, triangulation_from_vertices (E := sf_env 53 1024 maxid) (V := as_f64) fuel bins vs = Ret out ->
     valid_mesh at_ (lenN vs) out) /\
  (forall out, constrained_triangulation_from_vertices (E := sf_env 53 1024 maxid) (V := as_f64) fuel bins vs cs = Ret out ->
     valid_mesh at_ (lenN vs) out /\
     (3 <= lenN vs -> noncrossing at_ cs -> forall c, In c cs -> ~ same_place (at_ (efrom c)) (at_ (eto c)) ->
        respects at_ (lenN vs) out (efrom c) (eto c))).
Proof. exact (mesh_api maxid 24 128 53 1024 eq_refl eq_refl eq_refl eq_refl vs ws at_ bound fuel bins cs). Qed.
Print Assumptions C52_mesh_f64.

(** They hold for [DVec2] vertices in an f32 build when the coordinates are f32 numbers. *)
Theorem C52_mesh_f32 (maxid : N) vs ws at_ bound fuel bins cs :
  Forall2 (both (same_number 53 1024 24 128)) vs ws -> exact_input (E := sf_env 24 128 maxid) ws at_ bound ->
  2 * lenN vs + 2 <= maxid -> (4 * length vs + 12 <= fuel)%nat ->
  (forall out, triangulation_from_vertices (E := sf_env 24 128 maxid) (V := as_f32) fuel bins vs = Ret out ->
     valid_mesh at_ (lenN vs) out) /\
  (forall out, constrained_triangulation_from_vertices (E := sf_env 24 128 maxid) (V := as_f32) fuel bins vs cs = Ret out ->
     valid_mesh at_ (lenN vs) out /\
     (3 <= lenN vs -> noncrossing at_ cs -> forall c, In c cs -> ~ same_place (at_ (efrom c)) (at_ (eto c)) ->
        respects at_ (lenN vs) out (efrom c) (eto c))).
Proof. exact (mesh_api maxid 53 1024 24 128 eq_refl eq_refl eq_refl eq_refl vs ws at_ bound fuel bins cs). Qed.
Print Assumptions C52_mesh_f32.

Example C52_case : floats 24 128 (pts32 lw) /\ Forall2 (both (same_number 24 128 53 1024)) (pts32 lw) (pts lw) /\
  exact_input (E := env64) (pts lw) (zpoint lw) (2 ^ 40) /\
  exists t out, triangulation_from_vertices (E := env64) (V := as_f64) 100 2 (pts32 lw) = Ret (t :: out) /\
    valid_mesh (zpoint lw) (lenN (pts32 lw)) (t :: out).
Proof.
  split; [exact lw_floats32|]. split; [exact lw_same|]. split; [exact (Input_grid _ _ _ lw_grid64)|].
  destruct lw_vec2 as (t & out & H). exists t, out. split; [exact H|].
  assert (K : (100 >= 4 * length (pts32 lw) + 12)%nat) by (apply Nat.leb_le; reflexivity).
  exact (proj1 (C52_mesh_f64 u32_max _ _ _ _ 100 2 [] lw_same (Input_grid _ _ _ lw_grid64) ltac:(discriminate) K) _ H).
Qed.

(** Planar 3d input given by [Vec3] vertices in an f64 build: the plane coordinates are computed
    in f32, then converted.  The guarantees of C34 hold on grids of side up to 2^11. *)
Theorem C52_vec3_f64 (maxid : N) vs nv l u n fuel bins cs :
  vectors_on_grid 24 128 11 vs nv l u n -> 2 * lenN vs + 2 <= maxid -> (4 * length vs + 12 <= fuel)%nat ->
  let at_ := zpoint (map (plane_coords u n) l) in
  let seen_clockwise out := forall a b c, In (a, b, c) out ->
    (zorient3 n (nth (N.to_nat a) l (0, 0, 0)) (nth (N.to_nat b) l (0, 0, 0)) (nth (N.to_nat c) l (0, 0, 0)) < 0)%Z in
  (forall out, triangulation_from_3d_planar_vertices (E := sf_env 53 1024 maxid) (V := vec3_as_f64) fuel bins vs nv = Ret out ->
     valid_mesh at_ (lenN vs) out /\ seen_clockwise out) /\
  (forall out, constrained_triangulation_from_3d_planar_vertices (E := sf_env 53 1024 maxid) (V := vec3_as_f64) fuel bins vs nv cs = Ret out ->
     valid_mesh at_ (lenN vs) out /\ seen_clockwise out /\
     (3 <= lenN vs -> noncrossing at_ cs -> forall c, In c cs -> ~ same_place (at_ (efrom c)) (at_ (eto c)) ->
        respects at_ (lenN vs) out (efrom c) (eto c))).
Proof. exact (vec3_wide maxid vs nv l u n fuel bins cs). Qed.
Print Assumptions C52_vec3_f64.

(** [DVec3] vertices in an f32 build, on grids of side up to 2^5. *)
Theorem C52_vec3_f32 (maxid : N) vs nv l u n fuel bins cs :
  vectors_on_grid 53 1024 5 vs nv l u n -> 2 * lenN vs + 2 <= maxid -> (4 * length vs + 12 <= fuel)%nat ->
  let at_ := zpoint (map (plane_coords u n) l) in
  let seen_clockwise out := forall a b c, In (a, b, c) out ->
    (zorient3 n (nth (N.to_nat a) l (0, 0, 0)) (nth (N.to_nat b) l (0, 0, 0)) (nth (N.to_nat c) l (0, 0, 0)) < 0)%Z in
  (forall out, triangulation_from_3d_planar_vertices (E := sf_env 24 128 maxid) (V := dvec3_as_f32) fuel bins vs nv = Ret out ->
     valid_mesh at_ (lenN vs) out /\ seen_clockwise out) /\
  (forall out, constrained_triangulation_from_3d_planar_vertices (E := sf_env 24 128 maxid) (V := dvec3_as_f32) fuel bins vs nv cs = Ret out ->
     valid_mesh at_ (lenN vs) out /\ seen_clockwise out /\
     (3 <= lenN vs -> noncrossing at_ cs -> forall c, In c cs -> ~ same_place (at_ (efrom c)) (at_ (eto c)) ->
        respects at_ (lenN vs) out (efrom c) (eto c))).
Proof. exact (dvec3_narrow maxid vs nv l u n fuel bins cs). Qed.
Print Assumptions C52_vec3_f32.

Example C52_vec3_case : vectors_on_grid 24 128 11 (map pt3_32 l3) (pt3_32 n3) l3 u3 n3 /\ exists t out,
  triangulation_from_3d_planar_vertices (E := env64) (V := vec3_as_f64) 100 2 (map pt3_32 l3) (pt3_32 n3) = Ret (t :: out).
Proof. exact (conj l3_vectors l3_vec3). Qed.

(** Rounding [DVec2] vertices to f32 may make vertices coincide: of four different points that
    are triangulated by an f64 build, an f32 build loses one. *)
Theorem C52_rounding_refuted : exists l, NoDup l /\ floats 53 1024 (pts l) /\
  (exists t1 t2, triangulation_from_vertices (E := env64) (V := as_f64) 100 1 (pts l) = Ret [t1; t2]) /\
  exists t, triangulation_from_vertices (E := env32) (V := as_f32) 100 1 (pts l) = Ret [t].
Proof. exact rounding_loses. Qed.
Print Assumptions C52_rounding_refuted.

(** ** C53 *)

(** For vertices at [k] different places, the number of triangles plus the number of edges with a
    triangle on one side only is at most 2 k - 2. *)
Theorem C53_at_most {E : Env} (vs : list vertex) at_ bound fuel bins out k :
  exact_input vs at_ bound -> 2 * lenN vs + 2 <= idmax -> (4 * length vs + 12 <= fuel)%nat ->
  3 <= lenN vs -> triangulation_from_2d_vertices fuel bins vs = Ret out ->
  different_places at_ (lenN vs) k ->
  lenN out + lenN (border_edges out) + 2 <= 2 * k.
Proof. intros G. pair_input G. exact ((fun G H Hf => grid_euler_le vs px py bound G H fuel bins k out Hf) G). Qed.
Print Assumptions C53_at_most.

(** It is 2 k - 2, as Euler's formula says, when the triangles cover a convex area that contains
    every vertex. *)
Theorem C53_euler {E : Env} (vs : list vertex) at_ bound fuel bins out k :
  exact_input vs at_ bound -> 2 * lenN vs + 2 <= idmax -> (4 * length vs + 12 <= fuel)%nat ->
  3 <= lenN vs -> triangulation_from_2d_vertices fuel bins vs = Ret out ->
  different_places at_ (lenN vs) k ->
  (forall v, v < lenN vs -> covered at_ out (at_ v)) -> convex_area at_ out ->
  lenN out + lenN (border_edges out) + 2 = 2 * k.
Proof. intros G. pair_input G. exact ((fun G H Hf => grid_euler vs px py bound G H fuel bins k out Hf) G). Qed.
Print Assumptions C53_euler.

(** So it is when the last four vertices are the corners of a box around the others. *)
Theorem C53_boxed {E : Env} (vs : list vertex) at_ bound fuel n a b c d k :
  exact_input vs at_ bound -> 2 * lenN vs + 2 <= idmax -> (4 * length vs + 12 <= fuel)%nat -> (1 <= bound)%Z ->
  lenN vs = n + 4 -> Permutation [a; b; c; d] [n; n + 1; n + 2; n + 3] ->
  box_corners (at_ a) (at_ b) (at_ c) (at_ d) ->
  (forall v, v < n -> in_box (at_ a) (at_ c) (at_ v)) ->
  different_places at_ (lenN vs) k ->
  exists out, triangulation_from_2d_vertices fuel 1 vs = Ret out /\
    lenN out + lenN (border_edges out) + 2 = 2 * k.
Proof. intros G. pair_input G. exact ((fun G => grid_box_euler vs px py bound fuel n a b c d k G) G). Qed.
Print Assumptions C53_boxed.

(** Ten vertices at eight places, one of them on a side of the box. *)
Example C53_case : exists out, triangulation_from_2d_vertices (E := env64) 100 1 (pts lbox) = Ret out /\
  lenN out + lenN (border_edges out) + 2 = 2 * 8.
Proof.
  assert (K : (100 >= 4 * length (pts lbox) + 12)%nat) by (apply Nat.leb_le; reflexivity).
  destruct lbox_corners as (P & B).
  exact (C53_boxed (E := env64) (pts lbox) (zpoint lbox) _ 100 6 7 9 6 8 8 (Input_grid _ _ _ lbox_grid64) lbox_ids K
           ltac:(discriminate) eq_refl P B lbox_inside lbox_places).
Qed.
Example C53_case_numbers : exists out, triangulation_from_2d_vertices (E := env64) 100 1 (pts lbox) = Ret out /\
  lenN out = 9 /\ lenN (border_edges out) = 5.
Proof. eexists. split; [vm_compute; reflexivity|]. split; vm_compute; reflexivity. Qed.

(** ** C54 *)

(** When the triangles cover a convex area that contains every vertex, they have one border edge for
    each place of a vertex on the border of the convex hull. *)
Theorem C54_border {E : Env} (vs : list vertex) at_ bound fuel bins out k h :
  exact_input vs at_ bound -> 2 * lenN vs + 2 <= idmax -> (4 * length vs + 12 <= fuel)%nat ->
  3 <= lenN vs -> triangulation_from_2d_vertices fuel bins vs = Ret out ->
  different_places at_ (lenN vs) k -> hull_places at_ (lenN vs) h ->
  (forall v, v < lenN vs -> covered at_ out (at_ v)) -> convex_area at_ out ->
  lenN (border_edges out) = h.
Proof.
  intros G. pair_input G.
  exact ((fun G H Hf H3 Ho Hk Hh => grid_border vs px py bound G H fuel bins k out Hf H3 Ho Hk h Hh) G).
Qed.
Print Assumptions C54_border.

(** So the number of triangles is 2 k - 2 - h: it depends on the points only. *)
Theorem C54_triangles {E : Env} (vs : list vertex) at_ bound fuel bins out k h :
  exact_input vs at_ bound -> 2 * lenN vs + 2 <= idmax -> (4 * length vs + 12 <= fuel)%nat ->
  3 <= lenN vs -> triangulation_from_2d_vertices fuel bins vs = Ret out ->
  different_places at_ (lenN vs) k -> hull_places at_ (lenN vs) h ->
  (forall v, v < lenN vs -> covered at_ out (at_ v)) -> convex_area at_ out ->
  lenN out + h + 2 = 2 * k.
Proof.
  intros G. pair_input G.
  exact ((fun G H Hf H3 Ho Hk Hh => grid_triangles vs px py bound G H fuel bins k out Hf H3 Ho Hk h Hh) G).
Qed.
Print Assumptions C54_triangles.

(** Two such triangulations, of any inputs, numbers of bins, number and index types, have the same
    number of triangles when their vertices are at as many places, as many of them on the hull. *)
Theorem C54_same_number {E E' : Env} vs at_ bound fuel bins out vs' at' bound' fuel' bins' out' k h :
  exact_input (E := E) vs at_ bound -> exact_input (E := E') vs' at' bound' ->
  2 * lenN vs + 2 <= idmax (Env := E) -> 2 * lenN vs' + 2 <= idmax (Env := E') ->
  (4 * length vs + 12 <= fuel)%nat -> (4 * length vs' + 12 <= fuel')%nat ->
  3 <= lenN vs -> 3 <= lenN vs' ->
  triangulation_from_2d_vertices (E := E) fuel bins vs = Ret out ->
  triangulation_from_2d_vertices (E := E') fuel' bins' vs' = Ret out' ->
  different_places at_ (lenN vs) k -> different_places at' (lenN vs') k ->
  hull_places at_ (lenN vs) h -> hull_places at' (lenN vs') h ->
  (forall v, v < lenN vs -> covered at_ out (at_ v)) -> convex_area at_ out ->
  (forall v, v < lenN vs' -> covered at' out' (at' v)) -> convex_area at' out' ->
  lenN out = lenN out'.
Proof.
  intros G G'. pair_input G. pair_input G'.
  exact ((fun G G' Hi Hi' Hf Hf' H3 H3' Ho Ho' Hk Hk' Hh Hh' Cv Cx Cv' Cx' =>
    grid_same_number vs px py bound fuel bins out vs' px0 py0 bound' fuel' bins' out' k h
      G Hi Hf H3 Ho Hk Hh Cv Cx G' Hi' Hf' H3' Ho' Hk' Hh' Cv' Cx') G G').
Qed.
Print Assumptions C54_same_number.

(** The hypotheses hold when the last four vertices are the corners of a box around the others. *)
Theorem C54_boxed {E : Env} (vs : list vertex) at_ bound fuel n a b c d k h :
  exact_input vs at_ bound -> 2 * lenN vs + 2 <= idmax -> (4 * length vs + 12 <= fuel)%nat -> (1 <= bound)%Z ->
  lenN vs = n + 4 -> Permutation [a; b; c; d] [n; n + 1; n + 2; n + 3] ->
  box_corners (at_ a) (at_ b) (at_ c) (at_ d) ->
  (forall v, v < n -> in_box (at_ a) (at_ c) (at_ v)) ->
  different_places at_ (lenN vs) k -> hull_places at_ (lenN vs) h ->
  exists out, triangulation_from_2d_vertices fuel 1 vs = Ret out /\
    lenN (border_edges out) = h /\ lenN out + h + 2 = 2 * k.
Proof. intros G. pair_input G. exact ((fun G => grid_box_triangles vs px py bound fuel n a b c d k h G) G). Qed.
Print Assumptions C54_boxed.

(** Ten vertices at eight places, five of them on the hull: nine triangles. *)
Example C54_case : exists out, triangulation_from_2d_vertices (E := env64) 100 1 (pts lbox) = Ret out /\
  lenN (border_edges out) = 5 /\ lenN out + 5 + 2 = 2 * 8.
Proof.
  assert (K : (100 >= 4 * length (pts lbox) + 12)%nat) by (apply Nat.leb_le; reflexivity).
  destruct lbox_corners as (P & B).
  exact (C54_boxed (E := env64) (pts lbox) (zpoint lbox) _ 100 6 7 9 6 8 8 5 (Input_grid _ _ _ lbox_grid64) lbox_ids K
           ltac:(discriminate) eq_refl P B lbox_inside lbox_places lbox_hull).
Qed.

(** ** C55 *)

(** The order in which the constraints are listed, and how often each of them is listed, make no
    difference to the triangles when the constraints do not cross each other, each of them crosses
    at most two edges of the unconstrained triangulation, that triangulation is locally Delaunay
    and covers the constraints, and the vertices are general.  Missing from the full claim: vertices
    on a circle and constraints that cross three edges or more, for which it is refuted below. *)
Theorem C55_order_partial {E : Env} (vs : list vertex) at_ bound fuel bins cs1 cs2 out1 out2 dt :
  exact_input vs at_ bound -> 2 * lenN vs + 2 <= idmax -> ((2 * length vs + 4) * (2 * length vs + 4) <= fuel)%nat ->
  constrained_triangulation_from_2d_vertices fuel bins vs cs1 = Ret out1 ->
  constrained_triangulation_from_2d_vertices fuel bins vs cs2 = Ret out2 ->
  triangulation_from_2d_vertices fuel bins vs = Ret dt ->
  (forall e, In e cs1 <-> In e cs2) ->
  no_empty_quad_on_a_circle at_ (lenN vs) ->
  (forall a b c d, is_tri dt a b c -> is_tri dt b a d -> ~ in_circumcircle (at_ a) (at_ b) (at_ c) (at_ d)) ->
  (forall e, In e cs1 -> proper at_ e -> covers_between at_ dt (efrom e) (eto e)) ->
  noncrossing at_ cs1 ->
  (forall e, In e cs1 -> crosses_at_most at_ dt 2 e) ->
  same_result out1 out2.
Proof. intros G. pair_input G. exact ((fun G H F => grid_order vs px py bound G H fuel bins F cs1 cs2 out1 out2 dt) G). Qed.
Print Assumptions C55_order_partial.

(** In a box, nothing has to be assumed of the unconstrained triangulation. *)
Theorem C55_order_box_partial {E : Env} (vs : list vertex) at_ bound fuel bins n a b c d cs1 cs2 out1 out2 dt :
  exact_input vs at_ bound -> 2 * lenN vs + 2 <= idmax -> ((2 * length vs + 4) * (2 * length vs + 4) <= fuel)%nat -> (1 <= bound)%Z ->
  lenN vs = n + 4 -> Permutation [a; b; c; d] [n; n + 1; n + 2; n + 3] ->
  box_corners (at_ a) (at_ b) (at_ c) (at_ d) ->
  (forall v, v < n -> in_box (at_ a) (at_ c) (at_ v)) -> bins = 1 ->
  constrained_triangulation_from_2d_vertices fuel bins vs cs1 = Ret out1 ->
  constrained_triangulation_from_2d_vertices fuel bins vs cs2 = Ret out2 ->
  triangulation_from_2d_vertices fuel bins vs = Ret dt ->
  (forall e, In e cs1 <-> In e cs2) ->
  no_empty_quad_on_a_circle at_ (lenN vs) ->
  noncrossing at_ cs1 ->
  (forall e, In e cs1 -> crosses_at_most at_ dt 2 e) ->
  same_result out1 out2.
Proof. intros G. pair_input G. exact ((fun G H F => grid_box_order vs px py bound G H fuel bins F n a b c d cs1 cs2 out1 out2 dt) G). Qed.
Print Assumptions C55_order_box_partial.

(** Six constraints, two of which cross two edges, and seven in another order, one of them twice. *)
Example C55_case : same_result out_fw out_wf.
Proof.
  assert (K : (500 >= (2 * length (pts lfw) + 4) * (2 * length (pts lfw) + 4))%nat) by (apply Nat.leb_le; reflexivity).
  destruct lfw_box as (P & B & Hin).
  exact (C55_order_box_partial (E := env64) (pts lfw) (zpoint lfw) _ 500 1 5 5 8 7 6 cs_fw cs_wf out_fw out_wf dt_fw (Input_grid _ _ _ lfw_grid64)
    lfw_ids K ltac:(discriminate) eq_refl P B Hin eq_refl lfw_cdt lfw_cdt2 lfw_dt lfw_same lfw_general lfw_noncrossing lfw_few).
Qed.

(** The same hypotheses with three crossed edges in place of two do not suffice. *)
Theorem C55_three_crossed_refuted :
  exists l n a b c d cs1 cs2 out1 out2 dt, on_grid (E := env64) (pts l) l (2 ^ 40) /\ 2 * lenN (pts l) + 2 <= @idmax env64 /\
    ((2 * length (pts l) + 4) * (2 * length (pts l) + 4) <= 400)%nat /\ lenN (pts l) = n + 4 /\
    Permutation [a; b; c; d] [n; n + 1; n + 2; n + 3] /\
    box_corners (zpoint l a) (zpoint l b) (zpoint l c) (zpoint l d) /\
    (forall v, v < n -> in_box (zpoint l a) (zpoint l c) (zpoint l v)) /\
    constrained_triangulation_from_2d_vertices (E := env64) 400 1 (pts l) cs1 = Ret out1 /\
    constrained_triangulation_from_2d_vertices (E := env64) 400 1 (pts l) cs2 = Ret out2 /\
    triangulation_from_2d_vertices (E := env64) 400 1 (pts l) = Ret dt /\
    (forall e, In e cs1 <-> In e cs2) /\
    no_empty_quad_on_a_circle (zpoint l) (lenN (pts l)) /\
    noncrossing (zpoint l) cs1 /\ (forall e, In e cs1 -> crosses_at_most (zpoint l) dt 3 e) /\
    ~ same_result out1 out2.
Proof.
  assert (K : ((2 * length (pts lnd) + 4) * (2 * length (pts lnd) + 4) <= 400)%nat) by (apply Nat.leb_le; reflexivity).
  destruct lnd_box as (P & B & Hin).
  exists lnd, 3, 3, 6, 5, 4, cs_o1, cs_o2, out_o1, out_o2, dt_nd.
  exact (conj lnd_grid64 (conj lnd_ids (conj K (conj eq_refl (conj P (conj B (conj Hin (conj o_cdt1 (conj o_cdt2 (conj lnd_dt
    (conj o_same (conj lnd_general (conj o_noncrossing (conj o_three o_differ)))))))))))))).
Qed.
Print Assumptions C55_three_crossed_refuted.

(** Nor do they without the hypothesis on vertices on a circle. *)
Theorem C55_circle_refuted :
  exists l n a b c d cs1 cs2 out1 out2 dt, on_grid (E := env64) (pts l) l (2 ^ 40) /\ 2 * lenN (pts l) + 2 <= @idmax env64 /\
    ((2 * length (pts l) + 4) * (2 * length (pts l) + 4) <= 400)%nat /\ lenN (pts l) = n + 4 /\
    Permutation [a; b; c; d] [n; n + 1; n + 2; n + 3] /\
    box_corners (zpoint l a) (zpoint l b) (zpoint l c) (zpoint l d) /\
    (forall v, v < n -> in_box (zpoint l a) (zpoint l c) (zpoint l v)) /\
    constrained_triangulation_from_2d_vertices (E := env64) 400 1 (pts l) cs1 = Ret out1 /\
    constrained_triangulation_from_2d_vertices (E := env64) 400 1 (pts l) cs2 = Ret out2 /\
    triangulation_from_2d_vertices (E := env64) 400 1 (pts l) = Ret dt /\
    (forall e, In e cs1 <-> In e cs2) /\
    noncrossing (zpoint l) cs1 /\ (forall e, In e cs1 -> crosses_at_most (zpoint l) dt 2 e) /\
    ~ same_result out1 out2.
Proof.
  assert (K : ((2 * length (pts lci) + 4) * (2 * length (pts lci) + 4) <= 400)%nat) by (apply Nat.leb_le; reflexivity).
  destruct lci_box as (P & B & Hin).
  exists lci, 4, 4, 7, 6, 5, cs_c1, cs_c2, out_c1, out_c2, dt_ci.
  exact (conj lci_grid64 (conj lci_ids (conj K (conj eq_refl (conj P (conj B (conj Hin (conj c_cdt1 (conj c_cdt2 (conj lci_dt
    (conj c_same (conj c_noncrossing (conj c_few c_differ))))))))))))).
Qed.
Print Assumptions C55_circle_refuted.

(** ** C56 *)

(** On general vertices, a Delaunay result that covers a convex area with all the vertices consists
    of exactly the triangles whose circumcircle has no vertex inside. *)
Theorem C56_exactly {E : Env} (vs : list vertex) at_ bound fuel bins out :
  exact_input vs at_ bound -> 2 * lenN vs + 2 <= idmax -> (4 * length vs + 12 <= fuel)%nat ->
  no_empty_circle_of_four at_ (lenN vs) ->
  triangulation_from_2d_vertices fuel bins vs = Ret out -> delaunay at_ (lenN vs) out ->
  (forall v, v < lenN vs -> covered at_ out (at_ v)) -> convex_area at_ out ->
  forall a b c, a < lenN vs -> b < lenN vs -> c < lenN vs -> clockwise (at_ a) (at_ b) (at_ c) ->
    (triangle_at at_ out a b c <-> empty_circle at_ (lenN vs) a b c).
Proof. exact (grid_exactly E vs at_ bound fuel bins out). Qed.
Print Assumptions C56_exactly.

(** This is the case in a box whose corners are the last four vertices. *)
Theorem C56_exactly_boxed {E : Env} (vs : list vertex) at_ bound fuel n a b c d :
  exact_input vs at_ bound -> 2 * lenN vs + 2 <= idmax -> (4 * length vs + 12 <= fuel)%nat -> (1 <= bound)%Z ->
  lenN vs = n + 4 -> Permutation [a; b; c; d] [n; n + 1; n + 2; n + 3] ->
  box_corners (at_ a) (at_ b) (at_ c) (at_ d) -> (forall v, v < n -> in_box (at_ a) (at_ c) (at_ v)) ->
  no_empty_circle_of_four at_ (lenN vs) ->
  exists out, triangulation_from_2d_vertices fuel 1 vs = Ret out /\
    forall x y z, x < lenN vs -> y < lenN vs -> z < lenN vs -> clockwise (at_ x) (at_ y) (at_ z) ->
      (triangle_at at_ out x y z <-> empty_circle at_ (lenN vs) x y z).
Proof. exact (grid_box_exactly E vs at_ bound fuel n a b c d). Qed.
Print Assumptions C56_exactly_boxed.

Example C56_case : exists out, triangulation_from_2d_vertices (E := env64) 100 1 (pts lbox) = Ret out /\
  forall x y z, x < 10 -> y < 10 -> z < 10 -> clockwise (zpoint lbox x) (zpoint lbox y) (zpoint lbox z) ->
    (triangle_at (zpoint lbox) out x y z <-> empty_circle (zpoint lbox) 10 x y z).
Proof.
  assert (K : (100 >= 4 * length (pts lbox) + 12)%nat) by (apply Nat.leb_le; reflexivity).
  destruct lbox_corners as (P & B).
  exact (C56_exactly_boxed (E := env64) (pts lbox) (zpoint lbox) _ 100 6 7 9 6 8 (Input_grid _ _ _ lbox_grid64) lbox_ids K
           ltac:(discriminate) eq_refl P B lbox_inside lbox_general).
Qed.

(** ** C57 *)

(** Two calls on points that differ by a rotation, a scaling and a translation, perhaps in another
    order and another arithmetic: the same triangles. *)
Theorem C57_moved_partial (E1 E2 : Env) (vs1 : list (@vertex E1)) (vs2 : list (@vertex E2)) at1 at2 bound1 bound2 fuel1 fuel2
    n1 n2 a b c d a' b' c' d' p q s t :
  exact_input (E := E1) vs1 at1 bound1 -> exact_input (E := E2) vs2 at2 bound2 ->
  2 * lenN vs1 + 2 <= @idmax E1 -> 2 * lenN vs2 + 2 <= @idmax E2 ->
  (4 * length vs1 + 12 <= fuel1)%nat -> (4 * length vs2 + 12 <= fuel2)%nat -> (1 <= bound1)%Z -> (1 <= bound2)%Z ->
  lenN vs1 = n1 + 4 -> Permutation [a; b; c; d] [n1; n1 + 1; n1 + 2; n1 + 3] ->
  box_corners (at1 a) (at1 b) (at1 c) (at1 d) -> (forall v, v < n1 -> in_box (at1 a) (at1 c) (at1 v)) ->
  lenN vs2 = n2 + 4 -> Permutation [a'; b'; c'; d'] [n2; n2 + 1; n2 + 2; n2 + 3] ->
  box_corners (at2 a') (at2 b') (at2 c') (at2 d') -> (forall v, v < n2 -> in_box (at2 a') (at2 c') (at2 v)) ->
  ~ (p == 0 /\ q == 0)%Q ->
  same_points (fun v => turned p q s t (at1 v)) at2 (lenN vs1) (lenN vs2) -> no_empty_circle_of_four at1 (lenN vs1) ->
  exists out1 out2, triangulation_from_2d_vertices (E := E1) fuel1 1 vs1 = Ret out1 /\
    triangulation_from_2d_vertices (E := E2) fuel2 1 vs2 = Ret out2 /\
    same_triangles (fun v => turned p q s t (at1 v)) at2 out1 out2.
Proof. exact (grid_box_moved_only E1 E2 vs1 vs2 at1 at2 bound1 bound2 fuel1 fuel2 n1 n2 a b c d a' b' c' d' p q s t). Qed.
Print Assumptions C57_moved_partial.

(** With a reflection, the same triangles with their corners in the opposite order. *)
Theorem C57_mirrored_partial (E1 E2 : Env) (vs1 : list (@vertex E1)) (vs2 : list (@vertex E2)) at1 at2 bound1 bound2 fuel1 fuel2
    n1 n2 a b c d a' b' c' d' p q s t :
  exact_input (E := E1) vs1 at1 bound1 -> exact_input (E := E2) vs2 at2 bound2 ->
  2 * lenN vs1 + 2 <= @idmax E1 -> 2 * lenN vs2 + 2 <= @idmax E2 ->
  (4 * length vs1 + 12 <= fuel1)%nat -> (4 * length vs2 + 12 <= fuel2)%nat -> (1 <= bound1)%Z -> (1 <= bound2)%Z ->
  lenN vs1 = n1 + 4 -> Permutation [a; b; c; d] [n1; n1 + 1; n1 + 2; n1 + 3] ->
  box_corners (at1 a) (at1 b) (at1 c) (at1 d) -> (forall v, v < n1 -> in_box (at1 a) (at1 c) (at1 v)) ->
  lenN vs2 = n2 + 4 -> Permutation [a'; b'; c'; d'] [n2; n2 + 1; n2 + 2; n2 + 3] ->
  box_corners (at2 a') (at2 b') (at2 c') (at2 d') -> (forall v, v < n2 -> in_box (at2 a') (at2 c') (at2 v)) ->
  ~ (p == 0 /\ q == 0)%Q ->
  same_points (fun v => mirrored p q s t (at1 v)) at2 (lenN vs1) (lenN vs2) -> no_empty_circle_of_four at1 (lenN vs1) ->
  exists out1 out2, triangulation_from_2d_vertices (E := E1) fuel1 1 vs1 = Ret out1 /\
    triangulation_from_2d_vertices (E := E2) fuel2 1 vs2 = Ret out2 /\
    same_triangles (fun v => mirrored p q s t (at1 v)) at2 (map reversed out1) out2.
Proof. exact (grid_box_mirrored E1 E2 vs1 vs2 at1 at2 bound1 bound2 fuel1 fuel2 n1 n2 a b c d a' b' c' d' p q s t). Qed.
Print Assumptions C57_mirrored_partial.

(** A quarter turn with a scaling by two in f64; an exchange of the coordinates in f32. *)
Example C57_moved_case : exists out1 out2, triangulation_from_2d_vertices (E := env64) 100 1 (pts lbox) = Ret out1 /\
  triangulation_from_2d_vertices (E := env64) 100 1 (pts lturn) = Ret out2 /\
  same_triangles (fun v => turned 0 2 32 0 (zpoint lbox v)) (zpoint lturn) out1 out2.
Proof.
  assert (K : (100 >= 4 * length (pts lbox) + 12)%nat) by (apply Nat.leb_le; reflexivity).
  assert (K' : (100 >= 4 * length (pts lturn) + 12)%nat) by (apply Nat.leb_le; reflexivity).
  destruct lbox_corners as (P & B). destruct lturn_corners as (P' & B').
  exact (C57_moved_partial env64 env64 (pts lbox) (pts lturn) (zpoint lbox) (zpoint lturn) _ _ 100 100 6 4 7 9 6 8 4 6 5 7 0%Q 2%Q 32%Q 0%Q
           (Input_grid _ _ _ lbox_grid64) (Input_grid _ _ _ lturn_grid64) lbox_ids lturn_ids K K'
           ltac:(discriminate) ltac:(discriminate) eq_refl P B lbox_inside eq_refl P' B' lturn_inside
           ltac:(intros (_ & F); discriminate F) lturn_same lbox_general).
Qed.

Example C57_mirrored_case : exists out1 out2, triangulation_from_2d_vertices (E := env64) 100 1 (pts lbox) = Ret out1 /\
  triangulation_from_2d_vertices (E := env32) 100 1 (pts32 lswap) = Ret out2 /\
  same_triangles (fun v => mirrored 0 1 0 0 (zpoint lbox v)) (zpoint lswap) (map reversed out1) out2.
Proof.
  assert (K : (100 >= 4 * length (pts lbox) + 12)%nat) by (apply Nat.leb_le; reflexivity).
  assert (K' : (100 >= 4 * length (pts32 lswap) + 12)%nat) by (apply Nat.leb_le; reflexivity).
  destruct lbox_corners as (P & B). destruct lswap_corners as (P' & B').
  exact (C57_mirrored_partial env64 env32 (pts lbox) (pts32 lswap) (zpoint lbox) (zpoint lswap) _ _ 100 100 6 4 7 9 6 8 6 4 7 5 0%Q 1%Q 0%Q 0%Q
           (Input_grid _ _ _ lbox_grid64) (Input_grid _ _ _ lswap_grid32) lbox_ids lswap_ids K K'
           ltac:(discriminate) ltac:(discriminate) eq_refl P B lbox_inside eq_refl P' B' lswap_inside
           ltac:(intros (_ & F); discriminate F) lswap_same lbox_general).
Qed.

(** In general a rotation makes a difference: three vertices give no triangle, turned by an eighth
    they give one. *)
Theorem C57_moved_refuted : exists l1 l2 p q s t, ~ (p == 0 /\ q == 0)%Q /\
  exact_input (E := env64) (pts l1) (zpoint l1) (2 ^ 40) /\ exact_input (E := env64) (pts l2) (zpoint l2) (2 ^ 40) /\
  length l1 = 3%nat /\ length l2 = 3%nat /\
  (forall v, v < 3 -> same_place (zpoint l2 v) (turned p q s t (zpoint l1 v))) /\
  dt64 100 1 l1 = Ret [] /\ exists t, dt64 100 1 l2 = Ret [t].
Proof.
  exists ltri1, ltri2, 1%Q, 1%Q, 1%Q, 0%Q. split; [intros (F & _); discriminate F|].
  destruct ltri_dt as (R1 & R2).
  exact (conj (Input_grid _ _ _ ltri1_grid) (conj (Input_grid _ _ _ ltri2_grid) (conj eq_refl (conj eq_refl (conj ltri_moved
    (conj R1 (ex_intro _ _ R2))))))).
Qed.
Print Assumptions C57_moved_refuted.

(** ** C58 *)

(** A constrained Delaunay result in the sense of C49 is one in the sense of visibility.  Missing
    from the full claim: results that are not, for which it is refuted. *)
Theorem C58_visible_partial {E : Env} (vs : list vertex) at_ bound fuel bins cs out dt :
  exact_input vs at_ bound -> 2 * lenN vs + 2 <= idmax -> ((2 * length vs + 4) * (2 * length vs + 4) <= fuel)%nat ->
  constrained_triangulation_from_2d_vertices fuel bins vs cs = Ret out ->
  triangulation_from_2d_vertices fuel bins vs = Ret dt ->
  noncrossing at_ cs ->
  (forall e, In e cs -> proper at_ e -> covers_between at_ dt (efrom e) (eto e)) ->
  convex_area at_ dt -> (forall v, v < lenN vs -> covered at_ dt (at_ v)) ->
  constrained_delaunay at_ cs out -> visibly_delaunay at_ cs (lenN vs) out.
Proof. intros G. pair_input G. exact ((fun G H F => grid_visible vs px py bound G H fuel bins F cs out dt) G). Qed.
Print Assumptions C58_visible_partial.

(** In a box, for constraints that cross at most two edges each, nothing has to be assumed of
    the results. *)
Theorem C58_visible_box_partial {E : Env} (vs : list vertex) at_ bound fuel bins n a b c d cs out dt :
  exact_input vs at_ bound -> 2 * lenN vs + 2 <= idmax -> ((2 * length vs + 4) * (2 * length vs + 4) <= fuel)%nat -> (1 <= bound)%Z ->
  lenN vs = n + 4 -> Permutation [a; b; c; d] [n; n + 1; n + 2; n + 3] ->
  box_corners (at_ a) (at_ b) (at_ c) (at_ d) ->
  (forall v, v < n -> in_box (at_ a) (at_ c) (at_ v)) -> bins = 1 ->
  constrained_triangulation_from_2d_vertices fuel bins vs cs = Ret out ->
  triangulation_from_2d_vertices fuel bins vs = Ret dt ->
  noncrossing at_ cs ->
  (forall e, In e cs -> crosses_at_most at_ dt 2 e) ->
  visibly_delaunay at_ cs (lenN vs) out.
Proof. intros G. pair_input G. exact ((fun G H F => grid_box_few_visible vs px py bound G H fuel bins F n a b c d cs out dt) G). Qed.
Print Assumptions C58_visible_box_partial.

(** The vertex 1 is seen from a triangle and therefore outside its circumcircle; the vertex 2 is
    inside the circumcircle of another triangle and therefore not seen from it. *)
Example C58_visible_case :
  ~ in_circumcircle (zpoint lfw 7) (zpoint lfw 2) (zpoint lfw 0) (zpoint lfw 1) /\
  forall p, strictly_inside (zpoint lfw 7) (zpoint lfw 0) (zpoint lfw 4) p -> ~ sees (zpoint lfw) cs_fw p (zpoint lfw 2).
Proof.
  assert (K : (500 >= (2 * length (pts lfw) + 4) * (2 * length (pts lfw) + 4))%nat) by (apply Nat.leb_le; reflexivity).
  destruct lfw_box as (P & B & Hin).
  pose proof (C58_visible_box_partial (E := env64) (pts lfw) (zpoint lfw) _ 500 1 5 5 8 7 6 cs_fw out_fw dt_fw (Input_grid _ _ _ lfw_grid64)
    lfw_ids K ltac:(discriminate) eq_refl P B Hin eq_refl lfw_cdt lfw_dt lfw_noncrossing lfw_few) as V.
  destruct lfw_seen as (T & I & S). destruct lfw_hidden as (T' & C). split.
  - exact (V 7 2 0 _ 1 T I eq_refl S).
  - intros p I' S'. exact (V 7 0 4 p 2 T' I' eq_refl S' C).
Qed.

(** With three crossed edges in place of two. *)
Theorem C58_three_crossed_refuted :
  exists l n a b c d cs out dt, on_grid (E := env64) (pts l) l (2 ^ 40) /\ 2 * lenN (pts l) + 2 <= @idmax env64 /\
    ((2 * length (pts l) + 4) * (2 * length (pts l) + 4) <= 400)%nat /\ lenN (pts l) = n + 4 /\
    Permutation [a; b; c; d] [n; n + 1; n + 2; n + 3] /\
    box_corners (zpoint l a) (zpoint l b) (zpoint l c) (zpoint l d) /\
    (forall v, v < n -> in_box (zpoint l a) (zpoint l c) (zpoint l v)) /\
    constrained_triangulation_from_2d_vertices (E := env64) 400 1 (pts l) cs = Ret out /\
    triangulation_from_2d_vertices (E := env64) 400 1 (pts l) = Ret dt /\
    noncrossing (zpoint l) cs /\ (forall e, In e cs -> crosses_at_most (zpoint l) dt 3 e) /\
    ~ visibly_delaunay (zpoint l) cs (lenN (pts l)) out.
Proof.
  assert (K : ((2 * length (pts lnd) + 4) * (2 * length (pts lnd) + 4) <= 400)%nat) by (apply Nat.leb_le; reflexivity).
  destruct lnd_box as (P & B & Hin).
  exists lnd, 3, 3, 6, 5, 4, cs_nd, out_nd, dt_nd.
  exact (conj lnd_grid64 (conj lnd_ids (conj K (conj eq_refl (conj P (conj B (conj Hin (conj lnd_cdt (conj lnd_dt
    (conj lnd_noncrossing (conj lnd_three lnd_not_visibly))))))))))).
Qed.
Print Assumptions C58_three_crossed_refuted.

(** ** C59 *)

(** A constrained Delaunay result consists of exactly the triangles in a domain that meet no
    constraint and whose circumcircle contains no vertex seen from inside them.  Missing from the
    full claim: results that are not constrained Delaunay, for which it is refuted. *)
Theorem C59_exactly_partial {E : Env} (vs : list vertex) at_ bound fuel bins cs out dt :
  exact_input vs at_ bound -> 2 * lenN vs + 2 <= idmax -> ((2 * length vs + 4) * (2 * length vs + 4) <= fuel)%nat ->
  constrained_triangulation_from_2d_vertices fuel bins vs cs = Ret out ->
  triangulation_from_2d_vertices fuel bins vs = Ret dt ->
  noncrossing at_ cs ->
  (forall e, In e cs -> proper at_ e -> covers_between at_ dt (efrom e) (eto e)) ->
  convex_area at_ dt -> (forall v, v < lenN vs -> covered at_ dt (at_ v)) ->
  constrained_delaunay at_ cs out -> no_seen_circle_of_four at_ cs (lenN vs) ->
  forall x y z, x < lenN vs -> y < lenN vs -> z < lenN vs -> clockwise (at_ x) (at_ y) (at_ z) ->
    (triangle_at at_ out x y z <-> constrained_triangle at_ cs (lenN vs) x y z).
Proof. intros G. pair_input G. exact ((fun G H F => grid_cexactly vs px py bound G H fuel bins F cs out dt) G). Qed.
Print Assumptions C59_exactly_partial.

(** In a box, for constraints that cross at most two edges each. *)
Theorem C59_exactly_box_partial {E : Env} (vs : list vertex) at_ bound fuel bins n a b c d cs out dt :
  exact_input vs at_ bound -> 2 * lenN vs + 2 <= idmax -> ((2 * length vs + 4) * (2 * length vs + 4) <= fuel)%nat -> (1 <= bound)%Z ->
  lenN vs = n + 4 -> Permutation [a; b; c; d] [n; n + 1; n + 2; n + 3] ->
  box_corners (at_ a) (at_ b) (at_ c) (at_ d) ->
  (forall v, v < n -> in_box (at_ a) (at_ c) (at_ v)) -> bins = 1 ->
  constrained_triangulation_from_2d_vertices fuel bins vs cs = Ret out ->
  triangulation_from_2d_vertices fuel bins vs = Ret dt ->
  noncrossing at_ cs ->
  (forall e, In e cs -> crosses_at_most at_ dt 2 e) -> no_seen_circle_of_four at_ cs (lenN vs) ->
  forall x y z, x < lenN vs -> y < lenN vs -> z < lenN vs -> clockwise (at_ x) (at_ y) (at_ z) ->
    (triangle_at at_ out x y z <-> constrained_triangle at_ cs (lenN vs) x y z).
Proof. intros G. pair_input G. exact ((fun G H F => grid_box_cexactly vs px py bound G H fuel bins F n a b c d cs out dt) G). Qed.
Print Assumptions C59_exactly_box_partial.

(** The triangle (3, 2, 0) is constrained Delaunay; (0, 1, 2), which is a triangle of the
    unconstrained triangulation, is not. *)
Example C59_exactly_case :
  constrained_triangle (zpoint lcx) cs_cx 8 3 2 0 /\ ~ constrained_triangle (zpoint lcx) cs_cx 8 0 1 2.
Proof.
  assert (K : (400 >= (2 * length (pts lcx) + 4) * (2 * length (pts lcx) + 4))%nat) by (apply Nat.leb_le; reflexivity).
  destruct lcx_box as (P & B & Hin).
  pose proof (C59_exactly_box_partial (E := env64) (pts lcx) (zpoint lcx) _ 400 1 4 4 7 6 5 cs_cx out_cx dt_cx (Input_grid _ _ _ lcx_grid64)
    lcx_ids K ltac:(discriminate) eq_refl P B Hin eq_refl lcx_cdt lcx_dt lcx_noncrossing lcx_few lcx_general) as V.
  destruct lcx_kept as (C & T). destruct lcx_gone as (C' & T'). split.
  - exact (proj1 (V 3 2 0 eq_refl eq_refl eq_refl C) T).
  - intros H. exact (T' (proj2 (V 0 1 2 eq_refl eq_refl eq_refl C') H)).
Qed.

(** ** C60 *)

(** A lower bound for the angles of any triangulation of the same area by the same vertices is one
    for the angles of a Delaunay result. Missing from the full claim: results that are not
    Delaunay, where it is refuted below. *)
Theorem C60_widest_partial {E : Env} (vs : list vertex) at_ bound fuel bins out T k :
  exact_input vs at_ bound -> 2 * lenN vs + 2 <= idmax -> (4 * length vs + 12 <= fuel)%nat ->
  triangulation_from_2d_vertices fuel bins vs = Ret out -> delaunay at_ (lenN vs) out ->
  retriangulates at_ (lenN vs) out T -> angles_at_least at_ T k -> angles_at_least at_ out k.
Proof. exact (grid_widest E vs at_ bound fuel bins out T k). Qed.
Print Assumptions C60_widest_partial.

Theorem C60_widest_box_partial {E : Env} (vs : list vertex) at_ bound fuel n a b c d :
  exact_input vs at_ bound -> 2 * lenN vs + 2 <= idmax -> (4 * length vs + 12 <= fuel)%nat -> (1 <= bound)%Z ->
  lenN vs = n + 4 -> Permutation [a; b; c; d] [n; n + 1; n + 2; n + 3] -> box_corners (at_ a) (at_ b) (at_ c) (at_ d) ->
  (forall v, v < n -> in_box (at_ a) (at_ c) (at_ v)) ->
  exists out, triangulation_from_2d_vertices fuel 1 vs = Ret out /\
    forall T k, retriangulates at_ (lenN vs) out T -> angles_at_least at_ T k -> angles_at_least at_ out k.
Proof. exact (grid_box_widest E vs at_ bound fuel n a b c d). Qed.
Print Assumptions C60_widest_box_partial.

(** With constraints: among the triangulations of the same area that respect the constraints. *)
Theorem C60_widest_constrained_partial {E : Env} (vs : list vertex) at_ bound fuel bins cs out T k :
  exact_input vs at_ bound -> 2 * lenN vs + 2 <= idmax -> ((2 * length vs + 4) * (2 * length vs + 4) <= fuel)%nat ->
  constrained_triangulation_from_2d_vertices fuel bins vs cs = Ret out ->
  visibly_delaunay at_ cs (lenN vs) out -> retriangulates at_ (lenN vs) out T ->
  (forall t p, In t T -> tri_inside at_ t p -> ~ on_constraint at_ cs p) ->
  angles_at_least at_ T k -> angles_at_least at_ out k.
Proof. intros G. pair_input G. exact ((fun G H F => grid_cwidest vs px py bound G H fuel bins F cs out T k) G). Qed.
Print Assumptions C60_widest_constrained_partial.

(** The result with a constraint has narrower angles than the one without it; another
    triangulation with the constraint has narrower ones still. *)
Example C60_case k : angles_at_least (zpoint lcx) out_cx k -> angles_at_least (zpoint lcx) dt_cx k.
Proof.
  assert (K : (400 >= 4 * length (pts lcx) + 12)%nat) by (apply Nat.leb_le; reflexivity).
  destruct lcx_box as (P & B & Hin).
  destruct (C60_widest_box_partial (E := env64) (pts lcx) (zpoint lcx) _ 400 4 4 7 6 5 (Input_grid _ _ _ lcx_grid64) lcx_ids K
    ltac:(discriminate) eq_refl P B Hin) as (out & R & W).
  pose proof lcx_dt as R'. unfold dt64 in R'. rewrite R in R'. injection R' as ->. exact (W out_cx k lcx_rt).
Qed.

Example C60_constrained_case k : angles_at_least (zpoint lcx) alt_cx k -> angles_at_least (zpoint lcx) out_cx k.
Proof.
  assert (K : (400 >= (2 * length (pts lcx) + 4) * (2 * length (pts lcx) + 4))%nat) by (apply Nat.leb_le; reflexivity).
  destruct lcx_box as (P & B & Hin).
  pose proof (C58_visible_box_partial (E := env64) (pts lcx) (zpoint lcx) _ 400 1 4 4 7 6 5 cs_cx out_cx dt_cx (Input_grid _ _ _ lcx_grid64)
    lcx_ids K ltac:(discriminate) eq_refl P B Hin eq_refl lcx_cdt lcx_dt lcx_noncrossing lcx_few) as V.
  exact (C60_widest_constrained_partial (E := env64) (pts lcx) (zpoint lcx) _ 400 1 cs_cx out_cx alt_cx k (Input_grid _ _ _ lcx_grid64)
    lcx_ids K lcx_cdt V lcx_rt2 lcx_free).
Qed.

(** In general the result is not Delaunay, and does not have the widest angles. *)
Theorem C60_not_widest_refuted : exists l out T k, dt64 100 1 l = Ret out /\
  retriangulates (zpoint l) (lenN l) out T /\ angles_at_least (zpoint l) T k /\ ~ angles_at_least (zpoint l) out k.
Proof.
  exists lnw, out_nw, alt_nw, (angle (zpoint lnw 1) (zpoint lnw 2) (zpoint lnw 3)).
  exact (conj lnw_dt (conj lnw_rt (conj lnw_wide lnw_narrow))).
Qed.
Print Assumptions C60_not_widest_refuted.

(** ** C61 *)

(** Two vertices on a circle that has all other vertices outside are joined by an edge. Missing
    from the full claim: results that are not Delaunay or do not cover a convex area with all
    vertices, where it is refuted below. *)
Theorem C61_circle_joined_partial {E : Env} (vs : list vertex) at_ bound fuel bins out :
  exact_input vs at_ bound -> 2 * lenN vs + 2 <= idmax -> (4 * length vs + 12 <= fuel)%nat ->
  triangulation_from_2d_vertices fuel bins vs = Ret out -> delaunay at_ (lenN vs) out ->
  (forall v, v < lenN vs -> covered at_ out (at_ v)) -> convex_area at_ out ->
  forall a b o, a < lenN vs -> b < lenN vs -> ~ same_place (at_ a) (at_ b) -> circle_of_two at_ (lenN vs) a b o -> joined at_ out a b.
Proof. exact (grid_joined E vs at_ bound fuel bins out). Qed.
Print Assumptions C61_circle_joined_partial.

(** A closest pair between two classes of vertices is joined by an edge: every vertex is joined to
    its nearest neighbour, and all edges of a shortest tree are there. *)
Theorem C61_closest_joined_partial {E : Env} (vs : list vertex) at_ bound fuel bins out :
  exact_input vs at_ bound -> 2 * lenN vs + 2 <= idmax -> (4 * length vs + 12 <= fuel)%nat ->
  triangulation_from_2d_vertices fuel bins vs = Ret out -> delaunay at_ (lenN vs) out ->
  (forall v, v < lenN vs -> covered at_ out (at_ v)) -> convex_area at_ out ->
  forall class a b, a < lenN vs -> b < lenN vs -> ~ same_place (at_ a) (at_ b) -> closest_across at_ (lenN vs) class a b -> joined at_ out a b.
Proof. exact (grid_closest E vs at_ bound fuel bins out). Qed.
Print Assumptions C61_closest_joined_partial.

(** The edges connect all vertices: every split of the places in two classes has an edge across. *)
Theorem C61_connected_partial {E : Env} (vs : list vertex) at_ bound fuel bins out :
  exact_input vs at_ bound -> 2 * lenN vs + 2 <= idmax -> (4 * length vs + 12 <= fuel)%nat ->
  triangulation_from_2d_vertices fuel bins vs = Ret out -> delaunay at_ (lenN vs) out ->
  (forall v, v < lenN vs -> covered at_ out (at_ v)) -> convex_area at_ out ->
  forall class : N -> bool, (forall u v, same_place (at_ u) (at_ v) -> class u = class v) ->
    (exists u, u < lenN vs /\ class u = true) -> (exists v, v < lenN vs /\ class v = false) ->
    exists u v, u < lenN vs /\ v < lenN vs /\ class u = true /\ class v = false /\ joined at_ out u v.
Proof. exact (grid_connected E vs at_ bound fuel bins out). Qed.
Print Assumptions C61_connected_partial.

Theorem C61_joined_box_partial {E : Env} (vs : list vertex) at_ bound fuel n a b c d :
  exact_input vs at_ bound -> 2 * lenN vs + 2 <= idmax -> (4 * length vs + 12 <= fuel)%nat -> (1 <= bound)%Z ->
  lenN vs = n + 4 -> Permutation [a; b; c; d] [n; n + 1; n + 2; n + 3] -> box_corners (at_ a) (at_ b) (at_ c) (at_ d) ->
  (forall v, v < n -> in_box (at_ a) (at_ c) (at_ v)) ->
  exists out, triangulation_from_2d_vertices fuel 1 vs = Ret out /\
    forall u v, u < lenN vs -> v < lenN vs -> ~ same_place (at_ u) (at_ v) ->
      (exists o, circle_of_two at_ (lenN vs) u v o) \/ (exists class, closest_across at_ (lenN vs) class u v) -> joined at_ out u v.
Proof. exact (grid_box_joined E vs at_ bound fuel n a b c d). Qed.
Print Assumptions C61_joined_box_partial.

(** The vertex 2 is the nearest neighbour of the vertex 0. *)
Example C61_case : joined (zpoint lcx) dt_cx 0 2.
Proof.
  assert (K : (400 >= 4 * length (pts lcx) + 12)%nat) by (apply Nat.leb_le; reflexivity).
  destruct lcx_box as (P & B & Hin).
  destruct (C61_joined_box_partial (E := env64) (pts lcx) (zpoint lcx) _ 400 4 4 7 6 5 (Input_grid _ _ _ lcx_grid64) lcx_ids K
    ltac:(discriminate) eq_refl P B Hin) as (out & R & W).
  pose proof lcx_dt as R'. unfold dt64 in R'. rewrite R in R'. injection R' as ->.
  exact (W 0 2 eq_refl eq_refl ltac:(intros (F & _); discriminate F) (or_intror (ex_intro _ (N.eqb 0) lcx_closest))).
Qed.

(** In general a vertex need not be joined to its nearest neighbour: three vertices, no triangle. *)
Theorem C61_closest_refuted : exists l out class a b, dt64 100 1 l = Ret out /\ a < lenN l /\ b < lenN l /\
  closest_across (zpoint l) (lenN l) class a b /\ ~ same_place (zpoint l a) (zpoint l b) /\ ~ joined (zpoint l) out a b.
Proof. exists lfl, [], (N.eqb 2), 2, 0. exact (conj (proj1 lfl_dt) (conj eq_refl (conj eq_refl lfl_closest))). Qed.
Print Assumptions C61_closest_refuted.

(** ** C62 *)

(** One more point: of the triangles between the old points exactly those with the new point in
    their circumcircle disappear, and no new one appears. Missing from the full claim: results
    that are not Delaunay or do not cover a convex area with all vertices, where it is refuted
    below, and points with four on an empty circle, where the Delaunay triangles are not unique. *)
Theorem C62_one_more_partial (E1 E2 : Env) (vs1 : list (@vertex E1)) (vs2 : list (@vertex E2)) at1 at2 bound1 bound2 fuel1 fuel2 bins1 bins2 out1 out2 w :
  exact_input (E := E1) vs1 at1 bound1 -> exact_input (E := E2) vs2 at2 bound2 ->
  2 * lenN vs1 + 2 <= @idmax E1 -> 2 * lenN vs2 + 2 <= @idmax E2 ->
  (4 * length vs1 + 12 <= fuel1)%nat -> (4 * length vs2 + 12 <= fuel2)%nat ->
  no_empty_circle_of_four at1 (lenN vs1) -> no_empty_circle_of_four at2 (lenN vs2) ->
  triangulation_from_2d_vertices (E := E1) fuel1 bins1 vs1 = Ret out1 -> triangulation_from_2d_vertices (E := E2) fuel2 bins2 vs2 = Ret out2 ->
  delaunay at1 (lenN vs1) out1 -> delaunay at2 (lenN vs2) out2 ->
  (forall v, v < lenN vs1 -> covered at1 out1 (at1 v)) -> (forall v, v < lenN vs2 -> covered at2 out2 (at2 v)) ->
  convex_area at1 out1 -> convex_area at2 out2 -> one_more_point at1 at2 (lenN vs1) (lenN vs2) w ->
  forall x y z x' y' z', x < lenN vs1 -> y < lenN vs1 -> z < lenN vs1 -> x' < lenN vs2 -> y' < lenN vs2 -> z' < lenN vs2 ->
    same_place (at1 x) (at2 x') -> same_place (at1 y) (at2 y') -> same_place (at1 z) (at2 z') -> clockwise (at1 x) (at1 y) (at1 z) ->
    (triangle_at at2 out2 x' y' z' <-> triangle_at at1 out1 x y z /\ ~ in_circumcircle (at1 x) (at1 y) (at1 z) w).
Proof. exact (exactly_one_more E1 E2 vs1 vs2 at1 at2 bound1 bound2 fuel1 fuel2 bins1 bins2 out1 out2 w). Qed.
Print Assumptions C62_one_more_partial.

Theorem C62_one_more_box_partial (E1 E2 : Env) (vs1 : list (@vertex E1)) (vs2 : list (@vertex E2)) at1 at2 bound1 bound2 fuel1 fuel2
    n1 n2 a b c d a' b' c' d' w :
  exact_input (E := E1) vs1 at1 bound1 -> exact_input (E := E2) vs2 at2 bound2 ->
  2 * lenN vs1 + 2 <= @idmax E1 -> 2 * lenN vs2 + 2 <= @idmax E2 ->
  (4 * length vs1 + 12 <= fuel1)%nat -> (4 * length vs2 + 12 <= fuel2)%nat -> (1 <= bound1)%Z -> (1 <= bound2)%Z ->
  lenN vs1 = n1 + 4 -> Permutation [a; b; c; d] [n1; n1 + 1; n1 + 2; n1 + 3] ->
  box_corners (at1 a) (at1 b) (at1 c) (at1 d) -> (forall v, v < n1 -> in_box (at1 a) (at1 c) (at1 v)) ->
  lenN vs2 = n2 + 4 -> Permutation [a'; b'; c'; d'] [n2; n2 + 1; n2 + 2; n2 + 3] ->
  box_corners (at2 a') (at2 b') (at2 c') (at2 d') -> (forall v, v < n2 -> in_box (at2 a') (at2 c') (at2 v)) ->
  no_empty_circle_of_four at1 (lenN vs1) -> no_empty_circle_of_four at2 (lenN vs2) ->
  one_more_point at1 at2 (lenN vs1) (lenN vs2) w ->
  exists out1 out2, triangulation_from_2d_vertices (E := E1) fuel1 1 vs1 = Ret out1 /\
    triangulation_from_2d_vertices (E := E2) fuel2 1 vs2 = Ret out2 /\
    forall x y z x' y' z', x < lenN vs1 -> y < lenN vs1 -> z < lenN vs1 -> x' < lenN vs2 -> y' < lenN vs2 -> z' < lenN vs2 ->
      same_place (at1 x) (at2 x') -> same_place (at1 y) (at2 y') -> same_place (at1 z) (at2 z') -> clockwise (at1 x) (at1 y) (at1 z) ->
      (triangle_at at2 out2 x' y' z' <-> triangle_at at1 out1 x y z /\ ~ in_circumcircle (at1 x) (at1 y) (at1 z) w).
Proof. exact (grid_box_one_more E1 E2 vs1 vs2 at1 at2 bound1 bound2 fuel1 fuel2 n1 n2 a b c d a' b' c' d' w). Qed.
Print Assumptions C62_one_more_box_partial.

Example C62_case : exists out1 out2, dt64 400 1 lcy = Ret out1 /\ dt64 400 1 lcx = Ret out2 /\
  (triangle_at (zpoint lcx) out2 0 3 1 <-> triangle_at (zpoint lcy) out1 0 2 1 /\
     ~ in_circumcircle (zpoint lcy 0) (zpoint lcy 2) (zpoint lcy 1) (zpoint lcx 2)) /\
  (triangle_at (zpoint lcx) out2 0 7 4 <-> triangle_at (zpoint lcy) out1 0 6 3 /\
     ~ in_circumcircle (zpoint lcy 0) (zpoint lcy 6) (zpoint lcy 3) (zpoint lcx 2)).
Proof.
  assert (K : (400 >= 4 * length (pts lcx) + 12)%nat) by (apply Nat.leb_le; reflexivity).
  assert (K' : (400 >= 4 * length (pts lcy) + 12)%nat) by (apply Nat.leb_le; reflexivity).
  destruct lcx_box as (P & B & Hin). destruct lcy_box as (P' & B' & Hin').
  destruct (C62_one_more_box_partial env64 env64 (pts lcy) (pts lcx) (zpoint lcy) (zpoint lcx) _ _ 400 400 3 4 3 6 5 4 4 7 6 5 (zpoint lcx 2)
    (Input_grid _ _ _ lcy_grid64) (Input_grid _ _ _ lcx_grid64) lcy_ids lcx_ids K' K ltac:(discriminate) ltac:(discriminate)
    eq_refl P' B' Hin' eq_refl P B Hin lcy_empty4 lcx_empty4 lcy_more) as (out1 & out2 & R1 & R2 & W).
  exists out1, out2. split; [exact R1|]. split; [exact R2|]. split.
  - apply W; try reflexivity; split; reflexivity.
  - apply W; try reflexivity; split; reflexivity.
Qed.

(** In general a new triangle of old points may appear: three vertices have no triangle, with a
    fourth one they do. *)
Theorem C62_new_triangle_refuted : exists l1 l2 out1 out2 w, dt64 100 1 l1 = Ret out1 /\ dt64 100 1 l2 = Ret out2 /\
  one_more_point (zpoint l1) (zpoint l2) (lenN l1) (lenN l2) w /\
  (forall v, v < lenN l1 -> zpoint l1 v = zpoint l2 v) /\
  exists x y z, x < lenN l1 /\ y < lenN l1 /\ z < lenN l1 /\ triangle_at (zpoint l2) out2 x y z /\ ~ triangle_at (zpoint l1) out1 x y z.
Proof.
  exists lfl, lfl2, [], [(0, 2, 3); (0, 1, 2)], (zpoint lfl2 3).
  split; [exact (proj1 lfl_dt)|]. split; [exact (proj2 lfl_dt)|]. split; [exact lfl_more|].
  split; [exact lfl_prefix|]. exists 0, 1, 2. exact (conj eq_refl (conj eq_refl (conj eq_refl lfl_new))).
Qed.
Print Assumptions C62_new_triangle_refuted.

(** ** C63 *)
Theorem C63_selection {E : Env} (vs : list vertex) at_ bound fuel bins dt cs :
  exact_input vs at_ bound -> 2 * lenN vs + 2 <= idmax ->
  ((2 * length vs + 4) * (2 * length vs + 4) <= fuel)%nat -> 1 <= bins -> (Z.of_N bins <= bound)%Z ->
  triangulation_from_2d_vertices fuel bins vs = Ret dt -> edges_already dt cs ->
  exists out, constrained_triangulation_from_2d_vertices fuel bins vs cs = Ret out /\ incl out dt /\ NoDup out /\
    (forall t, selected dt cs t -> In t out) /\
    ((forall a b, border dt a b -> In (Edge a b) cs) -> forall t, In t out <-> selected dt cs t).
Proof.
  intros G. pair_input G. intros Hi F B1 B2 H0 Al.
  destruct (grid_select vs px py bound G Hi fuel bins F B1 B2 dt cs H0 Al) as (out & A & B & C & D & F' & _).
  exists out. exact (conj A (conj B (conj C (conj D F')))).
Qed.
Print Assumptions C63_selection.

(** The border and a ring of inner edges: the two triangles on the left of the inner edges are left
    out. *)
Example C63_case : edges_already out_w cs_ring /\ (forall a b, border out_w a b -> In (Edge a b) cs_ring) /\
  dt64 1000 2 lw = Ret out_w /\
  constrained_triangulation_from_2d_vertices (E := env64) 1000 2 (pts lw) cs_ring = Ret out_ring /\
  (forall t, In t out_ring <-> selected out_w cs_ring t) /\
  ~ selected out_w cs_ring (5, 0, 6) /\ selected out_w cs_ring (2, 6, 0).
Proof.
  assert (B : forall a b, border out_w a b -> In (Edge a b) cs_ring).
  { intros a b H. apply border_w in H. unfold cs_ring. apply in_or_app. now left. }
  assert (K : forall t, In t out_ring <-> selected out_w cs_ring t).
  { destruct (C63_selection (E := env64) (pts lw) (zpoint lw) (2 ^ 40) 1000 2 out_w cs_ring (Input_grid _ _ _ lw_grid64) lw_ids
      ltac:(apply Nat.leb_le; reflexivity) ltac:(discriminate) ltac:(discriminate) (proj2 ring_run) ring_edges) as (out & R & _ & _ & _ & Ex).
    rewrite (proj1 ring_run) in R. assert (out_ring = out) as -> by congruence. exact (Ex B). }
  split; [exact ring_edges|]. split; [exact B|]. split; [exact (proj2 ring_run)|]. split; [exact (proj1 ring_run)|].
  split; [exact K|]. split; [|apply K; simpl; auto].
  intros S. apply K in S. clear K B. simpl in S. decompose [or] S; try discriminate; contradiction.
Qed.

Theorem C63_every_triangle {E : Env} (vs : list vertex) at_ bound fuel bins dt cs :
  exact_input vs at_ bound -> 2 * lenN vs + 2 <= idmax ->
  ((2 * length vs + 4) * (2 * length vs + 4) <= fuel)%nat -> 1 <= bins -> (Z.of_N bins <= bound)%Z ->
  triangulation_from_2d_vertices fuel bins vs = Ret dt -> edges_already dt cs ->
  (forall t, In t dt -> exists a b, In (a, b) (tri_edges t) /\ In (Edge a b) cs) ->
  exists out, constrained_triangulation_from_2d_vertices fuel bins vs cs = Ret out /\ Permutation out dt.
Proof.
  intros G. pair_input G. intros Hi F B1 B2 H0 Al Ev.
  apply (grid_select_all vs px py bound G Hi fuel bins F B1 B2 dt cs H0 Al).
  intros t Ht. destruct (Ev t Ht) as (a & b & Hab & Hc). exact (selected_right dt cs t a b Ht Hab Hc).
Qed.
Print Assumptions C63_every_triangle.

Theorem C63_round_trip {E : Env} (vs : list vertex) at_ bound fuel bins dt cs :
  exact_input vs at_ bound -> 2 * lenN vs + 2 <= idmax ->
  ((2 * length vs + 4) * (2 * length vs + 4) <= fuel)%nat -> 1 <= bins -> (Z.of_N bins <= bound)%Z ->
  triangulation_from_2d_vertices fuel bins vs = Ret dt ->
  (forall e, In e cs <-> border dt (efrom e) (eto e)) ->
  exists out, constrained_triangulation_from_2d_vertices fuel bins vs cs = Ret out /\ Permutation out dt.
Proof. intros G. pair_input G. exact (fun Hi F B1 B2 => grid_round_trip vs px py bound G Hi fuel bins F B1 B2 dt cs). Qed.
Print Assumptions C63_round_trip.

(** The border alone selects the two inner triangles as well. *)
Example C63_round_trip_case : exists out,
  constrained_triangulation_from_2d_vertices (E := env64) 1000 2 (pts lw) cs_border = Ret out /\ Permutation out out_w /\
  In (5, 0, 6) out_w /\ ~ In (Edge 5 0) cs_border /\ ~ In (Edge 0 6) cs_border /\ ~ In (Edge 6 5) cs_border.
Proof.
  destruct (C63_round_trip (E := env64) (pts lw) (zpoint lw) (2 ^ 40) 1000 2 out_w cs_border (Input_grid _ _ _ lw_grid64) lw_ids
    ltac:(apply Nat.leb_le; reflexivity) ltac:(discriminate) ltac:(discriminate) (proj2 ring_run)) as (out & R & P).
  { intros (f, g). symmetry. exact (border_w f g). }
  exists out. split; [exact R|]. split; [exact P|]. split; [simpl; auto|]. clear R P.
  repeat split; intros Q; simpl in Q; decompose [or] Q; try discriminate; contradiction.
Qed.

Theorem C63_wrong_way {E : Env} (vs : list vertex) at_ bound fuel bins dt cs :
  exact_input vs at_ bound -> 2 * lenN vs + 2 <= idmax ->
  ((2 * length vs + 4) * (2 * length vs + 4) <= fuel)%nat -> 1 <= bins -> (Z.of_N bins <= bound)%Z ->
  triangulation_from_2d_vertices fuel bins vs = Ret dt ->
  (forall e, In e cs <-> border dt (eto e) (efrom e)) ->
  constrained_triangulation_from_2d_vertices fuel bins vs cs = Ret [].
Proof. intros G. pair_input G. exact (fun Hi F B1 B2 => grid_reversed vs px py bound G Hi fuel bins F B1 B2 dt cs). Qed.
Print Assumptions C63_wrong_way.

Example C63_wrong_way_case :
  constrained_triangulation_from_2d_vertices (E := env64) 1000 2 (pts lw) [Edge 0 1; Edge 1 3; Edge 3 2; Edge 2 0] = Ret [].
Proof.
  apply (C63_wrong_way (E := env64) (pts lw) (zpoint lw) (2 ^ 40) 1000 2 out_w _ (Input_grid _ _ _ lw_grid64) lw_ids
    ltac:(apply Nat.leb_le; reflexivity) ltac:(discriminate) ltac:(discriminate) (proj2 ring_run)).
  intros (f, g). cbn [efrom eto]. rewrite border_w. unfold cs_border. simpl.
  split; intros Q; decompose [or] Q; try contradiction; match goal with K : _ = _ |- _ => injection K as <- <- end; auto.
Qed.

(** ** C64 *)

(** A result, with or without constraints, has as many triangles as any other valid mesh of the same
    area, plus two for each vertex inside the area and one for each vertex on a straight piece of
    its border that the mesh does not know. *)
Theorem C64_any_mesh {E : Env} (vs : list vertex) at_ bound fuel bins out at1 n1 other inner rim :
  exact_input vs at_ bound -> 2 * lenN vs + 2 <= idmax -> (4 * length vs + 12 <= fuel)%nat -> returned fuel bins vs out ->
  valid_mesh at1 n1 other -> (forall t c, In t other -> tri_corner t c -> c < n1) ->
  (forall p, covered at1 other p <-> covered at_ out p) ->
  (forall v, v < n1 -> covered at1 other (at1 v) -> exists w, w < lenN vs /\ same_place (at1 v) (at_ w)) ->
  (forall w, w < lenN vs -> covered at_ out (at_ w) ->
    old at1 at_ n1 w \/ exists u, In u (inner ++ rim) /\ same_place (at_ u) (at_ w)) ->
  new_places at1 at_ n1 (lenN vs) (inner ++ rim) ->
  (forall u, In u inner -> surrounded at_ out (at_ u)) ->
  (forall u, In u rim -> on_straight_border at_ out (at_ u)) ->
  lenN out = lenN other + 2 * lenN inner + lenN rim.
Proof. exact (grid_tally vs at_ bound fuel bins out at1 n1 other inner rim). Qed.
Print Assumptions C64_any_mesh.

(** Two calls whose results cover the same area, in any two arithmetics. *)
Theorem C64_two_calls (E1 E2 : Env) (vs1 : list (@vertex E1)) (vs2 : list (@vertex E2)) at1 at2 bound1 bound2 fuel1 fuel2 bins1 bins2
    out1 out2 inner rim :
  exact_input (E := E1) vs1 at1 bound1 -> exact_input (E := E2) vs2 at2 bound2 ->
  2 * lenN vs1 + 2 <= @idmax E1 -> 2 * lenN vs2 + 2 <= @idmax E2 ->
  (4 * length vs1 + 12 <= fuel1)%nat -> (4 * length vs2 + 12 <= fuel2)%nat ->
  returned (E := E1) fuel1 bins1 vs1 out1 -> returned (E := E2) fuel2 bins2 vs2 out2 ->
  (forall p, covered at1 out1 p <-> covered at2 out2 p) ->
  (forall v, v < lenN vs1 -> covered at1 out1 (at1 v) -> exists w, w < lenN vs2 /\ same_place (at1 v) (at2 w)) ->
  (forall w, w < lenN vs2 -> covered at2 out2 (at2 w) ->
    old at1 at2 (lenN vs1) w \/ exists u, In u (inner ++ rim) /\ same_place (at2 u) (at2 w)) ->
  new_places at1 at2 (lenN vs1) (lenN vs2) (inner ++ rim) ->
  (forall u, In u inner -> surrounded at2 out2 (at2 u)) ->
  (forall u, In u rim -> on_straight_border at2 out2 (at2 u)) ->
  lenN out2 = lenN out1 + 2 * lenN inner + lenN rim.
Proof. exact (grid_tally2 E1 E2 vs1 vs2 at1 at2 bound1 bound2 fuel1 fuel2 bins1 bins2 out1 out2 inner rim). Qed.
Print Assumptions C64_two_calls.

(** The corners of a box alone, and with three places inside the box and one on a side, one place
    given twice: two triangles become nine. *)
Example C64_two_calls_case : exists out1 out2,
  triangulation_from_2d_vertices (E := env64) 100 1 (pts lfour) = Ret out1 /\ lenN out1 = 2 /\
  triangulation_from_2d_vertices (E := env64) 100 1 (pts lbox) = Ret out2 /\ lenN out2 = lenN out1 + 2 * 3 + 1.
Proof.
  destruct lfour_corners as (P1 & B1). destruct lbox_corners as (P2 & B2).
  destruct (C46_boxed (E := env64) (pts lfour) (zpoint lfour) (2 ^ 40) 100 0 1 3 0 2 (Input_grid _ _ _ lfour_grid64) lfour_ids
    ltac:(apply Nat.leb_le; reflexivity) ltac:(discriminate) eq_refl P1 B1 ltac:(intros [|v] H; discriminate H)) as (out1 & R1 & C1 & _).
  destruct (C46_boxed (E := env64) (pts lbox) (zpoint lbox) (2 ^ 40) 100 6 7 9 6 8 (Input_grid _ _ _ lbox_grid64) lbox_ids
    ltac:(apply Nat.leb_le; reflexivity) ltac:(discriminate) eq_refl P2 B2 lbox_inside) as (out2 & R2 & C2 & _).
  exists out1, out2. split; [exact R1|].
  assert (K : lenN out1 = 2) by (pose proof R1 as Q1; vm_compute in Q1; injection Q1 as <-; reflexivity).
  split; [exact K|]. split; [exact R2|].
  apply (C64_two_calls env64 env64 (pts lfour) (pts lbox) (zpoint lfour) (zpoint lbox) (2 ^ 40) (2 ^ 40) 100 100 1 1 out1 out2 [0; 2; 4] [5]
    (Input_grid _ _ _ lfour_grid64) (Input_grid _ _ _ lbox_grid64) lfour_ids lbox_ids
    ltac:(apply Nat.leb_le; reflexivity) ltac:(apply Nat.leb_le; reflexivity) (or_introl R1) (or_introl R2)).
  - intros p. rewrite C1, C2. reflexivity.
  - intros v V _. exact (lbox_all v V).
  - intros w W _. exact (lbox_old w W).
  - exact lbox_new.
  - intros u. exact (lbox_inner out2 u C2).
  - intros u. exact (lbox_rim out2 u C2).
Qed.

(** The two theorems above start from what the calls returned.  For two inputs ending with the corners
    of the same box, with the same constraints: both calls succeed, and each vertex that only the
    second input has, strictly inside the box and in a domain, adds two triangles.  Vertices outside
    the domains do not count, nor do the order of vertices and constraints and the arithmetic. *)
Theorem C64_boxed (E1 E2 : Env) (vs1 : list (@vertex E1)) (vs2 : list (@vertex E2)) at1 at2 bound1 bound2 fuel1 fuel2
    n1 n2 a b c d a' b' c' d' cs1 cs2 extra :
  exact_input (E := E1) vs1 at1 bound1 -> exact_input (E := E2) vs2 at2 bound2 ->
  2 * lenN vs1 + 2 <= @idmax E1 -> 2 * lenN vs2 + 2 <= @idmax E2 ->
  ((2 * length vs1 + 4) * (2 * length vs1 + 4) <= fuel1)%nat -> ((2 * length vs2 + 4) * (2 * length vs2 + 4) <= fuel2)%nat ->
  (1 <= bound1)%Z -> (1 <= bound2)%Z ->
  lenN vs1 = n1 + 4 -> Permutation [a; b; c; d] [n1; n1 + 1; n1 + 2; n1 + 3] ->
  box_corners (at1 a) (at1 b) (at1 c) (at1 d) -> (forall v, v < n1 -> in_box (at1 a) (at1 c) (at1 v)) ->
  lenN vs2 = n2 + 4 -> Permutation [a'; b'; c'; d'] [n2; n2 + 1; n2 + 2; n2 + 3] ->
  box_corners (at2 a') (at2 b') (at2 c') (at2 d') -> (forall v, v < n2 -> in_box (at2 a') (at2 c') (at2 v)) ->
  same_place (at1 a) (at2 a') -> same_place (at1 c) (at2 c') ->
  (forall e, In e cs1 -> efrom e < lenN vs1 /\ eto e < lenN vs1 /\
     (proper at1 e -> clear_between at1 (lenN vs1) (efrom e) (eto e))) -> noncrossing at1 cs1 ->
  (forall e, In e cs2 -> efrom e < lenN vs2 /\ eto e < lenN vs2 /\
     (proper at2 e -> clear_between at2 (lenN vs2) (efrom e) (eto e))) -> noncrossing at2 cs2 ->
  same_constraints at1 at2 cs1 cs2 ->
  (forall v, v < lenN vs1 -> in_domain at1 cs1 (at1 v) -> exists w, w < lenN vs2 /\ same_place (at1 v) (at2 w)) ->
  (forall w, w < lenN vs2 -> in_domain at2 cs2 (at2 w) ->
    old at1 at2 (lenN vs1) w \/ exists u, In u extra /\ same_place (at2 u) (at2 w)) ->
  new_places at1 at2 (lenN vs1) (lenN vs2) extra ->
  (forall u, In u extra -> in_domain at2 cs2 (at2 u) /\ within_box (at2 a') (at2 c') (at2 u)) ->
  exists out1 out2, constrained_triangulation_from_2d_vertices (E := E1) fuel1 1 vs1 cs1 = Ret out1 /\
    constrained_triangulation_from_2d_vertices (E := E2) fuel2 1 vs2 cs2 = Ret out2 /\
    lenN out2 = lenN out1 + 2 * lenN extra.
Proof.
  exact (grid_box_tally E1 E2 vs1 vs2 at1 at2 bound1 bound2 fuel1 fuel2 n1 n2 a b c d a' b' c' d' cs1 cs2 extra).
Qed.
Print Assumptions C64_boxed.

(** The square with a hole of C50 in binary64, and in binary32 in another order with one more vertex
    between the square and the hole and one in the hole: eight triangles become ten. *)
Example C64_case : exists out2, lenN out_hole = 8 /\
  constrained_triangulation_from_2d_vertices (E := env32) 600 1 (pts32 lring) cs_ring2 = Ret out2 /\ lenN out2 = lenN out_hole + 2.
Proof.
  destruct lhole_corners as (P1 & B1 & N1). destruct lring_corners as (P2 & B2 & N2). destruct lring_box as (A & C).
  destruct (C64_boxed env64 env32 (pts lhole) (pts32 lring) (zpoint lhole) (zpoint lring) (2 ^ 40) (2 ^ 13) 400 600 4 6
    4 5 6 7 8 9 6 7 cs_hole cs_ring2 [1] (Input_grid _ _ _ lhole_grid64) (Input_grid _ _ _ lring_grid32) lhole_ids lring_ids
    lhole_fuel lring_fuel ltac:(discriminate) ltac:(discriminate) eq_refl P1 B1 N1 eq_refl P2 B2 N2 A C
    lhole_clear lhole_noncrossing lring_clear lring_noncrossing lring_same) as (out1 & out2 & R1 & R2 & K).
  - intros v V _. exact (lring_all v V).
  - intros w W D. destruct (N.eq_dec w 1) as [-> |N3]; [right; exists 1; split; [now left|split; reflexivity]|].
    destruct (N.eq_dec w 5) as [-> |N4]; [|left; exact (lring_old w W N3 N4)].
    exfalso. apply (proj2 C50_case). apply (in_domain_same _ _ _ _ (sc_sym _ _ _ _ lring_same)). exact D.
  - exact lring_new.
  - intros u [<-|[]]. exact lring_inside.
  - exists out2. assert (Q1 : out1 = out_hole) by (pose proof lhole_cdt; congruence). subst out1.
    split; [reflexivity|]. split; [exact R2|exact K].
Qed.

(** ** C65 *)

(** Closed loops of constraints, with the inside on their right: no triangle covers a point that they
    do not turn around. *)
Theorem C65_nothing_outside {E : Env} (vs : list vertex) at_ bound fuel bins cs out p :
  exact_input vs at_ bound -> 2 * lenN vs + 2 <= idmax -> (4 * length vs + 12 <= fuel)%nat ->
  constrained_triangulation_from_2d_vertices fuel bins vs cs = Ret out -> noncrossing at_ cs ->
  closed_loops at_ cs -> inside_right at_ cs ->
  ~ on_constraint at_ cs p -> covered at_ out p -> (0 < winding at_ cs p)%Z.
Proof. intros G. pair_input G. exact ((fun G H => grid_loops_inside vs px py bound G H fuel bins cs out p) G). Qed.
Print Assumptions C65_nothing_outside.

(** Where the unconstrained triangulation covers the constraints, the returned triangles cover
    exactly the points the loops turn around. *)
Theorem C65_exactly_inside {E : Env} (vs : list vertex) at_ bound fuel bins cs out dt p :
  exact_input vs at_ bound -> 2 * lenN vs + 2 <= idmax ->
  ((2 * length vs + 4) * (2 * length vs + 4) <= fuel)%nat ->
  constrained_triangulation_from_2d_vertices fuel bins vs cs = Ret out ->
  triangulation_from_2d_vertices fuel bins vs = Ret dt -> noncrossing at_ cs ->
  (forall e, In e cs -> proper at_ e -> covers_between at_ dt (efrom e) (eto e)) ->
  closed_loops at_ cs -> inside_right at_ cs ->
  covered at_ dt p -> ~ on_constraint at_ cs p -> (covered at_ out p <-> (0 < winding at_ cs p)%Z).
Proof. intros G. pair_input G. exact ((fun G H => grid_loops_domain vs px py bound G H fuel bins cs out dt p) G). Qed.
Print Assumptions C65_exactly_inside.

(** In a box, whose corners are the last vertices, the call succeeds and covers exactly the points
    the loops turn around. *)
Theorem C65_boxed {E : Env} (vs : list vertex) at_ bound fuel n a b c d cs :
  exact_input vs at_ bound -> 2 * lenN vs + 2 <= idmax ->
  ((2 * length vs + 4) * (2 * length vs + 4) <= fuel)%nat -> (1 <= bound)%Z ->
  lenN vs = n + 4 -> Permutation [a; b; c; d] [n; n + 1; n + 2; n + 3] ->
  box_corners (at_ a) (at_ b) (at_ c) (at_ d) ->
  (forall v, v < n -> in_box (at_ a) (at_ c) (at_ v)) ->
  (forall e, In e cs -> efrom e < lenN vs /\ eto e < lenN vs /\
     (proper at_ e -> clear_between at_ (lenN vs) (efrom e) (eto e))) ->
  noncrossing at_ cs -> closed_loops at_ cs -> inside_right at_ cs ->
  exists out, constrained_triangulation_from_2d_vertices fuel 1 vs cs = Ret out /\
    forall p, ~ on_constraint at_ cs p -> (covered at_ out p <-> (0 < winding at_ cs p)%Z).
Proof. intros G. pair_input G. exact ((fun G H => grid_loops_box vs px py bound G H fuel n a b c d cs) G). Qed.
Print Assumptions C65_boxed.

(** The square with a hole of C50: all points between the square and the hole are covered, and none
    in the hole or outside the square. *)
Example C65_case p : ~ on_constraint (zpoint lhole) cs_hole p ->
  (covered (zpoint lhole) out_hole p <-> (0 < winding (zpoint lhole) cs_hole p)%Z) /\
  winding (zpoint lhole) cs_hole (2, 6)%Q = 1%Z /\ winding (zpoint lhole) cs_hole (6, 6)%Q = 0%Z.
Proof.
  intros Nc. destruct lhole_corners as (P & B & Hin). destruct hole_values as (V1 & V2 & _).
  destruct (C65_boxed (E := env64) (pts lhole) (zpoint lhole) _ 400 4 4 5 6 7 cs_hole (Input_grid _ _ _ lhole_grid64)
    lhole_ids lhole_fuel ltac:(discriminate) eq_refl P B Hin lhole_clear lhole_noncrossing hole_loops hole_inside) as (out & Ho & C).
  assert (K : out = out_hole) by (pose proof lhole_cdt; congruence). subst out. split; [exact (C p Nc)|]. split; assumption.
Qed.

(** ** C66 *)

(** The sides of a simple polygon, taken clockwise, with the corners of a box around it as the last
    vertices: the polygon turns once around each point or not at all, and the triangles cover exactly
    the points it turns around. *)
Theorem C66_polygon {E : Env} (vs : list vertex) at_ bound fuel n a b c d cs :
  exact_input vs at_ bound -> 2 * lenN vs + 2 <= idmax ->
  ((2 * length vs + 4) * (2 * length vs + 4) <= fuel)%nat -> (1 <= bound)%Z ->
  lenN vs = n + 4 -> Permutation [a; b; c; d] [n; n + 1; n + 2; n + 3] ->
  box_corners (at_ a) (at_ b) (at_ c) (at_ d) ->
  (forall v, v < n -> in_box (at_ a) (at_ c) (at_ v)) ->
  (forall e, In e cs -> efrom e < lenN vs /\ eto e < lenN vs /\
     clear_between at_ (lenN vs) (efrom e) (eto e)) ->
  simple_polygon at_ cs -> (exists p, ~ on_constraint at_ cs p /\ (0 < winding at_ cs p)%Z) ->
  exists out, constrained_triangulation_from_2d_vertices fuel 1 vs cs = Ret out /\
    forall p, ~ on_constraint at_ cs p ->
      (winding at_ cs p = 0%Z \/ winding at_ cs p = 1%Z) /\
      (covered at_ out p <-> winding at_ cs p = 1%Z).
Proof. intros G. pair_input G. exact ((fun G H => grid_polygon vs px py bound G H fuel n a b c d cs) G). Qed.
Print Assumptions C66_polygon.

(** Several simple loops that do not touch, each with a point of winding number 1 from which one sees
    it on its right: outer loops clockwise, holes counter-clockwise. *)
Theorem C66_polygons {E : Env} (vs : list vertex) at_ bound fuel n a b c d cs :
  exact_input vs at_ bound -> 2 * lenN vs + 2 <= idmax ->
  ((2 * length vs + 4) * (2 * length vs + 4) <= fuel)%nat -> (1 <= bound)%Z ->
  lenN vs = n + 4 -> Permutation [a; b; c; d] [n; n + 1; n + 2; n + 3] ->
  box_corners (at_ a) (at_ b) (at_ c) (at_ d) ->
  (forall v, v < n -> in_box (at_ a) (at_ c) (at_ v)) ->
  (forall e, In e cs -> efrom e < lenN vs /\ eto e < lenN vs /\
     clear_between at_ (lenN vs) (efrom e) (eto e)) ->
  simple_loops at_ cs ->
  (forall e, In e cs -> exists f q, same_loop at_ cs e f /\ sees_side at_ cs q f /\
     (orient (at_ (efrom f)) (at_ (eto f)) q < 0)%Q /\ winding at_ cs q = 1%Z) ->
  exists out, constrained_triangulation_from_2d_vertices fuel 1 vs cs = Ret out /\
    forall p, ~ on_constraint at_ cs p ->
      (winding at_ cs p = 0%Z \/ winding at_ cs p = 1%Z) /\
      (covered at_ out p <-> winding at_ cs p = 1%Z).
Proof. intros G. pair_input G. exact ((fun G H => grid_polygons vs px py bound G H fuel n a b c d cs) G). Qed.
Print Assumptions C66_polygons.

(** A polygon with a notch and a vertex inside it: a point of it is covered, a point in the notch is
    not. *)
Example C66_case : exists out,
  constrained_triangulation_from_2d_vertices (E := env64) 600 1 (pts lpoly) cs_poly = Ret out /\
  covered (zpoint lpoly) out (4, 4)%Q /\ ~ covered (zpoint lpoly) out (6, 12)%Q.
Proof.
  destruct lpoly_corners as (P & B & Hin). destruct lpoly_values as (V1 & V2 & V3 & V4).
  assert (V5 : (0 < winding (zpoint lpoly) cs_poly (4, 4)%Q)%Z) by (rewrite V2; reflexivity).
  destruct (C66_polygon (E := env64) (pts lpoly) (zpoint lpoly) _ 600 6 6 7 8 9 cs_poly (Input_grid _ _ _ lpoly_grid64)
    lpoly_ids lpoly_fuel ltac:(discriminate) eq_refl P B Hin lpoly_clear lpoly_polygon
    (ex_intro _ _ (conj V1 V5))) as (out & Ho & C).
  exists out. split; [exact Ho|]. split; [exact (proj2 (proj2 (C _ V1)) V2)|].
  intros K. apply (proj2 (C _ V3)) in K. rewrite V4 in K. discriminate.
Qed.

(** The square with a hole. *)
Example C66_case_hole p : ~ on_constraint (zpoint lhole) cs_hole p ->
  (covered (zpoint lhole) out_hole p <-> winding (zpoint lhole) cs_hole p = 1%Z).
Proof.
  intros Nc. destruct lhole_corners as (P & B & Hin).
  destruct (C66_polygons (E := env64) (pts lhole) (zpoint lhole) _ 400 4 4 5 6 7 cs_hole (Input_grid _ _ _ lhole_grid64)
    lhole_ids lhole_fuel ltac:(discriminate) eq_refl P B Hin
    (fun e I => let '(conj x (conj y z)) := lhole_clear e I in conj x (conj y (z (sl_proper _ _ lhole_loops e I)))) lhole_loops lhole_tests) as (out & Ho & C).
  assert (K : out = out_hole) by (pose proof lhole_cdt; congruence). subst out. exact (proj2 (C p Nc)).
Qed.

(** ** C67 *)

(** The sides of a simple polygon, taken clockwise, with the corners of a box around it as the last
    vertices: the number of triangles is the number of sides, less two, plus twice the number of
    places of vertices strictly inside. *)
Theorem C67_polygon_count {E : Env} (vs : list vertex) at_ bound fuel n a b c d cs inner :
  exact_input vs at_ bound -> 2 * lenN vs + 2 <= idmax ->
  ((2 * length vs + 4) * (2 * length vs + 4) <= fuel)%nat -> (1 <= bound)%Z ->
  lenN vs = n + 4 -> Permutation [a; b; c; d] [n; n + 1; n + 2; n + 3] ->
  box_corners (at_ a) (at_ b) (at_ c) (at_ d) ->
  (forall v, v < n -> in_box (at_ a) (at_ c) (at_ v)) ->
  (forall e, In e cs -> efrom e < lenN vs /\ eto e < lenN vs /\
     clear_between at_ (lenN vs) (efrom e) (eto e)) ->
  simple_polygon at_ cs -> (exists p, ~ on_constraint at_ cs p /\ (0 < winding at_ cs p)%Z) ->
  inside_vertices at_ (lenN vs) cs inner ->
  exists out, constrained_triangulation_from_2d_vertices fuel 1 vs cs = Ret out /\
    lenN out + 2 = lenN cs + 2 * lenN inner.
Proof. exact (box_count vs at_ bound fuel n a b c d cs inner). Qed.
Print Assumptions C67_polygon_count.

(** The polygon of C66: five sides and one vertex inside, so five triangles. *)
Example C67_case : exists out,
  constrained_triangulation_from_2d_vertices (E := env64) 600 1 (pts lpoly) cs_poly = Ret out /\
  lenN out + 2 = 5 + 2 * 1.
Proof.
  destruct lpoly_corners as (P & B & Hin). destruct lpoly_values as (V1 & V2 & V3 & V4).
  assert (V5 : (0 < winding (zpoint lpoly) cs_poly (4, 4)%Q)%Z) by (rewrite V2; reflexivity).
  exact (C67_polygon_count (E := env64) (pts lpoly) (zpoint lpoly) _ 600 6 6 7 8 9 cs_poly [5] (Input_grid _ _ _ lpoly_grid64)
    lpoly_ids lpoly_fuel ltac:(discriminate) eq_refl P B Hin lpoly_clear lpoly_polygon
    (ex_intro _ _ (conj V1 V5)) lpoly_inner).
Qed.

(** Several simple loops that do not touch, outer loops clockwise and holes counter-clockwise, around
    each point once or not at all: each outer loop takes two triangles off, each hole adds two. *)
Theorem C67_loops_count {E : Env} (vs : list vertex) at_ bound fuel n a b c d cs outer holes inner :
  exact_input vs at_ bound -> 2 * lenN vs + 2 <= idmax ->
  ((2 * length vs + 4) * (2 * length vs + 4) <= fuel)%nat -> (1 <= bound)%Z ->
  lenN vs = n + 4 -> Permutation [a; b; c; d] [n; n + 1; n + 2; n + 3] ->
  box_corners (at_ a) (at_ b) (at_ c) (at_ d) ->
  (forall v, v < n -> in_box (at_ a) (at_ c) (at_ v)) ->
  Permutation cs (concat (outer ++ holes)) ->
  (forall e, In e cs -> efrom e < lenN vs /\ eto e < lenN vs /\
     clear_between at_ (lenN vs) (efrom e) (eto e)) ->
  simple_loops at_ cs -> (forall L, In L (outer ++ holes) -> simple_polygon at_ L) ->
  (forall L, In L outer -> exists p, ~ on_constraint at_ L p /\ (0 < winding at_ L p)%Z) ->
  (forall L, In L holes -> exists p, ~ on_constraint at_ L p /\ (winding at_ L p < 0)%Z) ->
  (forall p, ~ on_constraint at_ cs p -> winding at_ cs p = 0%Z \/ winding at_ cs p = 1%Z) ->
  inside_vertices at_ (lenN vs) cs inner ->
  exists out, constrained_triangulation_from_2d_vertices fuel 1 vs cs = Ret out /\
    lenN out + 2 * lenN outer = lenN cs + 2 * lenN holes + 2 * lenN inner.
Proof.
  intros G Hid Hf Hb Hn Pm Bx Hin. exact (box_loops_count vs at_ bound fuel n a b c d G Hid Hf Hb Hn Pm Bx Hin cs outer holes inner).
Qed.
Print Assumptions C67_loops_count.

(** The square with a hole: eight sides, one outer loop, one hole and no vertex inside, so eight
    triangles. *)
Example C67_case_hole : exists out,
  constrained_triangulation_from_2d_vertices (E := env64) 400 1 (pts lhole) cs_hole = Ret out /\
  lenN out + 2 * 1 = 8 + 2 * 1 + 2 * 0.
Proof.
  destruct lhole_corners as (P & B & Hin). destruct hole_turns as (T1 & T2).
  pose proof (fun e I => let '(conj x (conj y z)) := lhole_clear e I in conj x (conj y (z (sl_proper _ _ lhole_loops e I)))) as Hcs.
  destruct (C66_polygons (E := env64) (pts lhole) (zpoint lhole) _ 400 4 4 5 6 7 cs_hole (Input_grid _ _ _ lhole_grid64)
    lhole_ids lhole_fuel ltac:(discriminate) eq_refl P B Hin Hcs lhole_loops lhole_tests) as (out & _ & C).
  exact (C67_loops_count (E := env64) (pts lhole) (zpoint lhole) _ 400 4 4 5 6 7 cs_hole [hole_outer] [hole_inner] [] (Input_grid _ _ _ lhole_grid64)
    lhole_ids lhole_fuel ltac:(discriminate) eq_refl P B Hin hole_parts Hcs lhole_loops hole_polygons T1 T2 (fun p Nc => proj1 (C p Nc)) hole_no_vertex).
Qed.

(** ** C68 *)

(** The sides of a simple polygon, taken counter-clockwise, in a box: the triangles cover exactly the
    part of the box outside the polygon. *)
Theorem C68_outside {E : Env} (vs : list vertex) at_ bound fuel n a b c d cs :
  exact_input vs at_ bound -> 2 * lenN vs + 2 <= idmax ->
  ((2 * length vs + 4) * (2 * length vs + 4) <= fuel)%nat -> (1 <= bound)%Z ->
  lenN vs = n + 4 -> Permutation [a; b; c; d] [n; n + 1; n + 2; n + 3] ->
  box_corners (at_ a) (at_ b) (at_ c) (at_ d) ->
  (forall v, v < n -> in_box (at_ a) (at_ c) (at_ v)) ->
  (forall e, In e cs -> efrom e < lenN vs /\ eto e < lenN vs /\
     clear_between at_ (lenN vs) (efrom e) (eto e)) ->
  simple_polygon at_ cs -> (exists p, ~ on_constraint at_ cs p /\ (winding at_ cs p < 0)%Z) ->
  exists out, constrained_triangulation_from_2d_vertices fuel 1 vs cs = Ret out /\
    forall p, ~ on_constraint at_ cs p ->
      (winding at_ cs p = 0%Z \/ winding at_ cs p = (-1)%Z) /\
      (covered at_ out p <-> in_box (at_ a) (at_ c) p /\ winding at_ cs p = 0%Z).
Proof.
  intros G Hid Hf Hb Hn Pm Bx Hin Hcs. exact (polygon_outside_box vs at_ bound fuel n a b c d G Hid Hf Hb Hn Pm Bx Hin cs Hcs).
Qed.
Print Assumptions C68_outside.

(** Taking the sides of a simple polygon backwards exchanges what is kept and what is dropped. *)
Theorem C68_reversed {E : Env} (vs : list vertex) at_ bound fuel n a b c d cs :
  exact_input vs at_ bound -> 2 * lenN vs + 2 <= idmax ->
  ((2 * length vs + 4) * (2 * length vs + 4) <= fuel)%nat -> (1 <= bound)%Z ->
  lenN vs = n + 4 -> Permutation [a; b; c; d] [n; n + 1; n + 2; n + 3] ->
  box_corners (at_ a) (at_ b) (at_ c) (at_ d) ->
  (forall v, v < n -> in_box (at_ a) (at_ c) (at_ v)) ->
  (forall e, In e cs -> efrom e < lenN vs /\ eto e < lenN vs /\
     clear_between at_ (lenN vs) (efrom e) (eto e)) ->
  simple_polygon at_ cs -> cs <> [] ->
  exists out out', constrained_triangulation_from_2d_vertices fuel 1 vs cs = Ret out /\
    constrained_triangulation_from_2d_vertices fuel 1 vs (map (fun e => Edge (eto e) (efrom e)) cs) = Ret out' /\
    forall p, ~ on_constraint at_ cs p -> in_box (at_ a) (at_ c) p ->
      (covered at_ out' p <-> ~ covered at_ out p).
Proof. exact (polygon_both vs at_ bound fuel n a b c d cs). Qed.
Print Assumptions C68_reversed.

(** Several simple loops that do not touch, all with the same winding number [z] on their right. *)
Theorem C68_loops {E : Env} (vs : list vertex) at_ bound fuel n a b c d cs z :
  exact_input vs at_ bound -> 2 * lenN vs + 2 <= idmax ->
  ((2 * length vs + 4) * (2 * length vs + 4) <= fuel)%nat -> (1 <= bound)%Z ->
  lenN vs = n + 4 -> Permutation [a; b; c; d] [n; n + 1; n + 2; n + 3] ->
  box_corners (at_ a) (at_ b) (at_ c) (at_ d) ->
  (forall v, v < n -> in_box (at_ a) (at_ c) (at_ v)) ->
  (forall e, In e cs -> efrom e < lenN vs /\ eto e < lenN vs /\
     clear_between at_ (lenN vs) (efrom e) (eto e)) ->
  simple_loops at_ cs -> cs <> [] ->
  (forall e, In e cs -> exists f q, same_loop at_ cs e f /\ sees_side at_ cs q f /\
     (orient (at_ (efrom f)) (at_ (eto f)) q < 0)%Q /\ winding at_ cs q = z) ->
  exists out, constrained_triangulation_from_2d_vertices fuel 1 vs cs = Ret out /\
    forall p, ~ on_constraint at_ cs p ->
      (winding at_ cs p = z \/ winding at_ cs p = (z - 1)%Z) /\
      (covered at_ out p <-> in_box (at_ a) (at_ c) p /\ winding at_ cs p = z).
Proof.
  intros G Hid Hf Hb Hn Pm Bx Hin Hcs. exact (loops_value_box vs at_ bound fuel n a b c d G Hid Hf Hb Hn Pm Bx Hin cs Hcs z).
Qed.
Print Assumptions C68_loops.

(** The polygon of C66 backwards: a point in the notch is covered, a point of the polygon is not. *)
Example C68_case : exists out,
  constrained_triangulation_from_2d_vertices (E := env64) 600 1 (pts lpoly) cs_back = Ret out /\
  covered (zpoint lpoly) out (6, 12)%Q /\ ~ covered (zpoint lpoly) out (4, 4)%Q.
Proof.
  destruct lpoly_corners as (P & B & Hin). destruct back_values as (V1 & V2 & V3 & V4).
  assert (V5 : (winding (zpoint lpoly) cs_back (4, 4)%Q < 0)%Z) by (rewrite V2; reflexivity).
  destruct (C68_outside (E := env64) (pts lpoly) (zpoint lpoly) _ 600 6 6 7 8 9 cs_back (Input_grid _ _ _ lpoly_grid64)
    lpoly_ids lpoly_fuel ltac:(discriminate) eq_refl P B Hin back_clear back_polygon
    (ex_intro _ _ (conj V1 V5))) as (out & Ho & C).
  exists out. split; [exact Ho|]. split; [apply (proj2 (proj2 (C _ V3))); split; [vm_compute; repeat split; discriminate|exact V4]|].
  intros K. apply (proj2 (C _ V1)) in K. destruct K as (_ & K). rewrite V2 in K. discriminate.
Qed.

(** The same polygon both ways, at all points of the box. *)
Example C68_case_both : exists out out',
  constrained_triangulation_from_2d_vertices (E := env64) 600 1 (pts lpoly) cs_poly = Ret out /\
  constrained_triangulation_from_2d_vertices (E := env64) 600 1 (pts lpoly) cs_back = Ret out' /\
  forall p, ~ on_constraint (zpoint lpoly) cs_poly p -> in_box (zpoint lpoly 6) (zpoint lpoly 8) p ->
    (covered (zpoint lpoly) out' p <-> ~ covered (zpoint lpoly) out p).
Proof.
  destruct lpoly_corners as (P & B & Hin).
  exact (C68_reversed (E := env64) (pts lpoly) (zpoint lpoly) _ 600 6 6 7 8 9 cs_poly (Input_grid _ _ _ lpoly_grid64)
    lpoly_ids lpoly_fuel ltac:(discriminate) eq_refl P B Hin lpoly_clear lpoly_polygon ltac:(discriminate)).
Qed.

(** The square with a hole backwards: only the hole is kept. *)
Example C68_case_hole : exists out,
  constrained_triangulation_from_2d_vertices (E := env64) 400 1 (pts lhole) cs_hole_back = Ret out /\
  forall p, ~ on_constraint (zpoint lhole) cs_hole_back p ->
    (winding (zpoint lhole) cs_hole_back p = 0%Z \/ winding (zpoint lhole) cs_hole_back p = (0 - 1)%Z) /\
    (covered (zpoint lhole) out p <-> in_box (zpoint lhole 4) (zpoint lhole 6) p /\ winding (zpoint lhole) cs_hole_back p = 0%Z).
Proof.
  destruct lhole_corners as (P & B & Hin).
  exact (C68_loops (E := env64) (pts lhole) (zpoint lhole) _ 400 4 4 5 6 7 cs_hole_back 0 (Input_grid _ _ _ lhole_grid64)
    lhole_ids lhole_fuel ltac:(discriminate) eq_refl P B Hin hole_back_clear hole_back_loops ltac:(discriminate) hole_back_tests).
Qed.

(** ** C69 *)

(** The sides of a simple polygon, taken clockwise, without a box around it and with any number of
    bins, where the unconstrained result covers the sides: the triangles cover exactly the points the
    polygon turns around. *)
Theorem C69_polygon {E : Env} (vs : list vertex) at_ bound fuel bins dt cs :
  exact_input vs at_ bound ->
  2 * lenN vs + 2 <= idmax -> ((2 * length vs + 4) * (2 * length vs + 4) <= fuel)%nat ->
  1 <= bins -> (Z.of_N bins <= bound)%Z -> triangulation_from_2d_vertices fuel bins vs = Ret dt ->
  (forall e, In e cs -> efrom e < lenN vs /\ eto e < lenN vs /\
     clear_between at_ (lenN vs) (efrom e) (eto e) /\ covers_between at_ dt (efrom e) (eto e)) ->
  simple_polygon at_ cs -> (exists p, ~ on_constraint at_ cs p /\ (0 < winding at_ cs p)%Z) ->
  exists out, constrained_triangulation_from_2d_vertices fuel bins vs cs = Ret out /\
    forall p, ~ on_constraint at_ cs p ->
      (winding at_ cs p = 0%Z \/ winding at_ cs p = 1%Z) /\
      (covered at_ out p <-> winding at_ cs p = 1%Z).
Proof.
  intros G Hid Hf B1 B2 Hd Hcs (SL & One) Pos.
  exact (anywhere_inside vs at_ bound G Hid fuel bins dt cs Hf B1 B2 Hd Hcs SL (Jordan.polygon_inside at_ cs SL One Pos)).
Qed.
Print Assumptions C69_polygon.

(** Several simple loops that do not touch, outer loops clockwise and holes counter-clockwise. *)
Theorem C69_loops {E : Env} (vs : list vertex) at_ bound fuel bins dt cs :
  exact_input vs at_ bound ->
  2 * lenN vs + 2 <= idmax -> ((2 * length vs + 4) * (2 * length vs + 4) <= fuel)%nat ->
  1 <= bins -> (Z.of_N bins <= bound)%Z -> triangulation_from_2d_vertices fuel bins vs = Ret dt ->
  (forall e, In e cs -> efrom e < lenN vs /\ eto e < lenN vs /\
     clear_between at_ (lenN vs) (efrom e) (eto e) /\ covers_between at_ dt (efrom e) (eto e)) ->
  simple_loops at_ cs ->
  (forall e, In e cs -> exists f q, same_loop at_ cs e f /\ sees_side at_ cs q f /\
     (orient (at_ (efrom f)) (at_ (eto f)) q < 0)%Q /\ winding at_ cs q = 1%Z) ->
  exists out, constrained_triangulation_from_2d_vertices fuel bins vs cs = Ret out /\
    forall p, ~ on_constraint at_ cs p ->
      (winding at_ cs p = 0%Z \/ winding at_ cs p = 1%Z) /\
      (covered at_ out p <-> winding at_ cs p = 1%Z).
Proof.
  intros G Hid Hf B1 B2 Hd Hcs SL Tests.
  exact (anywhere_inside vs at_ bound G Hid fuel bins dt cs Hf B1 B2 Hd Hcs SL (Jordan.loops_inside at_ cs SL Tests)).
Qed.
Print Assumptions C69_loops.

(** Loops with any winding number [z] on their right, clockwise or not: a point in a triangle has this
    winding number, and each point with it that the unconstrained result covers is in a triangle. *)
Theorem C69_value {E : Env} (vs : list vertex) at_ bound fuel bins dt cs z :
  exact_input vs at_ bound ->
  2 * lenN vs + 2 <= idmax -> ((2 * length vs + 4) * (2 * length vs + 4) <= fuel)%nat ->
  1 <= bins -> (Z.of_N bins <= bound)%Z -> triangulation_from_2d_vertices fuel bins vs = Ret dt ->
  (forall e, In e cs -> efrom e < lenN vs /\ eto e < lenN vs /\
     clear_between at_ (lenN vs) (efrom e) (eto e) /\ covers_between at_ dt (efrom e) (eto e)) ->
  simple_loops at_ cs -> cs <> [] ->
  (forall e, In e cs -> exists f q, same_loop at_ cs e f /\ sees_side at_ cs q f /\
     (orient (at_ (efrom f)) (at_ (eto f)) q < 0)%Q /\ winding at_ cs q = z) ->
  exists out, constrained_triangulation_from_2d_vertices fuel bins vs cs = Ret out /\
    forall p, ~ on_constraint at_ cs p ->
      (winding at_ cs p = z \/ winding at_ cs p = (z - 1)%Z) /\
      (covered at_ out p -> winding at_ cs p = z) /\
      (covered at_ dt p -> winding at_ cs p = z -> covered at_ out p).
Proof.
  intros G Hid Hf B1 B2 Hd Hcs SL NE Tests.
  exact (anywhere_loops_value vs at_ bound G Hid fuel bins dt cs Hf B1 B2 Hd Hcs z SL NE Tests).
Qed.
Print Assumptions C69_value.

(** On a grid, the number of triangles of the polygon: its sides less two, plus twice the number of
    places of vertices strictly inside. *)
Theorem C69_polygon_count {E : Env} (vs : list vertex) l bound fuel bins dt cs inner :
  on_grid vs l bound ->
  2 * lenN vs + 2 <= idmax -> ((2 * length vs + 4) * (2 * length vs + 4) <= fuel)%nat ->
  1 <= bins -> (Z.of_N bins <= bound)%Z -> triangulation_from_2d_vertices fuel bins vs = Ret dt ->
  (forall e, In e cs -> efrom e < lenN vs /\ eto e < lenN vs /\
     clear_between (zpoint l) (lenN vs) (efrom e) (eto e) /\ covers_between (zpoint l) dt (efrom e) (eto e)) ->
  simple_polygon (zpoint l) cs -> (exists p, ~ on_constraint (zpoint l) cs p /\ (0 < winding (zpoint l) cs p)%Z) ->
  inside_vertices (zpoint l) (lenN vs) cs inner ->
  exists out, constrained_triangulation_from_2d_vertices fuel bins vs cs = Ret out /\
    lenN out + 2 = lenN cs + 2 * lenN inner.
Proof.
  intros G Hid Hf B1 B2 Hd Hcs. exact (anywhere_count vs l bound G Hid fuel bins dt cs Hf B1 B2 Hd Hcs inner).
Qed.
Print Assumptions C69_polygon_count.

(** On a grid, the number of triangles of an area with several outer loops and holes. *)
Theorem C69_loops_count {E : Env} (vs : list vertex) l bound fuel bins dt cs outer holes inner :
  on_grid vs l bound ->
  2 * lenN vs + 2 <= idmax -> ((2 * length vs + 4) * (2 * length vs + 4) <= fuel)%nat ->
  1 <= bins -> (Z.of_N bins <= bound)%Z -> triangulation_from_2d_vertices fuel bins vs = Ret dt ->
  (forall e, In e cs -> efrom e < lenN vs /\ eto e < lenN vs /\
     clear_between (zpoint l) (lenN vs) (efrom e) (eto e) /\ covers_between (zpoint l) dt (efrom e) (eto e)) ->
  Permutation cs (concat (outer ++ holes)) -> cs <> [] -> simple_loops (zpoint l) cs ->
  (forall L, In L (outer ++ holes) -> simple_polygon (zpoint l) L) ->
  (forall L, In L outer -> exists p, ~ on_constraint (zpoint l) L p /\ (0 < winding (zpoint l) L p)%Z) ->
  (forall L, In L holes -> exists p, ~ on_constraint (zpoint l) L p /\ (winding (zpoint l) L p < 0)%Z) ->
  (forall p, ~ on_constraint (zpoint l) cs p -> winding (zpoint l) cs p = 0%Z \/ winding (zpoint l) cs p = 1%Z) ->
  inside_vertices (zpoint l) (lenN vs) cs inner ->
  exists out, constrained_triangulation_from_2d_vertices fuel bins vs cs = Ret out /\
    lenN out + 2 * lenN outer = lenN cs + 2 * lenN holes + 2 * lenN inner.
Proof.
  intros G Hid Hf B1 B2 Hd Hcs. exact (anywhere_loops_count vs l bound G Hid fuel bins dt cs Hf B1 B2 Hd Hcs outer holes inner).
Qed.
Print Assumptions C69_loops_count.

(** A polygon that is not convex, without a box, with two bins: one of its sides crosses an edge of the
    unconstrained result. A point of it is covered, a point in its notch is not. *)
Example C69_case : exists out,
  constrained_triangulation_from_2d_vertices (E := env64) 400 2 (pts lfree) cs_free = Ret out /\
  covered (zpoint lfree) out (4, 4)%Q /\ ~ covered (zpoint lfree) out (8, 14)%Q.
Proof.
  destruct lfree_values as (V1 & V2 & V3 & V4).
  assert (V5 : (0 < winding (zpoint lfree) cs_free (4, 4)%Q)%Z) by (rewrite V2; reflexivity).
  destruct (C69_polygon (E := env64) (pts lfree) (zpoint lfree) _ 400 2 dt_free cs_free (Input_grid _ _ _ lfree_grid64)
    lfree_ids lfree_fuel ltac:(discriminate) ltac:(discriminate) lfree_dt lfree_clear lfree_polygon
    (ex_intro _ _ (conj V1 V5))) as (out & Ho & C).
  exists out. split; [exact Ho|]. split; [exact (proj2 (proj2 (C _ V1)) V2)|].
  intros K. apply (proj2 (C _ V3)) in K. rewrite V4 in K. discriminate.
Qed.

(** It has five sides and one vertex inside, so five triangles. *)
Example C69_case_count : exists out,
  constrained_triangulation_from_2d_vertices (E := env64) 400 2 (pts lfree) cs_free = Ret out /\
  lenN out + 2 = 5 + 2 * 1.
Proof.
  destruct lfree_values as (V1 & V2 & V3 & V4).
  assert (V5 : (0 < winding (zpoint lfree) cs_free (4, 4)%Q)%Z) by (rewrite V2; reflexivity).
  exact (C69_polygon_count (E := env64) (pts lfree) lfree _ 400 2 dt_free cs_free [5] lfree_grid64
    lfree_ids lfree_fuel ltac:(discriminate) ltac:(discriminate) lfree_dt lfree_clear lfree_polygon
    (ex_intro _ _ (conj V1 V5)) lfree_inner).
Qed.

(** The square with a hole, with two bins. *)
Example C69_case_hole : exists out,
  constrained_triangulation_from_2d_vertices (E := env64) 400 2 (pts lhole) cs_hole = Ret out /\
  lenN out + 2 * 1 = 8 + 2 * 1 + 2 * 0 /\
  forall p, ~ on_constraint (zpoint lhole) cs_hole p ->
    (covered (zpoint lhole) out p <-> winding (zpoint lhole) cs_hole p = 1%Z).
Proof.
  destruct hole_turns as (T1 & T2).
  destruct (C69_loops (E := env64) (pts lhole) (zpoint lhole) _ 400 2 dt_hole cs_hole (Input_grid _ _ _ lhole_grid64)
    lhole_ids lhole_fuel ltac:(discriminate) ltac:(discriminate) lhole_dt lhole_sides lhole_loops lhole_tests) as (out & R & C).
  destruct (C69_loops_count (E := env64) (pts lhole) lhole _ 400 2 dt_hole cs_hole [hole_outer] [hole_inner] [] lhole_grid64
    lhole_ids lhole_fuel ltac:(discriminate) ltac:(discriminate) lhole_dt lhole_sides hole_parts ltac:(discriminate) lhole_loops
    hole_polygons T1 T2 (fun p Nc => proj1 (C p Nc)) hole_no_vertex) as (out' & R' & L).
  exists out. split; [exact R|]. split; [|intros p Nc; exact (proj2 (C p Nc))].
  assert (Q : out' = out) by congruence. subst out'. exact L.
Qed.

(** ** C70 *)

(** The sides of a simple polygon, taken clockwise, that the unconstrained result covers: the border of
    the result consists of exactly these sides, and the areas of the triangles add up to the area of
    the polygon. *)
Theorem C70_polygon {E : Env} (vs : list vertex) at_ bound fuel bins dt cs :
  exact_input vs at_ bound ->
  2 * lenN vs + 2 <= idmax -> ((2 * length vs + 4) * (2 * length vs + 4) <= fuel)%nat ->
  1 <= bins -> (Z.of_N bins <= bound)%Z -> triangulation_from_2d_vertices fuel bins vs = Ret dt ->
  (forall e, In e cs -> efrom e < lenN vs /\ eto e < lenN vs /\
     clear_between at_ (lenN vs) (efrom e) (eto e) /\ covers_between at_ dt (efrom e) (eto e)) ->
  simple_polygon at_ cs -> (exists p, ~ on_constraint at_ cs p /\ (0 < winding at_ cs p)%Z) ->
  exists out, constrained_triangulation_from_2d_vertices fuel bins vs cs = Ret out /\
    border_is at_ out cs /\ (total_area at_ out == enclosed_area at_ cs)%Q.
Proof.
  intros G Hid Hf B1 B2 Hd Hcs (SL & One) Pos.
  exact (anywhere_border vs at_ bound G Hid fuel bins dt cs Hf B1 B2 Hd Hcs SL (Jordan.polygon_inside at_ cs SL One Pos)).
Qed.
Print Assumptions C70_polygon.

(** Several simple loops that do not touch, outer loops clockwise and holes counter-clockwise. *)
Theorem C70_loops {E : Env} (vs : list vertex) at_ bound fuel bins dt cs :
  exact_input vs at_ bound ->
  2 * lenN vs + 2 <= idmax -> ((2 * length vs + 4) * (2 * length vs + 4) <= fuel)%nat ->
  1 <= bins -> (Z.of_N bins <= bound)%Z -> triangulation_from_2d_vertices fuel bins vs = Ret dt ->
  (forall e, In e cs -> efrom e < lenN vs /\ eto e < lenN vs /\
     clear_between at_ (lenN vs) (efrom e) (eto e) /\ covers_between at_ dt (efrom e) (eto e)) ->
  simple_loops at_ cs ->
  (forall e, In e cs -> exists f q, same_loop at_ cs e f /\ sees_side at_ cs q f /\
     (orient (at_ (efrom f)) (at_ (eto f)) q < 0)%Q /\ winding at_ cs q = 1%Z) ->
  exists out, constrained_triangulation_from_2d_vertices fuel bins vs cs = Ret out /\
    border_is at_ out cs /\ (total_area at_ out == enclosed_area at_ cs)%Q.
Proof.
  intros G Hid Hf B1 B2 Hd Hcs SL Tests.
  exact (anywhere_border vs at_ bound G Hid fuel bins dt cs Hf B1 B2 Hd Hcs SL (Jordan.loops_inside at_ cs SL Tests)).
Qed.
Print Assumptions C70_loops.

(** The same in a box, where nothing is assumed of the unconstrained result. *)
Theorem C70_polygon_boxed {E : Env} (vs : list vertex) at_ bound fuel n a b c d cs :
  exact_input vs at_ bound -> 2 * lenN vs + 2 <= idmax ->
  ((2 * length vs + 4) * (2 * length vs + 4) <= fuel)%nat -> (1 <= bound)%Z ->
  lenN vs = n + 4 -> Permutation [a; b; c; d] [n; n + 1; n + 2; n + 3] ->
  box_corners (at_ a) (at_ b) (at_ c) (at_ d) ->
  (forall v, v < n -> in_box (at_ a) (at_ c) (at_ v)) ->
  (forall e, In e cs -> efrom e < lenN vs /\ eto e < lenN vs /\
     clear_between at_ (lenN vs) (efrom e) (eto e)) ->
  simple_polygon at_ cs -> (exists p, ~ on_constraint at_ cs p /\ (0 < winding at_ cs p)%Z) ->
  exists out, constrained_triangulation_from_2d_vertices fuel 1 vs cs = Ret out /\
    border_is at_ out cs /\ (total_area at_ out == enclosed_area at_ cs)%Q.
Proof.
  intros G Hid Hf Hb Hn Pm Bx Hin Hcs (SL & One) Pos.
  exact (box_border vs at_ bound fuel n a b c d cs G Hid Hf Hb Hn Pm Bx Hin Hcs SL (Jordan.polygon_inside at_ cs SL One Pos)).
Qed.
Print Assumptions C70_polygon_boxed.

Theorem C70_loops_boxed {E : Env} (vs : list vertex) at_ bound fuel n a b c d cs :
  exact_input vs at_ bound -> 2 * lenN vs + 2 <= idmax ->
  ((2 * length vs + 4) * (2 * length vs + 4) <= fuel)%nat -> (1 <= bound)%Z ->
  lenN vs = n + 4 -> Permutation [a; b; c; d] [n; n + 1; n + 2; n + 3] ->
  box_corners (at_ a) (at_ b) (at_ c) (at_ d) ->
  (forall v, v < n -> in_box (at_ a) (at_ c) (at_ v)) ->
  (forall e, In e cs -> efrom e < lenN vs /\ eto e < lenN vs /\
     clear_between at_ (lenN vs) (efrom e) (eto e)) ->
  simple_loops at_ cs ->
  (forall e, In e cs -> exists f q, same_loop at_ cs e f /\ sees_side at_ cs q f /\
     (orient (at_ (efrom f)) (at_ (eto f)) q < 0)%Q /\ winding at_ cs q = 1%Z) ->
  exists out, constrained_triangulation_from_2d_vertices fuel 1 vs cs = Ret out /\
    border_is at_ out cs /\ (total_area at_ out == enclosed_area at_ cs)%Q.
Proof.
  intros G Hid Hf Hb Hn Pm Bx Hin Hcs SL Tests.
  exact (box_border vs at_ bound fuel n a b c d cs G Hid Hf Hb Hn Pm Bx Hin Hcs SL (Jordan.loops_inside at_ cs SL Tests)).
Qed.
Print Assumptions C70_loops_boxed.

(** The polygon of C69. *)
Example C70_case : exists out,
  constrained_triangulation_from_2d_vertices (E := env64) 400 2 (pts lfree) cs_free = Ret out /\
  border_is (zpoint lfree) out cs_free /\ (total_area (zpoint lfree) out == 132)%Q.
Proof.
  destruct lfree_values as (V1 & V2 & V3 & V4).
  assert (V5 : (0 < winding (zpoint lfree) cs_free (4, 4)%Q)%Z) by (rewrite V2; reflexivity).
  destruct (C70_polygon (E := env64) (pts lfree) (zpoint lfree) _ 400 2 dt_free cs_free (Input_grid _ _ _ lfree_grid64)
    lfree_ids lfree_fuel ltac:(discriminate) ltac:(discriminate) lfree_dt lfree_clear lfree_polygon
    (ex_intro _ _ (conj V1 V5))) as (out & Ho & B & A).
  exists out. split; [exact Ho|]. split; [exact B|]. rewrite A. vm_compute. reflexivity.
Qed.

(** The square of side 16 with a square hole of side 4, with two bins. *)
Example C70_case_hole : exists out,
  constrained_triangulation_from_2d_vertices (E := env64) 400 2 (pts lhole) cs_hole = Ret out /\
  border_is (zpoint lhole) out cs_hole /\ (total_area (zpoint lhole) out == 16 * 16 - 4 * 4)%Q.
Proof.
  destruct (C70_loops (E := env64) (pts lhole) (zpoint lhole) _ 400 2 dt_hole cs_hole (Input_grid _ _ _ lhole_grid64)
    lhole_ids lhole_fuel ltac:(discriminate) ltac:(discriminate) lhole_dt lhole_sides lhole_loops lhole_tests) as (out & R & B & A).
  exists out. split; [exact R|]. split; [exact B|]. rewrite A. vm_compute. reflexivity.
Qed.

(** The polygon of C66, in its box. *)
Example C70_case_box : exists out,
  constrained_triangulation_from_2d_vertices (E := env64) 600 1 (pts lpoly) cs_poly = Ret out /\
  border_is (zpoint lpoly) out cs_poly /\ (total_area (zpoint lpoly) out == 80)%Q.
Proof.
  destruct lpoly_corners as (P & B & Hin). destruct lpoly_values as (V1 & V2 & V3 & V4).
  assert (V5 : (0 < winding (zpoint lpoly) cs_poly (4, 4)%Q)%Z) by (rewrite V2; reflexivity).
  destruct (C70_polygon_boxed (E := env64) (pts lpoly) (zpoint lpoly) _ 600 6 6 7 8 9 cs_poly (Input_grid _ _ _ lpoly_grid64)
    lpoly_ids lpoly_fuel ltac:(discriminate) eq_refl P B Hin lpoly_clear lpoly_polygon
    (ex_intro _ _ (conj V1 V5))) as (out & Ho & Bo & A).
  exists out. split; [exact Ho|]. split; [exact Bo|]. rewrite A. vm_compute. reflexivity.
Qed.

(** ** C71 *)

(** Vertices in a box whose corners are the last vertices, one bin: the areas of the triangles add up
    to the area of the box. *)
Theorem C71_box {E : Env} (vs : list vertex) at_ bound fuel n a b c d :
  exact_input vs at_ bound -> 2 * lenN vs + 2 <= idmax -> (4 * length vs + 12 <= fuel)%nat -> (1 <= bound)%Z ->
  lenN vs = n + 4 -> Permutation [a; b; c; d] [n; n + 1; n + 2; n + 3] ->
  box_corners (at_ a) (at_ b) (at_ c) (at_ d) ->
  (forall v, v < n -> in_box (at_ a) (at_ c) (at_ v)) ->
  exists out, triangulation_from_2d_vertices fuel 1 vs = Ret out /\
    (total_area at_ out == box_area (at_ a) (at_ c))%Q.
Proof. intros G Hid Hf Hb Hn Pm Bx Hin. exact (area_dt vs at_ bound fuel n a b c d G Hid Hb Hn Pm Bx Hin Hf). Qed.
Print Assumptions C71_box.

(** A clockwise simple polygon inside the box, and the same polygon taken backwards: the areas of the
    two results are the area of the polygon and that of the rest of the box. *)
Theorem C71_polygon {E : Env} (vs : list vertex) at_ bound fuel n a b c d cs :
  exact_input vs at_ bound -> 2 * lenN vs + 2 <= idmax ->
  ((2 * length vs + 4) * (2 * length vs + 4) <= fuel)%nat -> (1 <= bound)%Z ->
  lenN vs = n + 4 -> Permutation [a; b; c; d] [n; n + 1; n + 2; n + 3] ->
  box_corners (at_ a) (at_ b) (at_ c) (at_ d) ->
  (forall v, v < n -> in_box (at_ a) (at_ c) (at_ v)) ->
  (forall e, In e cs -> efrom e < lenN vs /\ eto e < lenN vs /\
     clear_between at_ (lenN vs) (efrom e) (eto e)) ->
  (forall e, In e cs -> in_open_box (at_ a) (at_ c) (at_ (efrom e)) /\ in_open_box (at_ a) (at_ c) (at_ (eto e))) ->
  simple_polygon at_ cs -> (exists p, ~ on_constraint at_ cs p /\ (0 < winding at_ cs p)%Z) ->
  exists out out', constrained_triangulation_from_2d_vertices fuel 1 vs cs = Ret out /\
    constrained_triangulation_from_2d_vertices fuel 1 vs (map (fun e => Edge (eto e) (efrom e)) cs) = Ret out' /\
    (total_area at_ out == enclosed_area at_ cs /\
     total_area at_ out' == box_area (at_ a) (at_ c) - enclosed_area at_ cs)%Q.
Proof.
  intros G Hid Hf Hb Hn Pm Bx Hin Hcs Hop (SL & One) Pos.
  exact (area_both vs at_ bound fuel n a b c d G Hid Hf Hb Hn Pm Bx Hin cs Hcs Hop SL
    ltac:(destruct Pos as (p & _ & Pos); intros ->; discriminate Pos) (Jordan.polygon_inside at_ cs SL One Pos)).
Qed.
Print Assumptions C71_polygon.

(** Several simple loops that do not touch, outer loops clockwise and holes counter-clockwise. *)
Theorem C71_loops {E : Env} (vs : list vertex) at_ bound fuel n a b c d cs :
  exact_input vs at_ bound -> 2 * lenN vs + 2 <= idmax ->
  ((2 * length vs + 4) * (2 * length vs + 4) <= fuel)%nat -> (1 <= bound)%Z ->
  lenN vs = n + 4 -> Permutation [a; b; c; d] [n; n + 1; n + 2; n + 3] ->
  box_corners (at_ a) (at_ b) (at_ c) (at_ d) ->
  (forall v, v < n -> in_box (at_ a) (at_ c) (at_ v)) ->
  (forall e, In e cs -> efrom e < lenN vs /\ eto e < lenN vs /\
     clear_between at_ (lenN vs) (efrom e) (eto e)) ->
  (forall e, In e cs -> in_open_box (at_ a) (at_ c) (at_ (efrom e)) /\ in_open_box (at_ a) (at_ c) (at_ (eto e))) ->
  simple_loops at_ cs -> cs <> [] ->
  (forall e, In e cs -> exists f q, same_loop at_ cs e f /\ sees_side at_ cs q f /\
     (orient (at_ (efrom f)) (at_ (eto f)) q < 0)%Q /\ winding at_ cs q = 1%Z) ->
  exists out out', constrained_triangulation_from_2d_vertices fuel 1 vs cs = Ret out /\
    constrained_triangulation_from_2d_vertices fuel 1 vs (map (fun e => Edge (eto e) (efrom e)) cs) = Ret out' /\
    (total_area at_ out == enclosed_area at_ cs /\
     total_area at_ out' == box_area (at_ a) (at_ c) - enclosed_area at_ cs)%Q.
Proof.
  intros G Hid Hf Hb Hn Pm Bx Hin Hcs Hop SL NE Tests.
  exact (area_both vs at_ bound fuel n a b c d G Hid Hf Hb Hn Pm Bx Hin cs Hcs Hop SL NE (Jordan.loops_inside at_ cs SL Tests)).
Qed.
Print Assumptions C71_loops.

(** Vertices with duplicates, some of them on the sides of the box. *)
Example C71_case : exists out, dt64 100 1 lbox = Ret out /\ (total_area (zpoint lbox) out == 32 * 16)%Q.
Proof.
  assert (K : (100 >= 4 * length (pts lbox) + 12)%nat) by (apply Nat.leb_le; reflexivity).
  destruct lbox_corners as (P & B).
  destruct (C71_box (E := env64) (pts lbox) (zpoint lbox) _ 100 6 7 9 6 8 (Input_grid _ _ _ lbox_grid64) lbox_ids K
           ltac:(discriminate) eq_refl P B lbox_inside) as (out & R & A).
  exists out. split; [exact R|]. rewrite A. vm_compute. reflexivity.
Qed.

Example C71_case_polygon : exists out out',
  constrained_triangulation_from_2d_vertices (E := env64) 600 1 (pts lpoly) cs_poly = Ret out /\
  constrained_triangulation_from_2d_vertices (E := env64) 600 1 (pts lpoly) cs_back = Ret out' /\
  (total_area (zpoint lpoly) out == 80 /\ total_area (zpoint lpoly) out' == 16 * 16 - 80)%Q.
Proof.
  destruct lpoly_corners as (P & B & Hin). destruct lpoly_values as (V1 & V2 & V3 & V4).
  assert (V5 : (0 < winding (zpoint lpoly) cs_poly (4, 4)%Q)%Z) by (rewrite V2; reflexivity).
  destruct (C71_polygon (E := env64) (pts lpoly) (zpoint lpoly) _ 600 6 6 7 8 9 cs_poly (Input_grid _ _ _ lpoly_grid64)
    lpoly_ids lpoly_fuel ltac:(discriminate) eq_refl P B Hin lpoly_clear lpoly_open lpoly_polygon
    (ex_intro _ _ (conj V1 V5))) as (out & out' & R & R' & A & A').
  exists out, out'. split; [exact R|]. split; [exact R'|]. rewrite A, A'. vm_compute. split; reflexivity.
Qed.

(** A square with a hole, away from the sides of the box. *)
Example C71_case_frame : exists out out',
  constrained_triangulation_from_2d_vertices (E := env64) 800 1 (pts lframe) cs_frame = Ret out /\
  constrained_triangulation_from_2d_vertices (E := env64) 800 1 (pts lframe) (map (fun e => Edge (eto e) (efrom e)) cs_frame) = Ret out' /\
  (total_area (zpoint lframe) out == 12 * 12 - 6 * 6 /\ total_area (zpoint lframe) out' == 16 * 16 - 12 * 12 + 6 * 6)%Q.
Proof.
  destruct lframe_corners as (P & B & Hin).
  destruct (C71_loops (E := env64) (pts lframe) (zpoint lframe) _ 800 8 8 9 10 11 cs_frame (Input_grid _ _ _ lframe_grid64)
    lframe_ids lframe_fuel ltac:(discriminate) eq_refl P B Hin lframe_clear lframe_open lframe_loops ltac:(discriminate) lframe_tests)
    as (out & out' & R & R' & A & A').
  exists out, out'. split; [exact R|]. split; [exact R'|]. rewrite A, A'. vm_compute. split; reflexivity.
Qed.

(** ** C72 *)

(** The vertices used in the result for a clockwise simple polygon, up to duplicates: those at its
    corners and those strictly inside, no others. *)
Theorem C72_polygon {E : Env} (vs : list vertex) at_ bound fuel bins dt cs :
  exact_input vs at_ bound ->
  2 * lenN vs + 2 <= idmax -> ((2 * length vs + 4) * (2 * length vs + 4) <= fuel)%nat ->
  1 <= bins -> (Z.of_N bins <= bound)%Z -> triangulation_from_2d_vertices fuel bins vs = Ret dt ->
  (forall e, In e cs -> efrom e < lenN vs /\ eto e < lenN vs /\
     clear_between at_ (lenN vs) (efrom e) (eto e) /\ covers_between at_ dt (efrom e) (eto e)) ->
  simple_polygon at_ cs -> (exists p, ~ on_constraint at_ cs p /\ (0 < winding at_ cs p)%Z) ->
  exists out, constrained_triangulation_from_2d_vertices fuel bins vs cs = Ret out /\
    forall v, v < lenN vs ->
      ((exists t c, In t out /\ tri_corner t c /\ same_place (at_ c) (at_ v)) <->
       ((exists e, In e cs /\ same_place (at_ (efrom e)) (at_ v)) \/
        (~ on_constraint at_ cs (at_ v) /\ winding at_ cs (at_ v) = 1%Z))).
Proof.
  intros G Hid Hf B1 B2 Hd Hcs (SL & One) Pos.
  exact (anywhere_used vs at_ bound G Hid fuel bins dt cs Hf B1 B2 Hd Hcs SL (Jordan.polygon_inside at_ cs SL One Pos)).
Qed.
Print Assumptions C72_polygon.

(** The same for several simple loops that do not touch, with holes. *)
Theorem C72_loops {E : Env} (vs : list vertex) at_ bound fuel bins dt cs :
  exact_input vs at_ bound ->
  2 * lenN vs + 2 <= idmax -> ((2 * length vs + 4) * (2 * length vs + 4) <= fuel)%nat ->
  1 <= bins -> (Z.of_N bins <= bound)%Z -> triangulation_from_2d_vertices fuel bins vs = Ret dt ->
  (forall e, In e cs -> efrom e < lenN vs /\ eto e < lenN vs /\
     clear_between at_ (lenN vs) (efrom e) (eto e) /\ covers_between at_ dt (efrom e) (eto e)) ->
  simple_loops at_ cs ->
  (forall e, In e cs -> exists f q, same_loop at_ cs e f /\ sees_side at_ cs q f /\
     (orient (at_ (efrom f)) (at_ (eto f)) q < 0)%Q /\ winding at_ cs q = 1%Z) ->
  exists out, constrained_triangulation_from_2d_vertices fuel bins vs cs = Ret out /\
    forall v, v < lenN vs ->
      ((exists t c, In t out /\ tri_corner t c /\ same_place (at_ c) (at_ v)) <->
       ((exists e, In e cs /\ same_place (at_ (efrom e)) (at_ v)) \/
        (~ on_constraint at_ cs (at_ v) /\ winding at_ cs (at_ v) = 1%Z))).
Proof.
  intros G Hid Hf B1 B2 Hd Hcs SL Tests.
  exact (anywhere_used vs at_ bound G Hid fuel bins dt cs Hf B1 B2 Hd Hcs SL (Jordan.loops_inside at_ cs SL Tests)).
Qed.
Print Assumptions C72_loops.

(** The same in a box, where nothing is assumed of the unconstrained result. *)
Theorem C72_polygon_boxed {E : Env} (vs : list vertex) at_ bound fuel n a b c d cs :
  exact_input vs at_ bound -> 2 * lenN vs + 2 <= idmax ->
  ((2 * length vs + 4) * (2 * length vs + 4) <= fuel)%nat -> (1 <= bound)%Z ->
  lenN vs = n + 4 -> Permutation [a; b; c; d] [n; n + 1; n + 2; n + 3] ->
  box_corners (at_ a) (at_ b) (at_ c) (at_ d) ->
  (forall v, v < n -> in_box (at_ a) (at_ c) (at_ v)) ->
  (forall e, In e cs -> efrom e < lenN vs /\ eto e < lenN vs /\
     clear_between at_ (lenN vs) (efrom e) (eto e)) ->
  simple_polygon at_ cs -> (exists p, ~ on_constraint at_ cs p /\ (0 < winding at_ cs p)%Z) ->
  exists out, constrained_triangulation_from_2d_vertices fuel 1 vs cs = Ret out /\
    forall v, v < lenN vs ->
      ((exists t w, In t out /\ tri_corner t w /\ same_place (at_ w) (at_ v)) <->
       ((exists e, In e cs /\ same_place (at_ (efrom e)) (at_ v)) \/
        (~ on_constraint at_ cs (at_ v) /\ winding at_ cs (at_ v) = 1%Z))).
Proof.
  intros G Hid Hf Hb Hn Pm Bx Hin Hcs (SL & One) Pos.
  exact (box_used vs at_ bound fuel n a b c d cs G Hid Hf Hb Hn Pm Bx Hin Hcs SL (Jordan.polygon_inside at_ cs SL One Pos)).
Qed.
Print Assumptions C72_polygon_boxed.

(** In the case of C69, vertex 5 is inside the polygon and vertex 6 is outside. *)
Example C72_case : exists out,
  constrained_triangulation_from_2d_vertices (E := env64) 400 2 (pts lfree) cs_free = Ret out /\
  (exists t c, In t out /\ tri_corner t c /\ same_place (zpoint lfree c) (zpoint lfree 5)) /\
  ~ (exists t c, In t out /\ tri_corner t c /\ same_place (zpoint lfree c) (zpoint lfree 6)).
Proof.
  destruct lfree_values as (V1 & V2 & V3 & V4).
  assert (V5 : (0 < winding (zpoint lfree) cs_free (4, 4)%Q)%Z) by (rewrite V2; reflexivity).
  destruct (C72_polygon (E := env64) (pts lfree) (zpoint lfree) _ 400 2 dt_free cs_free (Input_grid _ _ _ lfree_grid64)
    lfree_ids lfree_fuel ltac:(discriminate) ltac:(discriminate) lfree_dt lfree_clear lfree_polygon
    (ex_intro _ _ (conj V1 V5))) as (out & Ho & U).
  exists out. split; [exact Ho|]. split.
  - apply (proj2 (U 5 eq_refl)). right. destruct (iv_inside _ _ _ _ lfree_inner 5 (or_introl eq_refl)) as (_ & K & W). split; [exact K|exact W].
  - intros K. apply (proj1 (U 6 eq_refl)) in K. destruct K as [(e & I & (P & _))|(_ & W)].
    + cbn [cs_free In] in I. decompose [or] I; try contradiction; subst e; vm_compute in P; discriminate P.
    + vm_compute in W. discriminate W.
Qed.

Example C72_case_box : exists out,
  constrained_triangulation_from_2d_vertices (E := env64) 600 1 (pts lpoly) cs_poly = Ret out /\
  forall v, v < 10 ->
    ((exists t w, In t out /\ tri_corner t w /\ same_place (zpoint lpoly w) (zpoint lpoly v)) <->
     ((exists e, In e cs_poly /\ same_place (zpoint lpoly (efrom e)) (zpoint lpoly v)) \/
      (~ on_constraint (zpoint lpoly) cs_poly (zpoint lpoly v) /\ winding (zpoint lpoly) cs_poly (zpoint lpoly v) = 1%Z))).
Proof.
  destruct lpoly_corners as (P & B & Hin). destruct lpoly_values as (V1 & V2 & V3 & V4).
  assert (V5 : (0 < winding (zpoint lpoly) cs_poly (4, 4)%Q)%Z) by (rewrite V2; reflexivity).
  exact (C72_polygon_boxed (E := env64) (pts lpoly) (zpoint lpoly) _ 600 6 6 7 8 9 cs_poly (Input_grid _ _ _ lpoly_grid64)
    lpoly_ids lpoly_fuel ltac:(discriminate) eq_refl P B Hin lpoly_clear lpoly_polygon (ex_intro _ _ (conj V1 V5))).
Qed.

(** The square with a hole: all eight vertices are used. *)
Example C72_case_hole : exists out,
  constrained_triangulation_from_2d_vertices (E := env64) 400 2 (pts lhole) cs_hole = Ret out /\
  forall e, In e cs_hole -> exists t c, In t out /\ tri_corner t c /\ same_place (zpoint lhole c) (zpoint lhole (efrom e)).
Proof.
  destruct (C72_loops (E := env64) (pts lhole) (zpoint lhole) _ 400 2 dt_hole cs_hole (Input_grid _ _ _ lhole_grid64)
    lhole_ids lhole_fuel ltac:(discriminate) ltac:(discriminate) lhole_dt lhole_sides lhole_loops lhole_tests) as (out & R & U).
  exists out. split; [exact R|]. intros e I. destruct (lhole_clear e I) as (L & _). apply (proj2 (U (efrom e) L)). left. exists e.
  split; [exact I|]. split; reflexivity.
Qed.

(** ** C73 *)

(** Clockwise simple polygons side by side: they may have corners and whole sides in common, but do not
    overlap.  The triangles cover exactly the points inside one of the polygons. *)
Theorem C73_tiles {E : Env} (vs : list vertex) at_ bound fuel bins dt polys :
  exact_input vs at_ bound ->
  2 * lenN vs + 2 <= idmax -> ((2 * length vs + 4) * (2 * length vs + 4) <= fuel)%nat ->
  1 <= bins -> (Z.of_N bins <= bound)%Z -> triangulation_from_2d_vertices fuel bins vs = Ret dt ->
  (forall e, In e (concat polys) -> efrom e < lenN vs /\ eto e < lenN vs /\
     clear_between at_ (lenN vs) (efrom e) (eto e) /\ covers_between at_ dt (efrom e) (eto e)) ->
  tiles at_ polys ->
  exists out, constrained_triangulation_from_2d_vertices fuel bins vs (concat polys) = Ret out /\
    forall p, ~ on_constraint at_ (concat polys) p ->
      (covered at_ out p <-> exists P, In P polys /\ winding at_ P p = 1%Z).
Proof.
  intros G Hid Hf B1 B2 Hd Hcs TI. exact (tiles_anywhere vs at_ bound G Hid fuel polys Hf TI bins dt B1 B2 Hd Hcs).
Qed.
Print Assumptions C73_tiles.

(** The same in a box, where nothing is assumed of the unconstrained result. *)
Theorem C73_tiles_boxed {E : Env} (vs : list vertex) at_ bound fuel n a b c d polys :
  exact_input vs at_ bound -> 2 * lenN vs + 2 <= idmax ->
  ((2 * length vs + 4) * (2 * length vs + 4) <= fuel)%nat -> (1 <= bound)%Z ->
  lenN vs = n + 4 -> Permutation [a; b; c; d] [n; n + 1; n + 2; n + 3] ->
  box_corners (at_ a) (at_ b) (at_ c) (at_ d) ->
  (forall v, v < n -> in_box (at_ a) (at_ c) (at_ v)) ->
  (forall e, In e (concat polys) -> efrom e < lenN vs /\ eto e < lenN vs /\
     clear_between at_ (lenN vs) (efrom e) (eto e)) ->
  tiles at_ polys ->
  exists out, constrained_triangulation_from_2d_vertices fuel 1 vs (concat polys) = Ret out /\
    forall p, ~ on_constraint at_ (concat polys) p ->
      (covered at_ out p <-> exists P, In P polys /\ winding at_ P p = 1%Z).
Proof.
  intros G Hid Hf Hb Hn Pm Bx Hin Hcs TI. exact (tiles_boxed vs at_ bound G Hid fuel polys Hf TI n a b c d Hb Hn Pm Bx Hin Hcs).
Qed.
Print Assumptions C73_tiles_boxed.

(** A square, a triangle with a side in common with it, and another triangle that touches the first one at
    a corner: points of all three are covered, and a point between the triangles is not. *)
Example C73_case : exists out,
  constrained_triangulation_from_2d_vertices (E := env64) 700 1 (pts ltile) (concat tiles_three) = Ret out /\
  covered (zpoint ltile) out (4, 4)%Q /\ covered (zpoint ltile) out (9, 5)%Q /\ covered (zpoint ltile) out (13, 5)%Q /\
  ~ covered (zpoint ltile) out (12, 9)%Q.
Proof.
  destruct ltile_corners as (P & B & Hin).
  destruct (C73_tiles_boxed (E := env64) (pts ltile) (zpoint ltile) _ 700 7 7 8 9 10 tiles_three (Input_grid _ _ _ ltile_grid64)
    ltile_ids ltile_fuel ltac:(discriminate) eq_refl P B Hin ltile_clear tiles_three_ok) as (out & Ho & C).
  exists out. split; [exact Ho|]. split; [|split; [|split]].
  - apply C; [apply tile_points; cbn; tauto|]. exists tile0. split; [cbn; tauto|vm_compute; reflexivity].
  - apply C; [apply tile_points; cbn; tauto|]. exists tile1. split; [cbn; tauto|vm_compute; reflexivity].
  - apply C; [apply tile_points; cbn; tauto|]. exists tile2. split; [cbn; tauto|vm_compute; reflexivity].
  - intros K. apply C in K; [|apply tile_points; cbn; tauto]. destruct K as (T & I & W). cbn [tiles_three In] in I.
    decompose [or] I; try contradiction; subst T; vm_compute in W; discriminate W.
Qed.

(** The same with two bins. *)
Example C73_case_bins : exists out,
  constrained_triangulation_from_2d_vertices (E := env64) 700 2 (pts ltile) (concat tiles_three) = Ret out /\
  covered (zpoint ltile) out (9, 5)%Q /\ ~ covered (zpoint ltile) out (12, 9)%Q.
Proof.
  destruct (C73_tiles (E := env64) (pts ltile) (zpoint ltile) _ 700 2 dt_tile tiles_three (Input_grid _ _ _ ltile_grid64)
    ltile_ids ltile_fuel ltac:(discriminate) ltac:(discriminate) ltile_dt ltile_sides tiles_three_ok) as (out & Ho & C).
  exists out. split; [exact Ho|]. split.
  - apply C; [apply tile_points; cbn; tauto|]. exists tile1. split; [cbn; tauto|vm_compute; reflexivity].
  - intros K. apply C in K; [|apply tile_points; cbn; tauto]. destruct K as (T & I & W). cbn [tiles_three In] in I.
    decompose [or] I; try contradiction; subst T; vm_compute in W; discriminate W.
Qed.

(** ** C74 *)

(** The polygons of C73: the border of the triangles of each polygon is this polygon, their areas add up to its
    area, and the areas of all triangles to the sum of the areas of the polygons. *)
Theorem C74_tiles {E : Env} (vs : list vertex) at_ bound fuel bins dt polys :
  exact_input vs at_ bound ->
  2 * lenN vs + 2 <= idmax -> ((2 * length vs + 4) * (2 * length vs + 4) <= fuel)%nat ->
  1 <= bins -> (Z.of_N bins <= bound)%Z -> triangulation_from_2d_vertices fuel bins vs = Ret dt ->
  (forall e, In e (concat polys) -> efrom e < lenN vs /\ eto e < lenN vs /\
     clear_between at_ (lenN vs) (efrom e) (eto e) /\ covers_between at_ dt (efrom e) (eto e)) ->
  tiles at_ polys ->
  exists out, constrained_triangulation_from_2d_vertices fuel bins vs (concat polys) = Ret out /\
    (forall P, In P polys -> border_is at_ (in_tile at_ P out) P /\
       (total_area at_ (in_tile at_ P out) == enclosed_area at_ P)%Q) /\
    (total_area at_ out == enclosed_area at_ (concat polys))%Q.
Proof.
  intros G Hid Hf B1 B2 Hd Hcs TI.
  exact (tiles_anywhere_area vs at_ bound fuel bins dt polys G Hid Hf B1 B2 Hd Hcs TI).
Qed.
Print Assumptions C74_tiles.

Theorem C74_tiles_boxed {E : Env} (vs : list vertex) at_ bound fuel n a b c d polys :
  exact_input vs at_ bound -> 2 * lenN vs + 2 <= idmax ->
  ((2 * length vs + 4) * (2 * length vs + 4) <= fuel)%nat -> (1 <= bound)%Z ->
  lenN vs = n + 4 -> Permutation [a; b; c; d] [n; n + 1; n + 2; n + 3] ->
  box_corners (at_ a) (at_ b) (at_ c) (at_ d) ->
  (forall v, v < n -> in_box (at_ a) (at_ c) (at_ v)) ->
  (forall e, In e (concat polys) -> efrom e < lenN vs /\ eto e < lenN vs /\
     clear_between at_ (lenN vs) (efrom e) (eto e)) ->
  tiles at_ polys ->
  exists out, constrained_triangulation_from_2d_vertices fuel 1 vs (concat polys) = Ret out /\
    (forall P, In P polys -> border_is at_ (in_tile at_ P out) P /\
       (total_area at_ (in_tile at_ P out) == enclosed_area at_ P)%Q) /\
    (total_area at_ out == enclosed_area at_ (concat polys))%Q.
Proof.
  intros G Hid Hf Hb Hn Pm Bx Hin Hcs TI.
  exact (tiles_boxed_area vs at_ bound fuel n a b c d polys G Hid Hf Hb Hn Pm Bx Hin Hcs TI).
Qed.
Print Assumptions C74_tiles_boxed.

(** The square of area 36 and the triangles of areas 12 and 8 of C73. *)
Example C74_case : exists out,
  constrained_triangulation_from_2d_vertices (E := env64) 700 1 (pts ltile) (concat tiles_three) = Ret out /\
  border_is (zpoint ltile) (in_tile (zpoint ltile) tile0 out) tile0 /\
  (total_area (zpoint ltile) (in_tile (zpoint ltile) tile0 out) == 36)%Q /\
  (total_area (zpoint ltile) (in_tile (zpoint ltile) tile1 out) == 12)%Q /\
  (total_area (zpoint ltile) out == 56)%Q.
Proof.
  destruct ltile_corners as (P & B & Hin).
  destruct (C74_tiles_boxed (E := env64) (pts ltile) (zpoint ltile) _ 700 7 7 8 9 10 tiles_three (Input_grid _ _ _ ltile_grid64)
    ltile_ids ltile_fuel ltac:(discriminate) eq_refl P B Hin ltile_clear tiles_three_ok) as (out & Ho & C & A).
  exists out. split; [exact Ho|]. destruct (C tile0 (or_introl eq_refl)) as (B0 & A0). destruct (C tile1 (or_intror (or_introl eq_refl))) as (_ & A1).
  split; [exact B0|]. rewrite A0, A1, A. split; [|split]; vm_compute; reflexivity.
Qed.

(** The same with two bins. *)
Example C74_case_bins : exists out,
  constrained_triangulation_from_2d_vertices (E := env64) 700 2 (pts ltile) (concat tiles_three) = Ret out /\
  border_is (zpoint ltile) (in_tile (zpoint ltile) tile1 out) tile1 /\
  (total_area (zpoint ltile) (in_tile (zpoint ltile) tile1 out) == 12)%Q /\ (total_area (zpoint ltile) out == 56)%Q.
Proof.
  destruct (C74_tiles (E := env64) (pts ltile) (zpoint ltile) _ 700 2 dt_tile tiles_three (Input_grid _ _ _ ltile_grid64)
    ltile_ids ltile_fuel ltac:(discriminate) ltac:(discriminate) ltile_dt ltile_sides tiles_three_ok) as (out & Ho & C & A).
  exists out. split; [exact Ho|]. destruct (C tile1 (or_intror (or_introl eq_refl))) as (B1 & A1).
  split; [exact B1|]. rewrite A1, A. split; vm_compute; reflexivity.
Qed.

(** ** C75 *)

(** The polygons of C73: each has as many triangles as sides, less two, plus two for each place of a vertex strictly
    inside, so the result has as many as all sides, less two for each polygon, plus two for each of these places. *)
Theorem C75_tiles {E : Env} (vs : list vertex) l bound fuel bins dt polys :
  on_grid vs l bound ->
  2 * lenN vs + 2 <= idmax -> ((2 * length vs + 4) * (2 * length vs + 4) <= fuel)%nat ->
  1 <= bins -> (Z.of_N bins <= bound)%Z -> triangulation_from_2d_vertices fuel bins vs = Ret dt ->
  (forall e, In e (concat polys) -> efrom e < lenN vs /\ eto e < lenN vs /\
     clear_between (zpoint l) (lenN vs) (efrom e) (eto e) /\ covers_between (zpoint l) dt (efrom e) (eto e)) ->
  tiles (zpoint l) polys ->
  exists out, constrained_triangulation_from_2d_vertices fuel bins vs (concat polys) = Ret out /\
    (forall P inner, In P polys -> inside_vertices (zpoint l) (lenN vs) P inner ->
       lenN (in_tile (zpoint l) P out) + 2 = lenN P + 2 * lenN inner) /\
    (forall inners, Forall2 (inside_vertices (zpoint l) (lenN vs)) polys inners ->
       lenN out + 2 * lenN polys = lenN (concat polys) + 2 * lenN (concat inners)).
Proof. exact (tiles_anywhere_count vs l bound fuel bins dt polys). Qed.
Print Assumptions C75_tiles.

Theorem C75_tiles_boxed {E : Env} (vs : list vertex) at_ bound fuel n a b c d polys :
  exact_input vs at_ bound -> 2 * lenN vs + 2 <= idmax ->
  ((2 * length vs + 4) * (2 * length vs + 4) <= fuel)%nat -> (1 <= bound)%Z ->
  lenN vs = n + 4 -> Permutation [a; b; c; d] [n; n + 1; n + 2; n + 3] ->
  box_corners (at_ a) (at_ b) (at_ c) (at_ d) ->
  (forall v, v < n -> in_box (at_ a) (at_ c) (at_ v)) ->
  (forall e, In e (concat polys) -> efrom e < lenN vs /\ eto e < lenN vs /\
     clear_between at_ (lenN vs) (efrom e) (eto e)) ->
  tiles at_ polys ->
  exists out, constrained_triangulation_from_2d_vertices fuel 1 vs (concat polys) = Ret out /\
    (forall P inner, In P polys -> inside_vertices at_ (lenN vs) P inner ->
       lenN (in_tile at_ P out) + 2 = lenN P + 2 * lenN inner) /\
    (forall inners, Forall2 (inside_vertices at_ (lenN vs)) polys inners ->
       lenN out + 2 * lenN polys = lenN (concat polys) + 2 * lenN (concat inners)).
Proof. exact (tiles_boxed_count vs at_ bound fuel n a b c d polys). Qed.
Print Assumptions C75_tiles_boxed.

(** The square and the two triangles of C73: ten sides, three polygons and no vertex inside, so four triangles. *)
Example C75_case : exists out,
  constrained_triangulation_from_2d_vertices (E := env64) 700 1 (pts ltile) (concat tiles_three) = Ret out /\
  lenN out + 2 * 3 = 10 + 2 * 0.
Proof.
  destruct ltile_corners as (P & B & Hin).
  destruct (C75_tiles_boxed (E := env64) (pts ltile) (zpoint ltile) _ 700 7 7 8 9 10 tiles_three (Input_grid _ _ _ ltile_grid64)
    ltile_ids ltile_fuel ltac:(discriminate) eq_refl P B Hin ltile_clear tiles_three_ok) as (out & Ho & _ & A).
  exists out. split; [exact Ho|]. exact (A _ tiles_no_vertex).
Qed.

(** The same with two bins. *)
Example C75_case_bins : exists out,
  constrained_triangulation_from_2d_vertices (E := env64) 700 2 (pts ltile) (concat tiles_three) = Ret out /\
  lenN out + 2 * 3 = 10 + 2 * 0.
Proof.
  destruct (C75_tiles (E := env64) (pts ltile) ltile _ 700 2 dt_tile tiles_three ltile_grid64
    ltile_ids ltile_fuel ltac:(discriminate) ltac:(discriminate) ltile_dt ltile_sides tiles_three_ok) as (out & Ho & _ & A).
  exists out. split; [exact Ho|]. exact (A _ tiles_no_vertex).
Qed.

(** ** C76 *)

(** The polygons of C73: their triangles meet edge to edge along common sides, the border of the result consists of
    the sides that no other polygon has, and the vertices used are the corners of the polygons and those inside. *)
Theorem C76_tiles {E : Env} (vs : list vertex) at_ bound fuel bins dt polys :
  exact_input vs at_ bound ->
  2 * lenN vs + 2 <= idmax -> ((2 * length vs + 4) * (2 * length vs + 4) <= fuel)%nat ->
  1 <= bins -> (Z.of_N bins <= bound)%Z -> triangulation_from_2d_vertices fuel bins vs = Ret dt ->
  (forall e, In e (concat polys) -> efrom e < lenN vs /\ eto e < lenN vs /\
     clear_between at_ (lenN vs) (efrom e) (eto e) /\ covers_between at_ dt (efrom e) (eto e)) ->
  tiles at_ polys ->
  exists out, constrained_triangulation_from_2d_vertices fuel bins vs (concat polys) = Ret out /\
    conforming at_ (lenN vs) out polys.
Proof. exact (tiles_anywhere_conforming vs at_ bound fuel bins dt polys). Qed.
Print Assumptions C76_tiles.

Theorem C76_tiles_boxed {E : Env} (vs : list vertex) at_ bound fuel n a b c d polys :
  exact_input vs at_ bound -> 2 * lenN vs + 2 <= idmax ->
  ((2 * length vs + 4) * (2 * length vs + 4) <= fuel)%nat -> (1 <= bound)%Z ->
  lenN vs = n + 4 -> Permutation [a; b; c; d] [n; n + 1; n + 2; n + 3] ->
  box_corners (at_ a) (at_ b) (at_ c) (at_ d) ->
  (forall v, v < n -> in_box (at_ a) (at_ c) (at_ v)) ->
  (forall e, In e (concat polys) -> efrom e < lenN vs /\ eto e < lenN vs /\
     clear_between at_ (lenN vs) (efrom e) (eto e)) ->
  tiles at_ polys ->
  exists out, constrained_triangulation_from_2d_vertices fuel 1 vs (concat polys) = Ret out /\
    conforming at_ (lenN vs) out polys.
Proof. exact (tiles_boxed_conforming vs at_ bound fuel n a b c d polys). Qed.
Print Assumptions C76_tiles_boxed.

(** The square and the triangles of C73: the common side of the square and the first triangle is an edge that is not
    in the border, a side that only the square has is in it, and the corners of the box are not used. *)
Example C76_case : exists out,
  constrained_triangulation_from_2d_vertices (E := env64) 700 2 (pts ltile) (concat tiles_three) = Ret out /\
  (exists u v, In (u, v) (directed_edges out) /\ along_constraint (zpoint ltile) u v (Edge 2 3) /\ ~ In (u, v) (border_edges out)) /\
  (exists u v, In (u, v) (border_edges out) /\ along_constraint (zpoint ltile) u v (Edge 0 1)) /\
  ~ (exists t c, In t out /\ tri_corner t c /\ same_place (zpoint ltile c) (zpoint ltile 9)).
Proof.
  destruct (C76_tiles (E := env64) (pts ltile) (zpoint ltile) _ 700 2 dt_tile tiles_three (Input_grid _ _ _ ltile_grid64)
    ltile_ids ltile_fuel ltac:(discriminate) ltac:(discriminate) ltile_dt ltile_sides tiles_three_ok) as (out & Ho & S & B & U).
  exists out. split; [exact Ho|]. split; [|split].
  - destruct (S (Edge 2 3) ltac:(cbn; tauto)) as (u & v & D & (A1 & A2)). exists u, v. split; [exact D|]. split; [split; assumption|].
    intros K. apply (B u v D) in K. destruct K as (e & _ & _ & N). apply N. exists (Edge 3 2). split; [cbn; tauto|split; assumption].
  - destruct (S (Edge 0 1) ltac:(cbn; tauto)) as (u & v & D & (A1 & A2)). exists u, v. split; [|split; assumption].
    apply (B u v D). exists (Edge 0 1). split; [cbn; tauto|]. split; [split; assumption|].
    intros (f & If & (F1 & F2)). cbn [efrom eto] in A1, A2.
    assert (G1 : same_place (zpoint ltile 1) (zpoint ltile (efrom f))) by (destruct A2 as (x & y), F1 as (z & w); split; [rewrite <- x|rewrite <- y]; assumption).
    assert (G2 : same_place (zpoint ltile 0) (zpoint ltile (eto f))) by (destruct A1 as (x & y), F2 as (z & w); split; [rewrite <- x|rewrite <- y]; assumption).
    cbn [concat tiles_three tile0 tile1 tile2 app In] in If. destruct G1 as (x & y), G2 as (z & w).
    decompose [or] If; try contradiction; subst f; vm_compute in x, y, z, w; first [discriminate x|discriminate y|discriminate z|discriminate w].
  - intros K. apply (proj1 (U 9 eq_refl)) in K. destruct K as (P & IP & [(e & Ie & (x & y))|(_ & W)]); cbn [tiles_three In] in IP; decompose [or] IP; try contradiction; subst P.
    1-3: cbn [tile0 tile1 tile2 In] in Ie; decompose [or] Ie; try contradiction; subst e; vm_compute in x, y; first [discriminate x|discriminate y].
    all: vm_compute in W; discriminate W.
Qed.

(** ** C77 *)

(** The public helpers for edges: the opposite of an edge has its ends exchanged, taking it twice changes nothing, two
    edges are equal without direction exactly when one is the other or its opposite, and an edge contains its ends. *)
Theorem C77_edges (a b : edge) v :
  (efrom (edge_opposite a) = eto a /\ eto (edge_opposite a) = efrom a) /\
  edge_opposite (edge_opposite a) = a /\
  (undirected_equals a b = true <-> a = b \/ a = edge_opposite b) /\
  (edge_contains a v = true <-> v = efrom a \/ v = eto a).
Proof. exact (edge_facts a b v). Qed.
Print Assumptions C77_edges.

Example C77_case_edges :
  edge_opposite (Edge 3 5) = Edge 5 3 /\ undirected_equals (Edge 3 5) (Edge 5 3) = true /\
  undirected_equals (Edge 3 5) (Edge 3 4) = false /\ edge_contains (Edge 3 5) 5 = true /\ edge_contains (Edge 3 5) 4 = false.
Proof. vm_compute. repeat split. Qed.

(** The edges of a triangle are those of the corners returned to the user, in the same directions; one edge and the
    two others are all edges; and going around a triangle or a corner clockwise and counter-clockwise are inverse. *)
Theorem C77_triangle_edges (t : tri) i u v :
  (In (Edge u v) (tri_edge_list t) <-> In (u, v) (tri_edges (tverts t))) /\
  Permutation (tedge t i :: other_edges t i) (tri_edge_list t).
Proof. exact (edges_facts t i u v). Qed.
Print Assumptions C77_triangle_edges.

Theorem C77_around (t : tri) (i : tidx) :
  efrom (tedge t (vertex_next_cw_edge_index i)) = tv t i /\ eto (tedge t (vertex_next_ccw_edge_index i)) = tv t i /\
  efrom (tedge t (next_cw i)) = eto (tedge t i) /\ eto (tedge t (next_ccw i)) = efrom (tedge t i) /\
  opposite_vertex_index (opposite_edge_index i) = i /\ opposite_edge_index (opposite_vertex_index i) = i /\
  next_cw (next_ccw i) = i /\ next_ccw (next_cw i) = i.
Proof. exact (around_facts t i). Qed.
Print Assumptions C77_around.

(** Looking for a corner fails exactly for vertices that are not corners, and finds its place otherwise. *)
Theorem C77_corner_index (t : tri) v :
  (get_vertex_index t v = None <-> ~ tri_corner (tverts t) v) /\
  (forall i, get_vertex_index t v = Some i -> tv t i = v /\ vertex_index t v = i).
Proof. exact (index_facts t v). Qed.
Print Assumptions C77_corner_index.

(** For a triangle with different corners and one of its edges, in either direction: the ends and the opposite vertex
    are the three corners, and the opposite edge of the opposite vertex is this edge. *)
Theorem C77_opposite (t : tri) (i : tidx) e : NoDup [t_v1 t; t_v2 t; t_v3 t] ->
  e = tedge t i \/ e = edge_opposite (tedge t i) ->
  Permutation [efrom e; eto e; get_opposite_vertex_id t e] [t_v1 t; t_v2 t; t_v3 t] /\
  get_opposite_vertex_id t e = tv t (opposite_vertex_index i) /\
  opposite_edge_index_from_vertex t (get_opposite_vertex_id t e) = i /\
  opposite_vertex_index_from_edge (vertex_index t (efrom e)) (vertex_index t (eto e)) = Some (opposite_vertex_index i).
Proof. exact (opposite_facts t i e). Qed.
Print Assumptions C77_opposite.

Example C77_case_triangle : let t := Tri 4 7 9 0 0 0 in
  get_opposite_vertex_id t (Edge 4 9) = 7 /\ opposite_edge_index_from_vertex t 7 = I3 /\
  other_edges t I2 = [Edge 9 4; Edge 4 7] /\ get_vertex_index t 9 = Some I3 /\ get_vertex_index t 5 = None.
Proof.
  assert (D : NoDup [4; 7; 9]) by (repeat constructor; cbn; intuition discriminate).
  destruct (C77_opposite (Tri 4 7 9 0 0 0) I3 (Edge 4 9) D (or_intror eq_refl)) as (_ & A & B & _). cbv zeta.
  split; [exact A|]. split; [exact B|]. repeat split.
Qed.

(** A triangle has a corner at infinity exactly when it is not finite; and a triangle whose corners are among the
    vertices can be looked up without a panic. *)
Theorem C77_finite {E : Env} (t : tri) : is_pseudo_infinite t = negb (tri_is_finite t).
Proof. exact (finite_facts t). Qed.
Print Assumptions C77_finite.

Theorem C77_lookup {E : Env} (vs : list vertex) (t : tri) :
  (forall v, tri_corner (tverts t) v -> v < lenN vs) ->
  exists a b c, tri_to_vertices vs t = Ret [a; b; c] /\
    nth_error vs (N.to_nat (t_v1 t)) = Some a /\ nth_error vs (N.to_nat (t_v2 t)) = Some b /\ nth_error vs (N.to_nat (t_v3 t)) = Some c.
Proof. exact (lookup_facts vs t). Qed.
Print Assumptions C77_lookup.

Example C77_case_lookup : is_pseudo_infinite (E := env64) (Tri 0 1 (@INF2 env64) 0 0 0) = true /\
  exists a b c, tri_to_vertices (E := env64) (pts ltile) (Tri 0 1 3 0 0 0) = Ret [a; b; c].
Proof.
  split; [rewrite C77_finite; vm_compute; reflexivity|].
  destruct (C77_lookup (E := env64) (pts ltile) (Tri 0 1 3 0 0 0)) as (a & b & c & R & _); [|exists a, b, c; exact R].
  intros v [-> |[-> | ->]]; vm_compute; reflexivity.
Qed.

(** C68 with the public function: a simple polygon and the one with the opposites of its sides keep together the
    whole box, and no part of it twice. *)
Theorem C77_opposite_sides {E : Env} (vs : list vertex) at_ bound fuel n a b c d cs :
  exact_input vs at_ bound -> 2 * lenN vs + 2 <= idmax ->
  ((2 * length vs + 4) * (2 * length vs + 4) <= fuel)%nat -> (1 <= bound)%Z ->
  lenN vs = n + 4 -> Permutation [a; b; c; d] [n; n + 1; n + 2; n + 3] ->
  box_corners (at_ a) (at_ b) (at_ c) (at_ d) ->
  (forall v, v < n -> in_box (at_ a) (at_ c) (at_ v)) ->
  (forall e, In e cs -> efrom e < lenN vs /\ eto e < lenN vs /\
     clear_between at_ (lenN vs) (efrom e) (eto e)) ->
  simple_polygon at_ cs -> cs <> [] ->
  exists out out', constrained_triangulation_from_2d_vertices fuel 1 vs cs = Ret out /\
    constrained_triangulation_from_2d_vertices fuel 1 vs (map edge_opposite cs) = Ret out' /\
    forall p, ~ on_constraint at_ cs p -> in_box (at_ a) (at_ c) p ->
      (covered at_ out' p <-> ~ covered at_ out p).
Proof. exact (polygon_both vs at_ bound fuel n a b c d cs). Qed.
Print Assumptions C77_opposite_sides.

Example C77_case_sides : exists out out',
  constrained_triangulation_from_2d_vertices (E := env64) 600 1 (pts lpoly) cs_poly = Ret out /\
  constrained_triangulation_from_2d_vertices (E := env64) 600 1 (pts lpoly) (map edge_opposite cs_poly) = Ret out' /\
  forall p, ~ on_constraint (zpoint lpoly) cs_poly p -> in_box (zpoint lpoly 6) (zpoint lpoly 8) p ->
    (covered (zpoint lpoly) out' p <-> ~ covered (zpoint lpoly) out p).
Proof.
  destruct lpoly_corners as (P & B & Hin).
  exact (C77_opposite_sides (E := env64) (pts lpoly) (zpoint lpoly) _ 600 6 6 7 8 9 cs_poly (Input_grid _ _ _ lpoly_grid64)
    lpoly_ids lpoly_fuel ltac:(discriminate) eq_refl P B Hin lpoly_clear lpoly_polygon ltac:(discriminate)).
Qed.

(** ** C78 *)

(** The polygons of C73 with sides that cross at most two edges of the unconstrained result, which is Delaunay and
    convex: the triangles in one of the polygons are those of the call with this polygon alone, if no four vertices on
    a circle leave a choice inside it. *)
Theorem C78_tiles {E : Env} (vs : list vertex) at_ bound fuel bins dt polys :
  exact_input vs at_ bound -> 2 * lenN vs + 2 <= idmax ->
  ((2 * length vs + 4) * (2 * length vs + 4) <= fuel)%nat ->
  1 <= bins -> (Z.of_N bins <= bound)%Z -> triangulation_from_2d_vertices fuel bins vs = Ret dt ->
  locally_delaunay at_ dt -> convex_area at_ dt -> (forall v, v < lenN vs -> covered at_ dt (at_ v)) ->
  (forall e, In e (concat polys) -> efrom e < lenN vs /\ eto e < lenN vs /\
     clear_between at_ (lenN vs) (efrom e) (eto e) /\ crosses_at_most at_ dt 2 e) ->
  tiles at_ polys ->
  exists out, constrained_triangulation_from_2d_vertices fuel bins vs (concat polys) = Ret out /\
    forall P, In P polys -> no_circle_within at_ P (lenN vs) ->
      exists out1, constrained_triangulation_from_2d_vertices fuel bins vs P = Ret out1 /\
        same_triangles at_ at_ (in_tile at_ P out) out1.
Proof. exact (tiles_anywhere_alone vs at_ bound fuel bins dt polys). Qed.
Print Assumptions C78_tiles.

(** In a box nothing has to be assumed of the unconstrained result but the crossings. *)
Theorem C78_tiles_boxed {E : Env} (vs : list vertex) at_ bound fuel n a b c d polys dt :
  exact_input vs at_ bound -> 2 * lenN vs + 2 <= idmax ->
  ((2 * length vs + 4) * (2 * length vs + 4) <= fuel)%nat -> (1 <= bound)%Z ->
  lenN vs = n + 4 -> Permutation [a; b; c; d] [n; n + 1; n + 2; n + 3] ->
  box_corners (at_ a) (at_ b) (at_ c) (at_ d) ->
  (forall v, v < n -> in_box (at_ a) (at_ c) (at_ v)) ->
  triangulation_from_2d_vertices fuel 1 vs = Ret dt ->
  (forall e, In e (concat polys) -> efrom e < lenN vs /\ eto e < lenN vs /\
     clear_between at_ (lenN vs) (efrom e) (eto e) /\ crosses_at_most at_ dt 2 e) ->
  tiles at_ polys ->
  exists out, constrained_triangulation_from_2d_vertices fuel 1 vs (concat polys) = Ret out /\
    forall P, In P polys -> no_circle_within at_ P (lenN vs) ->
      exists out1, constrained_triangulation_from_2d_vertices fuel 1 vs P = Ret out1 /\
        same_triangles at_ at_ (in_tile at_ P out) out1.
Proof. exact (tiles_boxed_alone vs at_ bound fuel n a b c d polys dt). Qed.
Print Assumptions C78_tiles_boxed.

(** A quadrilateral and two triangles side by side: each is filled alone as it is filled with the others. *)
Example C78_case : exists out,
  constrained_triangulation_from_2d_vertices (E := env64) 700 1 (pts lalone) (concat tiles_three) = Ret out /\ length out = 4%nat /\
  forall P, In P tiles_three -> exists out1, constrained_triangulation_from_2d_vertices (E := env64) 700 1 (pts lalone) P = Ret out1 /\
    same_triangles (zpoint lalone) (zpoint lalone) (in_tile (zpoint lalone) P out) out1.
Proof.
  destruct lalone_corners as (P & B & Hin).
  destruct (C78_tiles_boxed (E := env64) (pts lalone) (zpoint lalone) _ 700 7 7 8 9 10 tiles_three dt_alone (Input_grid _ _ _ lalone_grid64)
    lalone_ids lalone_fuel ltac:(discriminate) eq_refl P B Hin lalone_dt lalone_sides alone_ok) as (out & Ho & A).
  exists out. split; [exact Ho|]. split.
  - assert (K : Ret out = Ret [(2, 4, 3); (4, 5, 6); (0, 2, 3); (0, 1, 2)]) by (rewrite <- Ho; vm_compute; reflexivity). injection K as ->. reflexivity.
  - intros Q I. exact (A Q I (alone_circles Q I)).
Qed.

(** The conditions of the first theorem on the unconstrained result are met, too. *)
Example C78_case_dt : locally_delaunay (zpoint lalone) dt_alone /\ convex_area (zpoint lalone) dt_alone /\
  forall v, v < 11 -> covered (zpoint lalone) dt_alone (zpoint lalone v).
Proof. exact lalone_convex. Qed.

(** So neither the order of the polygons nor the choice of the others has an effect on the triangles in one of them. *)
Theorem C78_neighbours {E : Env} (vs : list vertex) at_ bound fuel n a b c d polys polys' dt :
  exact_input vs at_ bound -> 2 * lenN vs + 2 <= idmax ->
  ((2 * length vs + 4) * (2 * length vs + 4) <= fuel)%nat -> (1 <= bound)%Z ->
  lenN vs = n + 4 -> Permutation [a; b; c; d] [n; n + 1; n + 2; n + 3] ->
  box_corners (at_ a) (at_ b) (at_ c) (at_ d) ->
  (forall v, v < n -> in_box (at_ a) (at_ c) (at_ v)) ->
  triangulation_from_2d_vertices fuel 1 vs = Ret dt ->
  (forall e, In e (concat polys) \/ In e (concat polys') -> efrom e < lenN vs /\ eto e < lenN vs /\
     clear_between at_ (lenN vs) (efrom e) (eto e) /\ crosses_at_most at_ dt 2 e) ->
  tiles at_ polys -> tiles at_ polys' ->
  exists out out', constrained_triangulation_from_2d_vertices fuel 1 vs (concat polys) = Ret out /\
    constrained_triangulation_from_2d_vertices fuel 1 vs (concat polys') = Ret out' /\
    forall P, In P polys -> In P polys' -> no_circle_within at_ P (lenN vs) ->
      same_triangles at_ at_ (in_tile at_ P out) (in_tile at_ P out').
Proof. exact (tiles_boxed_neighbours vs at_ bound fuel n a b c d polys polys' dt). Qed.
Print Assumptions C78_neighbours.

Example C78_case_order : exists out out',
  constrained_triangulation_from_2d_vertices (E := env64) 700 1 (pts lalone) (concat tiles_three) = Ret out /\
  constrained_triangulation_from_2d_vertices (E := env64) 700 1 (pts lalone) (concat (rev tiles_three)) = Ret out' /\
  same_triangles (zpoint lalone) (zpoint lalone) (in_tile (zpoint lalone) tile0 out) (in_tile (zpoint lalone) tile0 out').
Proof.
  destruct lalone_corners as (P & B & Hin).
  assert (S : forall e, In e (concat tiles_three) \/ In e (concat (rev tiles_three)) -> In e (concat tiles_three))
    by (intros e [I|I]; [exact I|]; apply in_concat in I; destruct I as (Q & J & K); apply in_concat; exists Q; split; [now apply in_rev|exact K]).
  destruct (C78_neighbours (E := env64) (pts lalone) (zpoint lalone) _ 700 7 7 8 9 10 tiles_three (rev tiles_three) dt_alone (Input_grid _ _ _ lalone_grid64)
    lalone_ids lalone_fuel ltac:(discriminate) eq_refl P B Hin lalone_dt (fun e I => lalone_sides e (S e I)) alone_ok
    (tiles_permuted _ _ _ (Permutation_rev tiles_three) alone_ok)) as (out & out' & Ho & Ho' & A).
  exists out, out'. split; [exact Ho|]. split; [exact Ho'|]. apply A; [cbn; tauto|cbn; tauto|]. apply alone_circles. cbn. tauto.
Qed.

(** Without the condition on circles the claim is false: together with a triangle beside it, a rectangle is cut along
    its other diagonal. *)
Theorem C78_circle_refuted : exists (vs : list (@vertex env64)) l n a b c d polys dt P out out1,
  on_grid (E := env64) vs l (2 ^ 40) /\ lenN vs = n + 4 /\ Permutation [a; b; c; d] [n; n + 1; n + 2; n + 3] /\
  box_corners (zpoint l a) (zpoint l b) (zpoint l c) (zpoint l d) /\
  (forall v, v < n -> in_box (zpoint l a) (zpoint l c) (zpoint l v)) /\
  triangulation_from_2d_vertices (E := env64) 700 1 vs = Ret dt /\
  (forall e, In e (concat polys) -> efrom e < lenN vs /\ eto e < lenN vs /\
     clear_between (zpoint l) (lenN vs) (efrom e) (eto e) /\ crosses_at_most (zpoint l) dt 2 e) /\
  tiles (zpoint l) polys /\ In P polys /\
  constrained_triangulation_from_2d_vertices (E := env64) 700 1 vs (concat polys) = Ret out /\
  constrained_triangulation_from_2d_vertices (E := env64) 700 1 vs P = Ret out1 /\
  ~ same_triangles (zpoint l) (zpoint l) (in_tile (zpoint l) P out) out1.
Proof.
  destruct lfork_corners as (P & B & Hin).
  exists (pts lfork), lfork, 6, 6, 7, 8, 9, tiles_fork, dt_fork, tile0, out_fork, out_fork0.
  split; [exact lfork_grid64|]. split; [reflexivity|]. split; [exact P|]. split; [exact B|]. split; [exact Hin|].
  split; [exact lfork_dt|]. split; [exact lfork_sides|]. split; [exact fork_ok|]. split; [right; left; reflexivity|].
  split; [exact lfork_together|]. split; [exact lfork_alone|]. exact lfork_differ.
Qed.
Print Assumptions C78_circle_refuted.
