(** * Box: inserting the corners of a box. *)

From Coq Require Import ZArith NArith List Bool Lia QArith Lqa Permutation.
From Verif Require Import Base BaseFacts Arith Types Utils Infinite Triangulation Geom Mesh MeshOps MeshVerts Exact
  AnyDT Walk Insert DTExact Spec.
Import ListNotations.
Local Open Scope N_scope.

Fixpoint ins {A} (x : A) (l : list A) : list (list A) :=
  match l with [] => [[x]] | y :: r => (x :: y :: r) :: map (cons y) (ins x r) end.
Fixpoint perms {A} (l : list A) : list (list A) :=
  match l with [] => [[]] | x :: r => flat_map (ins x) (perms r) end.

Lemma ins_in {A} (x : A) l1 l2 : In (l1 ++ x :: l2) (ins x (l1 ++ l2)).
Proof.
  induction l1 as [|y l1 IH]; simpl.
  - destruct l2; simpl; auto.
  - right. apply in_map, IH.
Qed.

Lemma perms_in {A} (l l' : list A) : Permutation l l' -> In l (perms l').
Proof.
  revert l. induction l' as [|x l' IH]; intros l P.
  - apply Permutation_sym, Permutation_nil in P. subst. simpl. auto.
  - assert (H : In x l) by (apply (Permutation_in x (Permutation_sym P)); simpl; auto).
    apply in_split in H. destruct H as (l1 & l2 & ->).
    simpl. apply in_flat_map. exists (l1 ++ l2). split; [|apply ins_in].
    apply IH. apply Permutation_sym, (Permutation_cons_app_inv l1 l2 (a := x)), Permutation_sym, P.
Qed.

Section WithEnv.
Context {E : Env}.
Variable vs : list vertex.
Variables px py : N -> Q.
Hypothesis X : Exact vs px py.
Notation pos := (hpos px py).
Notation D a b c := (det (pos a) (pos b) (pos c)).

Lemma fin_of v y : nthN vs v = Some y -> is_finite v = true.
Proof. intros H. apply nthN_lt in H. unfold is_finite. apply N.ltb_lt. pose proof (X_len _ _ _ X). lia. Qed.

Lemma inf_of v y : nthN vs v = Some y -> is_infinite v = false.
Proof. intros H. rewrite inf_not_fin, (fin_of v y H). reflexivity. Qed.

Lemma getN_of {A} (l : list A) i y : nthN l i = Some y -> getN l i = Ret y.
Proof. unfold getN. now intros ->. Qed.

Lemma left_t u v w vu vv vw : nthN vs u = Some vu -> nthN vs v = Some vv -> nthN vs w = Some vw ->
  (0 < D u v w)%Q -> is_on_left_side (test_point_edge_side (vu, vv) vw) = true.
Proof. intros A B C H. apply (X_side _ _ _ X u v w); auto. Qed.

Lemma left_f u v w vu vv vw : nthN vs u = Some vu -> nthN vs v = Some vv -> nthN vs w = Some vw ->
  (D u v w <= 0)%Q -> is_on_left_side (test_point_edge_side (vu, vv) vw) = false.
Proof.
  intros A B C H. apply not_true_is_false. intros K. apply (X_side _ _ _ X u v w) in K; auto. lra.
Qed.

Lemma near_t u v w vu vv vw : nthN vs u = Some vu -> nthN vs v = Some vv -> nthN vs w = Some vw ->
  (D u v w == 0)%Q -> is_near_edge (test_point_edge_side (vu, vv) vw) = true.
Proof. intros A B C H. apply (X_side _ _ _ X u v w); auto. Qed.

Lemma near_f u v w vu vv vw : nthN vs u = Some vu -> nthN vs v = Some vv -> nthN vs w = Some vw ->
  (D u v w < 0)%Q -> is_near_edge (test_point_edge_side (vu, vv) vw) = false.
Proof.
  intros A B C H. apply not_true_is_false. intros K. apply (X_side _ _ _ X u v w) in K; auto. lra.
Qed.

Lemma sleft_t u k q w vu vw : nthN vs u = Some vu -> infinite_vertex_local_quad_index k = Some q -> nthN vs w = Some vw ->
  (0 < D u k w)%Q -> is_on_left_side (test_point_edge_side (edge_from_semi_infinite_edge vu q) vw) = true.
Proof. intros A B C H. apply (X_semi _ _ _ X u k q w); auto. Qed.

Lemma sleft_f u k q w vu vw : nthN vs u = Some vu -> infinite_vertex_local_quad_index k = Some q -> nthN vs w = Some vw ->
  (D u k w <= 0)%Q -> is_on_left_side (test_point_edge_side (edge_from_semi_infinite_edge vu q) vw) = false.
Proof.
  intros A B C H. apply not_true_is_false. intros K. apply (X_semi _ _ _ X u k q w) in K; auto. lra.
Qed.

Lemma sright_t u k q w vu vw : nthN vs u = Some vu -> infinite_vertex_local_quad_index k = Some q -> nthN vs w = Some vw ->
  (D u k w < 0)%Q -> is_on_right_side (test_point_edge_side (edge_from_semi_infinite_edge vu q) vw) = true.
Proof. intros A B C H. apply (X_semi _ _ _ X u k q w); auto. Qed.

Lemma sright_f u k q w vu vw : nthN vs u = Some vu -> infinite_vertex_local_quad_index k = Some q -> nthN vs w = Some vw ->
  (0 <= D u k w)%Q -> is_on_right_side (test_point_edge_side (edge_from_semi_infinite_edge vu q) vw) = false.
Proof.
  intros A B C H. apply not_true_is_false. intros K. apply (X_semi _ _ _ X u k q w) in K; auto. lra.
Qed.

Lemma snear_t u k q w vu vw : nthN vs u = Some vu -> infinite_vertex_local_quad_index k = Some q -> nthN vs w = Some vw ->
  (D u k w == 0)%Q -> is_near_edge (test_point_edge_side (edge_from_semi_infinite_edge vu q) vw) = true.
Proof. intros A B C H. apply (X_semi _ _ _ X u k q w); auto. Qed.

Lemma snear_f u k q w vu vw : nthN vs u = Some vu -> infinite_vertex_local_quad_index k = Some q -> nthN vs w = Some vw ->
  ~ (D u k w == 0)%Q -> is_near_edge (test_point_edge_side (edge_from_semi_infinite_edge vu q) vw) = false.
Proof. intros A B C H. apply not_true_is_false. intros K. apply (X_semi _ _ _ X u k q w) in K; auto. Qed.

Lemma strict_t u v w vu vv vw : nthN vs u = Some vu -> nthN vs v = Some vv -> nthN vs w = Some vw ->
  (D u v w < 0)%Q -> is_point_strictly_on_right_side_of_edge (vu, vv) vw = true.
Proof. intros A B C H. apply (X_strict _ _ _ X u v w); auto. Qed.

Lemma strict_f u v w vu vv vw : nthN vs u = Some vu -> nthN vs v = Some vv -> nthN vs w = Some vw ->
  (0 <= D u v w)%Q -> is_point_strictly_on_right_side_of_edge (vu, vv) vw = false.
Proof.
  intros A B C H. apply not_true_is_false. intros K. apply (X_strict _ _ _ X u v w) in K; auto. lra.
Qed.

Lemma circle_f u v w t vu vv vw vt : nthN vs u = Some vu -> nthN vs v = Some vv -> nthN vs w = Some vw -> nthN vs t = Some vt ->
  (D t u v < 0)%Q -> (D v u w < 0)%Q -> (incircle (px u) (py u) (px v) (py v) (px w) (py w) (px t) (py t) <= 0)%Q ->
  is_vertex_in_triangle_circumcircle vu vv vw vt = false.
Proof.
  intros A B C F H1 H2 H3. apply not_true_is_false. intros K. apply (X_circle _ _ _ X u v w t) in K; auto. lra.
Qed.

Lemma close_f u w vu vw : nthN vs u = Some vu -> nthN vs w = Some vw -> ~ samepos px py u w ->
  is_vertex_pair_too_close vu vw = false.
Proof. intros A B H. apply not_true_is_false. intros K. apply (X_close _ _ _ X u w) in K; auto. Qed.

Lemma quad0 : infinite_vertex_local_quad_index INF0 = Some Q1.
Proof. pose proof (X_idmax _ _ _ X). unfold infinite_vertex_local_quad_index, is_finite, INF0. rewrite N.ltb_irrefl, N.eqb_refl. reflexivity. Qed.

Lemma quad1 : infinite_vertex_local_quad_index INF1 = Some Q2.
Proof.
  pose proof (X_idmax _ _ _ X). unfold infinite_vertex_local_quad_index, is_finite, INF0, INF1.
  rewrite (proj2 (N.ltb_ge _ _)) by lia. rewrite (proj2 (N.eqb_neq _ _)) by lia. rewrite N.eqb_refl. reflexivity.
Qed.

Lemma quad2 : infinite_vertex_local_quad_index INF2 = Some Q3.
Proof.
  pose proof (X_idmax _ _ _ X). unfold infinite_vertex_local_quad_index, is_finite, INF0, INF1, INF2.
  rewrite (proj2 (N.ltb_ge _ _)) by lia. rewrite !(proj2 (N.eqb_neq _ _)) by lia. rewrite N.eqb_refl. reflexivity.
Qed.

Lemma quad3 : infinite_vertex_local_quad_index INF3 = Some Q4.
Proof.
  pose proof (X_idmax _ _ _ X). unfold infinite_vertex_local_quad_index, is_finite, INF0, INF1, INF2, INF3.
  rewrite (proj2 (N.ltb_ge _ _)) by lia. rewrite !(proj2 (N.eqb_neq _ _)) by lia. reflexivity.
Qed.

Lemma infs : is_infinite INF0 = true /\ is_infinite INF1 = true /\ is_infinite INF2 = true /\ is_infinite INF3 = true.
Proof. pose proof (X_idmax _ _ _ X). unfold is_infinite, INF0, INF1, INF2, INF3. repeat split; apply N.leb_le; lia. Qed.

Lemma fins : is_finite INF0 = false /\ is_finite INF1 = false /\ is_finite INF2 = false /\ is_finite INF3 = false.
Proof. pose proof (X_idmax _ _ _ X). unfold is_finite, INF0, INF1, INF2, INF3. repeat split; apply N.ltb_ge; lia. Qed.

Lemma foldM_cons {A B} (g : A -> B -> res A) x l s : foldM g (x :: l) s = let* s' := g s x in foldM g l s'.
Proof. reflexivity. Qed.
Lemma foldM_nil {A B} (g : A -> B -> res A) s : foldM g [] s = Ret s.
Proof. reflexivity. Qed.

Lemma nid ts n : lenN ts = n -> n < idmax -> next_id ts = n.
Proof. intros <- H. apply as_id_small. lia. Qed.

Lemma nid1 ts n k : lenN ts = n -> n + 1 = k -> n < idmax -> next_id_plus_1 ts = Ret k.
Proof. intros A <- H. unfold next_id_plus_1. rewrite (nid ts n A H), (proj2 (N.eqb_neq _ _)) by lia. reflexivity. Qed.

Lemma restore_cons f ts v t1 t2 st : restore_delaunay (S f) ts vs v ((t1, t2) :: st) =
  let* (ts', st') := check_and_swap ts vs v t1 t2 st in restore_delaunay f ts' vs v st'.
Proof. reflexivity. Qed.

Lemma restore_nil f ts v : restore_delaunay f ts vs v [] = Ret ts.
Proof. destruct f; reflexivity. Qed.

Lemma walk_S n ts p prev cur : walk (S n) ts vs p prev cur =
  if negb (nexists cur) then Ret NotFound else
  let* s := walk_iter ts vs p prev cur in match s with Placed pl => Ret pl | MoveTo a b => walk n ts vs p a b end.
Proof. reflexivity. Qed.

Variables a b c d : N.
Hypothesis Hid : 10 <= idmax.
Variables va vb vc vd : vertex.
Hypothesis Na : nthN vs a = Some va.
Hypothesis Nb : nthN vs b = Some vb.
Hypothesis Nc : nthN vs c = Some vc.
Hypothesis Nd : nthN vs d = Some vd.
Hypothesis Dab : (py b == py a)%Q.
Hypothesis Dbc : (px c == px b)%Q.
Hypothesis Dcd : (py d == py c)%Q.
Hypothesis Dda : (px d == px a)%Q.
Hypothesis Hx : (px a < px b)%Q.
Hypothesis Hy : (py b < py c)%Q.

Lemma area_pos : (0 < (px b - px a) * (py c - py a))%Q.
Proof. apply Qmult_lt_0_compat; lra. Qed.

Lemma pos0 : pos INF0 = P3 (-1) 0 0.
Proof. pose proof (X_idmax _ _ _ X). unfold hpos, is_finite. rewrite N.ltb_irrefl, N.eqb_refl. reflexivity. Qed.
Lemma pos1 : pos INF1 = P3 0 1 0.
Proof.
  pose proof (X_idmax _ _ _ X). unfold hpos, is_finite, INF0, INF1. rewrite (proj2 (N.ltb_ge _ _)) by lia.
  rewrite !(proj2 (N.eqb_neq _ _)) by lia. rewrite N.eqb_refl. reflexivity.
Qed.
Lemma pos2 : pos INF2 = P3 1 0 0.
Proof.
  pose proof (X_idmax _ _ _ X). unfold hpos, is_finite, INF0, INF1, INF2. rewrite (proj2 (N.ltb_ge _ _)) by lia.
  rewrite !(proj2 (N.eqb_neq _ _)) by lia. rewrite N.eqb_refl. reflexivity.
Qed.
Lemma pos3 : pos INF3 = P3 0 (-1) 0.
Proof.
  pose proof (X_idmax _ _ _ X). unfold hpos, is_finite, INF0, INF1, INF2, INF3. rewrite (proj2 (N.ltb_ge _ _)) by lia.
  rewrite !(proj2 (N.eqb_neq _ _)) by lia. reflexivity.
Qed.

Ltac num :=
  pose proof area_pos;
  rewrite ?pos0, ?pos1, ?pos2, ?pos3, ?(hpos_fin px py a (fin_of a va Na)), ?(hpos_fin px py b (fin_of b vb Nb)),
    ?(hpos_fin px py c (fin_of c vc Nc)), ?(hpos_fin px py d (fin_of d vd Nd));
  unfold samepos, det, incircle; simpl hx; simpl hy; simpl hw;
  first [lra | rewrite ?Dda, ?Dcd, ?Dbc, ?Dab; first [lra | apply Qle_lteq; right; ring]].

Ltac numl :=
  rewrite ?pos0, ?pos1, ?pos2, ?pos3, ?(hpos_fin px py a (fin_of a va Na)), ?(hpos_fin px py b (fin_of b vb Nb)),
    ?(hpos_fin px py c (fin_of c vc Nc)), ?(hpos_fin px py d (fin_of d vd Nd));
  unfold det; simpl hx; simpl hy; simpl hw; lra.

Lemma ids_lt : a < idmax - 3 /\ b < idmax - 3 /\ c < idmax - 3 /\ d < idmax - 3.
Proof.
  pose proof (X_len _ _ _ X). pose proof (nthN_lt _ _ _ Na). pose proof (nthN_lt _ _ _ Nb).
  pose proof (nthN_lt _ _ _ Nc). pose proof (nthN_lt _ _ _ Nd). unfold INF0 in *. lia.
Qed.

Lemma ids_ne : a <> b /\ a <> c /\ a <> d /\ b <> c /\ b <> d /\ c <> d.
Proof. repeat split; intros F; pose proof (f_equal px F) as F1; pose proof (f_equal py F) as F2; rewrite F1 in *; rewrite F2 in *; lra. Qed.

Ltac idl := pose proof ids_lt; pose proof ids_ne; unfold NONE, INF0, INF1, INF2, INF3; lia.

Ltac idq k := lazymatch k with Q1 => quad0 | Q2 => quad1 | Q3 => quad2 | Q4 => quad3 end.

Ltac test3 t f u v w :=
  lazymatch goal with
  | A : nthN vs _ = Some u, B : nthN vs _ = Some v, C : nthN vs _ = Some w |- _ =>
      first [rewrite (t _ _ _ _ _ _ A B C) by num | rewrite (f _ _ _ _ _ _ A B C) by num]
  end.

Ltac semi3 t f u q w :=
  let K := match q with Q1 => constr:(quad0) | Q2 => constr:(quad1) | Q3 => constr:(quad2) | Q4 => constr:(quad3) end in
  lazymatch goal with
  | A : nthN vs _ = Some u, C : nthN vs _ = Some w |- _ =>
      first [rewrite (t _ _ _ _ _ _ A K C) by numl | rewrite (f _ _ _ _ _ _ A K C) by numl]
  end.


(** The redex the result waits for. *)
Ltac redex t :=
  lazymatch t with
  | match ?x with _ => _ end => redex x
  | bind ?x _ => redex x
  | andb ?x _ => redex x
  | negb ?x => redex x
  | app ?x _ => redex x
  | _ => t
  end.

Ltac fn t := lazymatch t with ?f _ => fn f | _ => t end.

Ltac small := cbv beta iota zeta delta
  [bind app tv tn tedge t_v1 t_v2 t_v3 t_n12 t_n23 t_n31 next_cw next_ccw
   vertex_next_cw_edge_index vertex_next_ccw_edge_index opposite_vertex_index opposite_vertex_index_from_edge
   efrom eto andb negb set_tn q1 q2 q3 q4 qv tidx_to_qidx edge_to_verts opposite_edge_index fst snd s_ts s_start s_map].

Ltac isinf v :=
  lazymatch v with
  | INF0 => rewrite (proj1 infs)
  | INF1 => rewrite (proj1 (proj2 infs))
  | INF2 => rewrite (proj1 (proj2 (proj2 infs)))
  | INF3 => rewrite (proj2 (proj2 (proj2 infs)))
  | _ => lazymatch goal with H : nthN vs v = Some _ |- _ => rewrite (inf_of v _ H) end
  end.

Ltac step1 h :=
  lazymatch h with
  | getN vs ?v => lazymatch goal with H : nthN vs v = Some _ |- _ => rewrite (getN_of vs v _ H) end
  | getN (?x :: ?l) ?i =>
      let r := eval cbv [getN nthN N.eqb Pos.eqb N.pred Pos.pred_N Pos.pred_double] in h in change h with r
  | setN (?x :: ?l) ?i ?y =>
      let r := eval cbv [setN nthN updN N.eqb Pos.eqb N.pred Pos.pred_N Pos.pred_double] in h in change h with r
  | is_on_left_side (test_point_edge_side (?u, ?v) ?w) => test3 left_t left_f u v w
  | is_near_edge (test_point_edge_side (?u, ?v) ?w) => test3 near_t near_f u v w
  | is_on_left_side (test_point_edge_side (edge_from_semi_infinite_edge ?u ?q) ?w) => semi3 sleft_t sleft_f u q w
  | is_on_right_side (test_point_edge_side (edge_from_semi_infinite_edge ?u ?q) ?w) => semi3 sright_t sright_f u q w
  | is_near_edge (test_point_edge_side (edge_from_semi_infinite_edge ?u ?q) ?w) => semi3 snear_t snear_f u q w
  | is_point_strictly_on_right_side_of_edge (?u, ?v) ?w => test3 strict_t strict_f u v w
  | is_vertex_in_triangle_circumcircle ?u ?v ?w ?t =>
      lazymatch goal with
      | A : nthN vs _ = Some u, B : nthN vs _ = Some v, C : nthN vs _ = Some w, F : nthN vs _ = Some t |- _ =>
          rewrite (circle_f _ _ _ _ _ _ _ _ A B C F) by num
      end
  | is_vertex_pair_too_close ?u ?w =>
      lazymatch goal with A : nthN vs _ = Some u, C : nthN vs _ = Some w |- _ => rewrite (close_f _ _ _ _ A C) by num end
  | infinite_vertex_local_quad_index INF0 => rewrite quad0
  | infinite_vertex_local_quad_index INF1 => rewrite quad1
  | infinite_vertex_local_quad_index INF2 => rewrite quad2
  | infinite_vertex_local_quad_index INF3 => rewrite quad3
  | is_infinite ?v => isinf v
  | collect_infinite_triangle_vertices (Tri ?x ?y ?z _ _ _) =>
      let r := eval cbv [collect_infinite_triangle_vertices t_v1 t_v2 t_v3] in h in change h with r;
      try isinf x; try isinf y; try isinf z
  | is_finite INF0 => rewrite (proj1 fins)
  | is_finite INF1 => rewrite (proj1 (proj2 fins))
  | is_finite INF2 => rewrite (proj1 (proj2 (proj2 fins)))
  | is_finite INF3 => rewrite (proj2 (proj2 (proj2 fins)))
  | is_finite ?v => lazymatch goal with H : nthN vs v = Some _ |- _ => rewrite (fin_of v _ H) end
  | ?x =? ?y => first [rewrite (N.eqb_refl x) | rewrite (proj2 (N.eqb_neq x y)) by idl]
  | lenN (_ :: _) => let r := eval cbv in h in change h with r
  | walk (S _) _ _ _ _ _ => rewrite walk_S
  | restore_delaunay _ _ _ _ (_ :: _) => rewrite restore_cons
  | restore_delaunay _ _ _ _ [] => rewrite restore_nil
  | find_vertex_placement _ _ ?ts _ =>
      unfold find_vertex_placement at 1; let r := eval cbv [length] in (length ts) in change (length ts) with r
  | foldM _ (_ :: _) _ => rewrite foldM_cons
  | foldM _ [] _ => rewrite foldM_nil
  | next_id_plus_1 ?ts =>
      let n := eval cbv in (lenN ts) in let k := eval cbv in (n + 1) in
      rewrite (nid1 ts n k eq_refl eq_refl) by idl; rewrite ?(nid ts n eq_refl) by idl
  | last_id ?ts =>
      change (last_id ts) with (Ret (as_id (N.pred (lenN ts))));
      let r := eval cbv in (N.pred (lenN ts)) in change (N.pred (lenN ts)) with r; rewrite as_id_small by idl
  | _ => let f := fn h in let r := eval unfold f in h in change h with r
  end.

Ltac eqstep :=
  match goal with
  | |- context [?x =? ?y] => first [constr_eq x y; rewrite (N.eqb_refl x) | rewrite (proj2 (N.eqb_neq x y)) by idl]
  end; cbv beta iota.

Ltac opp :=
  match goal with
  | |- context [update_triangle_neighbor (Tri ?x ?y ?z ?n ?m ?k) ?o ?w] =>
      let h := constr:(update_triangle_neighbor (Tri x y z n m k) o w) in
      let r := eval cbv [update_triangle_neighbor set_tn t_n12 t_n23 t_n31 t_v1 t_v2 t_v3] in h in
      change h with r; repeat eqstep
  | |- context [get_opposite_vertex_id (Tri ?x ?y ?z ?n ?m ?k) (Edge ?u ?v)] =>
      let h := constr:(get_opposite_vertex_id (Tri x y z n m k) (Edge u v)) in
      let r := eval cbv [get_opposite_vertex_id edge_contains orb negb efrom eto t_v1 t_v2 t_v3] in h in
      change h with r; repeat eqstep;
      repeat match goal with
      | |- context [vertex_index (Tri x y z n m k) ?v] =>
          let h := constr:(vertex_index (Tri x y z n m k) v) in
          let r := eval cbv [vertex_index t_v1 t_v2 t_v3] in h in change h with r; repeat eqstep
      end
  end.

Ltac step := lazymatch goal with |- ?l = _ => let h := redex l in step1 h; try opp; small end.

Definition box_mesh (l : list (N * N * N)) : Prop :=
  exists t1 t2, l = [t1; t2] /\
    ((In t1 [(a, c, b); (c, b, a); (b, a, c)] /\ In t2 [(a, d, c); (d, c, a); (c, a, d)]) \/
     (In t2 [(a, c, b); (c, b, a); (b, a, c)] /\ In t1 [(a, d, c); (d, c, a); (c, a, d)]) \/
     (In t1 [(a, d, b); (d, b, a); (b, a, d)] /\ In t2 [(b, d, c); (d, c, b); (c, b, d)]) \/
     (In t2 [(a, d, b); (d, b, a); (b, a, d)] /\ In t1 [(b, d, c); (d, c, b); (c, b, d)])).


Ltac meshed :=
  unfold filter_triangles, tri_is_finite, filter; cbn [s_ts t_v1 t_v2 t_v3];
  rewrite ?(fin_of a va Na), ?(fin_of b vb Nb), ?(fin_of c vc Nc), ?(fin_of d vd Nd), ?(proj1 fins), ?(proj1 (proj2 fins)),
    ?(proj1 (proj2 (proj2 fins))), ?(proj2 (proj2 (proj2 fins)));
  cbn [andb map tverts t_v1 t_v2 t_v3];
  do 2 eexists; split; [reflexivity|];
  first [left; split; simpl; now auto 6 | right; left; split; simpl; now auto 6
        |right; right; left; split; simpl; now auto 6 | right; right; right; split; simpl; now auto 6].

Lemma box_inserted f m v0 l : Permutation (v0 :: l) [a; b; c; d] ->
  exists s, foldM (insert_vertex (20 + f) vs) l (St (create_initial_triangles v0) 3 m) = Ret s /\ box_mesh (filter_triangles (s_ts s)).
Proof.
  intros P. 
  assert (K : In (v0 :: l) (perms [a; b; c; d])) by (apply perms_in; exact P).
  cbn [perms flat_map ins map app] in K. cbn [Nat.add]. unfold create_initial_triangles.
  cbn [In] in K. repeat (destruct K as [K|K]; [injection K as <- <-|]); [..|destruct K].
  all: clear P; eexists; split; [repeat step; reflexivity|meshed].
Qed.

End WithEnv.
