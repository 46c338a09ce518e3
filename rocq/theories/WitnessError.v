(** * WitnessError: eight integer points for which the walk of the code runs in a circle,
    although no computation is rounded. *)

From Coq Require Import ZArith NArith List Bool Lia QArith.
From Verif Require Import Base Arith Types Utils Infinite Triangulation F64 Exact Spec DTOut GridSpec GridNum InputSpec GridApi ApiProps
  Refuted Witness SpecBox.
Import ListNotations.
Local Open Scope N_scope.

Definition lwalk : list (Z * Z) := [(32,32); (3,6); (6,16); (5,13); (0,2); (6,3); (1,3); (8,0)]%Z.

Lemma lwalk_grid64 : on_grid (E := env64) (pts lwalk) lwalk (2 ^ 40).
Proof.
  exists (sf_is 53 1024), (2 ^ 5)%Z, 0%Z, 0%Z.
  split; [apply (Grid_f64 u32_max 5); lia|]. split; [|split].
  - apply f2_map. intros p Hp. simpl in Hp.
    decompose [or] Hp; try contradiction; subst; vm_compute; repeat split; reflexivity.
  - unfold fits, lwalk. repeat split.
    1-4: simpl in H; intuition (subst; simpl; lia).
    + exists (0, 2)%Z. simpl. auto 10.
    + exists (8, 0)%Z. simpl. auto 10.
    + exists (32, 32)%Z. simpl. auto 10.
  - intros p Hp. simpl in Hp. decompose [or] Hp; try contradiction; subst; vm_compute; split; discriminate.
Qed.

Lemma exact_error :
  exists l v bins, on_grid (E := env64) (pts l) l (2 ^ 40) /\ length l = 8%nat /\
    default_bins (lenN l) bins /\ dt64 100 bins l = Fail (ErrPlacementNotFound v).
Proof.
  exists lwalk, 1, 2. split; [exact lwalk_grid64|]. split; [reflexivity|]. split; [vm_compute; split; [discriminate|reflexivity]|].
  vm_compute. reflexivity.
Qed.
