(** * Base: the result monad and list access used by the whole model.

    Rust operations that can fail are modelled by [res]:
    - [Ret a]      normal value ([Ok(a)] for functions returning a [Result]);
    - [Fail e]     an [Err(TriangulationError)] value, [e] names the message;
    - [Panic]      a Rust panic (index out of bounds, integer overflow in a
                   build with overflow checks, [ArrayVec] capacity overflow);
    - [OutOfFuel]  an unbounded Rust loop ([while let Some(..) = ..pop()]) was
                   cut by the model's fuel; this is never a Rust outcome. *)

From Coq Require Import NArith List Bool.
Import ListNotations.
Local Open Scope N_scope.

(** The error messages of triangulation.rs:478-487 and
    constrained_triangulation.rs:417-423, 450-456, 546-551, 578-585, 850-856. *)
Inductive err : Type :=
| ErrPlacementNotFound (vertex : N)
| ErrSearchCycle
| ErrCrossedEdgeNoNeighbor
| ErrFirstIntersectionNotFound
| ErrNoNextIntersection
| ErrNoConvexQuad.

(** The result of a call: Rust's [Result] ([Ret], [Fail]: src/triangulation.rs:77-93), a panic, or
    the end of the fuel of the model (no counterpart in the code; excluded by the theorems). *)
Inductive res (A : Type) : Type :=
| Ret (a : A)
| Fail (e : err)
| Panic
| OutOfFuel.
Arguments Ret {A} a.
Arguments Fail {A} e.
Arguments Panic {A}.
Arguments OutOfFuel {A}.

(** The [?] operator, and sequencing. *)
Definition bind {A B : Type} (m : res A) (f : A -> res B) : res B :=
  match m with
  | Ret a => f a
  | Fail e => Fail e
  | Panic => Panic
  | OutOfFuel => OutOfFuel
  end.

Notation "'let*' x ':=' m 'in' f" := (bind m (fun x => f))
  (at level 200, x pattern, m at level 100, f at level 200, right associativity).

(** Indexing [l[i]] of a Rust slice by an unsigned integer ([None]: out of bounds). *)
Fixpoint nthN {A : Type} (l : list A) (i : N) : option A :=
  match l with
  | [] => None
  | x :: l' => if i =? 0 then Some x else nthN l' (N.pred i)
  end.

(** [l[i] = x] (unchanged when out of bounds: [setN] below turns that into a panic). *)
Fixpoint updN {A : Type} (l : list A) (i : N) (x : A) : list A :=
  match l with
  | [] => []
  | y :: l' => if i =? 0 then x :: l' else y :: updN l' (N.pred i) x
  end.

(** Length as an unsigned integer ([Vec::len]). *)
Definition lenN {A : Type} (l : list A) : N := N.of_nat (length l).

(** [l[i]], panicking out of bounds. *)
Definition getN {A : Type} (l : list A) (i : N) : res A :=
  match nthN l i with Some x => Ret x | None => Panic end.

(** [l[i] = x], panicking out of bounds. *)
Definition setN {A : Type} (l : list A) (i : N) (x : A) : res (list A) :=
  match nthN l i with Some _ => Ret (updN l i x) | None => Panic end.

(** [0..n] as a list of indices. *)
Fixpoint rangeN (start : N) (count : nat) : list N :=
  match count with
  | O => []
  | S c => start :: rangeN (N.succ start) c
  end.

(** A [for] loop threading a state through a fallible body. *)
Fixpoint foldM {A S : Type} (f : S -> A -> res S) (l : list A) (s : S) : res S :=
  match l with
  | [] => Ret s
  | x :: l' => let* s' := f s x in foldM f l' s'
  end.
