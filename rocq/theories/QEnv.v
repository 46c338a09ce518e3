(** * QEnv: exact rational arithmetic as an instance of the environment.

    Not an arithmetic the crate ships: it is the ideal the algorithm is designed for, used to
    state what the algorithm does when rounding plays no part.  The constants are those of
    the f64 configuration (EPSILON = 2^-52, 0.99, 1.42; src/types/f64.rs:1-6). *)

From Coq Require Import ZArith NArith Bool QArith Qabs Qround.
From Verif Require Import Arith.
Local Open Scope Q_scope.

Definition qlt (a b : Q) : bool := negb (Qle_bool b a).

Definition envQ (maxid : N) : Env := {|
  F := Q;
  fadd := fun a b => Qred (a + b);
  fsub := fun a b => Qred (a - b);
  fmul := fun a b => Qred (a * b);
  fdiv := fun a b => Qred (a / b);
  fneg := Qopp;
  fabs := Qabs;
  flt := qlt;
  fle := Qle_bool;
  feq := Qeq_bool;
  fmax := fun a b => if qlt a b then b else a;
  fmin := fun a b => if qlt b a then b else a;
  fis_nan := fun _ => false;
  fis_finite := fun _ => true;
  f0 := 0;
  f2 := 2;
  feps := 1 # 4503599627370496;
  fMAX := inject_Z (2 ^ 1000);
  fMIN := - inject_Z (2 ^ 1000);
  f099 := 99 # 100;
  fdelta := 142 # 100;
  f_of_N := fun n => inject_Z (Z.of_N n);
  f_to_N := fun a => Z.to_N (Qfloor a);
  idmax := maxid
|}.

(** An integer point as a vertex. *)
Definition ptQ (p : Z * Z) : Q * Q := (inject_Z (fst p), inject_Z (snd p)).
