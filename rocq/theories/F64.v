(** * F64: IEEE 754 binary64 / binary32 instances of the arithmetic environment.

    Built on the standard library's [SpecFloat] (executable, axiom free): binary64 is
    precision 53, emax 1024; binary32 is precision 24, emax 128.  Round to nearest,
    ties to even.  Rust's f64/f32 [+ - * /], [<], [<=], [==], [abs], unary minus follow IEEE 754. *)

From Coq Require Import ZArith NArith List Bool SpecFloat.
From Verif Require Import Arith.
Local Open Scope Z_scope.

Section Float.
Variables prec emax : Z.

Definition sf_is_nan (x : spec_float) : bool :=
  match x with S754_nan => true | _ => false end.

Definition sf_is_finite (x : spec_float) : bool :=
  match x with S754_finite _ _ _ | S754_zero _ => true | _ => false end.

(** [f64::max] / [f64::min]: the other operand when one is NaN. *)
Definition sf_max (x y : spec_float) : spec_float :=
  if sf_is_nan x then y else if sf_is_nan y then x else if SFltb x y then y else x.
Definition sf_min (x y : spec_float) : spec_float :=
  if sf_is_nan x then y else if sf_is_nan y then x else if SFltb y x then y else x.

(** [Float as usize] (64 bit): truncation, saturating, NaN to 0. *)
Definition usize_max : N := 18446744073709551615%N.
Definition sf_to_N (x : spec_float) : N :=
  match x with
  | S754_zero _ | S754_nan => 0%N
  | S754_infinity false => usize_max
  | S754_infinity true => 0%N
  | S754_finite true _ _ => 0%N
  | S754_finite false m e =>
      if 64 <=? e then usize_max
      else N.min usize_max (Z.to_N (Z.shiftl (Zpos m) e))
  end.

(** Integer to float, rounding to nearest ([as Float], and decimal literals below). *)
Definition sf_of_Z (z : Z) : spec_float := binary_normalize prec emax z 0 false.

Definition sf_env (maxid : N) : Env := {|
  F := spec_float;
  fadd := SFadd prec emax;
  fsub := SFsub prec emax;
  fmul := SFmul prec emax;
  fdiv := SFdiv prec emax;
  fneg := SFopp;
  fabs := SFabs;
  flt := SFltb;
  fle := SFleb;
  feq := SFeqb;
  fmax := sf_max;
  fmin := sf_min;
  fis_nan := sf_is_nan;
  fis_finite := sf_is_finite;
  f0 := S754_zero false;
  f2 := sf_of_Z 2;
  (* EPSILON = 2^(1 - prec) *)
  feps := S754_finite false (Z.to_pos (2 ^ (prec - 1))) (2 - 2 * prec);
  (* MAX = (2^prec - 1) * 2^(emax - prec) *)
  fMAX := S754_finite false (Z.to_pos (2 ^ prec - 1)) (emax - prec);
  fMIN := S754_finite true (Z.to_pos (2 ^ prec - 1)) (emax - prec);
  (* literals 0.99 and 1.42, correctly rounded quotients of exact integers *)
  f099 := SFdiv prec emax (sf_of_Z 99) (sf_of_Z 100);
  fdelta := SFdiv prec emax (sf_of_Z 142) (sf_of_Z 100);
  f_of_N := fun n => sf_of_Z (Z.of_N n);
  f_to_N := sf_to_N;
  idmax := maxid
|}.
End Float.

Definition u32_max : N := 4294967295%N.
Definition u64_max : N := 18446744073709551615%N.

(** Default features: f64 and u32 indexes.  [f32] and [u64_indexes] features below. *)
Definition env64 : Env := sf_env 53 1024 u32_max.
Definition env64_u64 : Env := sf_env 53 1024 u64_max.
Definition env32 : Env := sf_env 24 128 u32_max.
Definition env32_u64 : Env := sf_env 24 128 u64_max.

(** An integer as a binary64 number. *)
Definition z64 (z : Z) : spec_float := sf_of_Z 53 1024 z.
Definition pt (x y : Z) : spec_float * spec_float := (z64 x, z64 y).
