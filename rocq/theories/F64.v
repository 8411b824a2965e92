(** * F64: IEEE-754 binary64 as a scalar, from Coq's own SpecFloat (stdlib).

    Used to run the model on the concrete inputs of the repository's tests
    and for the [_refuted] theorems about rounding, NaN and infinities.
    All operations round to nearest even, as Rust's f64 does. *)
From Coq Require Import ZArith SpecFloat.
From mathcomp Require Import ssreflect ssrbool ssrnat seq.
From Verif Require Import Base Scalar.

Set Implicit Arguments.
Unset Strict Implicit.
Unset Printing Implicit Defensive.

Definition f64 := spec_float.
Definition prec : Z := 53.
Definition emax : Z := 1024.

Definition f64_zero : f64 := S754_zero false.
Definition f64_inf : f64 := S754_infinity false.
Definition f64_nan : f64 := S754_nan.
(** the binary64 number nearest to m * 2^e *)
Definition f64_of (m : Z) (e : Z) : f64 :=
  binary_normalize prec emax m e false.
Definition f64_int (m : Z) : f64 := f64_of m 0.
(** the binary64 number nearest to a / 10^k (a/10^k, both exact for small arguments) *)
Definition f64_dec (a : Z) (k : nat) : f64 :=
  SFdiv prec emax (f64_int a) (f64_int (10 ^ Z.of_nat k)%Z).

Definition f64_max (x y : f64) : f64 :=
  match x, y with
  | S754_nan, _ => y
  | _, S754_nan => x
  | _, _ => if SFltb x y then y else x
  end.

Definition f64_num : numops :=
  {| n_T := f64; n_zero := f64_zero; n_one := f64_int 1;
     n_add := SFadd prec emax; n_sub := SFsub prec emax;
     n_mul := SFmul prec emax;
     n_div := fun x y => Ok (SFdiv prec emax x y);
     n_neg := SFopp |}.

Definition F64 : scalar :=
  {| s_num := f64_num;
     s_abs := SFabs;
     s_sqrt := fun x => Ok (SFsqrt prec emax x);
     s_eqb := SFeqb; s_ltb := SFltb; s_leb := SFleb;
     s_max := f64_max;
     s_eps := f64_of 1 (-52); s_tiny := f64_of 1 (-966);
     s_two := f64_int 2; s_c075 := f64_of 3 (-2); s_cm04375 := f64_of (-7) (-4);
     s_c0964 := f64_dec 964 3;
     s_approx := f64_dec 1 6;
     s_ofnat := fun n => f64_int (Z.of_nat n) |}.
