(** * SpecFloat64: vocabulary of the statements about f64 rounding

    An f64 is Flocq's binary64 (B64.v).  [is_finite x] excludes NaN and the
    infinities; [B2R x] is the real number a finite x stands for. *)
From Coq Require Import ZArith Reals.
From Flocq Require Import Core BinarySingleNaN.
From mathcomp Require Import all_ssreflect.
From Verif Require Import B64.

Set Implicit Arguments.
Unset Strict Implicit.
Unset Printing Implicit Defensive.
Local Open Scope R_scope.

(** the unit roundoff 2^-53, and half the smallest positive f64, 2^-1075 *)
Definition u64 : R := / 2 ^ 53.
Definition eta64 : R := / 2 ^ 1075.

(** growth factor of k roundings, and the relative error of k roundings *)
Definition grow (k : nat) : R := (1 + u64) ^ k.
Definition err (k : nat) : R := grow k - 1.

(** finite sums of real numbers *)
Notation "\rsum_ ( i < n ) F" := (\big[Rplus/R0]_(i < n) F%R)
  (at level 41, F at level 41, i, n at level 50) : R_scope.

(** the real number of a finite f64 *)
Definition rv (x : b64) : R := B2R x.
Definition finite (x : b64) : Prop := is_finite x = true.

(** y is a closest f64 to the real number x *)
Definition nearest (x : R) (y : b64) : Prop := forall z : b64, finite z -> Rabs (rv y - x) <= Rabs (rv z - x).
