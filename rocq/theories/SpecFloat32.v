(** * (generated by tools/gen32.py from SpecFloat64.v) SpecFloat32: vocabulary of the statements about f32 rounding

    An f32 is Flocq's binary32 (B32.v).  [is_finite x] excludes NaN and the
    infinities; [B2R x] is the real number a finite x stands for. *)
From Coq Require Import ZArith Reals.
From Flocq Require Import Core BinarySingleNaN.
From mathcomp Require Import all_ssreflect.
From Verif Require Import B32.

Set Implicit Arguments.
Unset Strict Implicit.
Unset Printing Implicit Defensive.
Local Open Scope R_scope.

(** the unit roundoff 2^-24, and half the smallest positive f32, 2^-150 *)
Definition u32 : R := / 2 ^ 24.
Definition eta32 : R := / 2 ^ 150.

(** growth factor of k roundings, and the relative error of k roundings *)
Definition grow (k : nat) : R := (1 + u32) ^ k.
Definition err (k : nat) : R := grow k - 1.

(** finite sums of real numbers *)
Notation "\rsum_ ( i < n ) F" := (\big[Rplus/R0]_(i < n) F%R)
  (at level 41, F at level 41, i, n at level 50) : R_scope.

(** the real number of a finite f32 *)
Definition rv (x : b32) : R := B2R x.
Definition finite (x : b32) : Prop := is_finite x = true.

(** y is a closest f32 to the real number x *)
Definition nearest (x : R) (y : b32) : Prop := forall z : b32, finite z -> Rabs (rv y - x) <= Rabs (rv z - x).
