(** * (generated by tools/gen32.py from SpecFloatPinvPrio.v) SpecFloat32PinvPrio: the quantities in the a priori guarantee for pinverse in f32 (C72), and of the QR solver (C73)

    Nothing here depends on the model.  The matrix has m rows, n <= m columns, and columns of Euclidean norm at most M. *)
From Coq Require Import ZArith Reals.
From Flocq Require Import Core BinarySingleNaN.
From mathcomp Require Import all_ssreflect all_algebra.
From Verif Require Import B32 SpecFloat32 SpecFloat32Prio.

Set Implicit Arguments.
Unset Strict Implicit.
Unset Printing Implicit Defensive.
Local Open Scope R_scope.

(** the error of the QR decomposition (C58), and of the computed R' R *)
Definition qr_err (m n : nat) (M : R) : R :=
  let C := (1 + 25 * err (m + 3)) ^ n in (C - 1) * M + INR n * (C * / 2 ^ 64).
Definition gram_err (m n : nat) (M : R) : R :=
  let q := qr_err m n M in
  (M + q) * q + q * M + err m * ((M + q) * (M + q)) + INR m * (grow m * eta32).

(** a bound for the elements of the result, when those of the computed inverse of R' R are at most Z *)
Definition pinv_bound (n : nat) (M Z : R) : R := grow n * (INR n * (Z * M) + INR n * eta32).

(** what A' A X can differ from A': the errors of R' R, of the last product, and of the inversion ([P] is a bound for the
    elements of R' R, [W] for those of its triangular factor) *)
Definition pinv_err (m n : nat) (M P W Z : R) : R :=
  INR n * (gram_err m n M * pinv_bound n M Z) +
  INR n * (P * (err n * (INR n * (Z * M)) + INR n * (grow n * eta32))) +
  INR n * (solve_error n W (INR n * Z) * M).

(** a matrix with a zero (of either sign) on its diagonal; NaN and infinities are not zeros *)
Definition diag_zero m n (Rm : 'M[b32]_(m, n)) : bool :=
  [exists i : 'I_m, [exists j : 'I_n, (i == j :> nat) && Beqb (Rm i j) b32_zero]].
