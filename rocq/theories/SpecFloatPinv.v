(** * SpecFloatPinv: the error bound for pinverse in f64 (C71)

    Nothing here depends on the model. *)
From Coq Require Import ZArith Reals.
From mathcomp Require Import all_ssreflect all_algebra.
From Verif Require Import B64 SpecFloat64 SpecFloatPrio.

Set Implicit Arguments.
Unset Strict Implicit.
Unset Printing Implicit Defensive.
Local Open Scope R_scope.

Section Pinv.
Variables m n : nat.
Variable A : 'M[b64]_(m, n).

(** the Euclidean norm of column j *)
Definition col_norm (j : 'I_n) : R := sqrt (\rsum_(i < m) (rv (A i j) ^ 2)).

(** the error bound of the QR decomposition for column j (C58) *)
Definition qr_error (j : 'I_n) : R :=
  let r := minn m n in
  let E := err (m + 3) in
  ((1 + 25 * E) ^ r - 1) * col_norm j + INR r * ((1 + 25 * E) ^ r * / 2 ^ 512).

(** how far the computed R' R can be from A' A *)
Definition gram_error (i j : 'I_n) : R :=
  let ci := col_norm i + qr_error i in
  let cj := col_norm j + qr_error j in
  ci * qr_error j + qr_error i * col_norm j + err m * (ci * cj) + INR m * (grow m * eta64).

(** (A' A) X - A', element (i, j): [N] is the computed R' R, [Y] its computed inverse, [X] the result, [W] a bound for the
    elements of the triangular factor of N.  The three sums come from computing R' R, from the product of Y and A', and from
    the inversion. *)
Definition pinv_error (N Y : 'M[b64]_n) (X : 'M[b64]_(n, m)) (W : R) (i : 'I_n) (j : 'I_m) : R :=
  \rsum_(l < n) (gram_error i l * Rabs (rv (X l j))) +
  \rsum_(l < n) (Rabs (rv (N i l)) *
     (err n * (\rsum_(k < n) (Rabs (rv (Y l k)) * Rabs (rv (A j k)))) + INR n * (grow n * eta64))) +
  \rsum_(k < n) (solve_error n W (\rsum_(p < n) Rabs (rv (Y p k))) * Rabs (rv (A j k))).

(** A' A, over the real numbers *)
Definition gram (i j : 'I_n) : R := \rsum_(k < m) (rv (A k i) * rv (A k j)).
End Pinv.
