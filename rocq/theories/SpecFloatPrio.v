(** * SpecFloatPrio: the quantities in the a priori guarantees for LU in f64 (C63)

    Nothing here depends on the model: [u64] is the unit roundoff 2^-53, [eta64] = 2^-1075 half the smallest positive
    number, [grow k] = (1 + u64)^k and [err k] = (1 + u64)^k - 1. *)
From Coq Require Import ZArith Reals.
From mathcomp Require Import all_ssreflect all_algebra.
From Verif Require Import B64 SpecFloat64.

Set Implicit Arguments.
Unset Strict Implicit.
Unset Printing Implicit Defensive.
Local Open Scope R_scope.

(** a bound for row i of U when |A| <= M and U has r rows: 2^i M, but for the rounding errors *)
Definition lu_bound (r : nat) (M : R) (i : nat) : R := grow r.+1 * (1 + grow r.+1) ^ i * (M + INR r.+1 * eta64).

(** the real matrix V is a left inverse of A *)
Definition left_inverse n (V : 'I_n -> 'I_n -> R) (A : 'M[b64]_n) : Prop :=
  forall i j, \rsum_(l < n) (V i l * rv (A l j)) = if i == j then 1 else 0.

(** what rounding can do to an element of a matrix of size n when |L| <= 1 and |U| <= W *)
Definition lu_error (n : nat) (W : R) : R := INR n * (err n * W + grow n * eta64 * (1 + W)).

(** how far an element of A X can be from the right-hand side, when the absolute values in the column of X add up to S *)
Definition solve_error (n : nat) (W S : R) : R :=
  err (3 * n) * INR n * W * S + grow (2 * n) * eta64 * (INR n * (1 + INR n + W + (1 + W) * S)).

(** a bound for the elements of the solution, when |U| <= W, the right-hand side leads to |y| <= Y and the inverse of the
    matrix has absolute row sums at most K *)
Definition sol_bound (n : nat) (K W Y : R) : R := 2 * K * (INR n * (Y + grow n * eta64 * (INR n + W))).

(** a bound for the squares in a row of a Cholesky factor of size n when the diagonal of A is at most D, and how far an
    element of A X can be from the right-hand side *)
Definition chol_bound (n : nat) (D : R) : R := 2 * (D + grow n.+1 * eta64 * INR n.+2).
Definition chol_error (n : nat) (W S : R) : R :=
  err (3 * n + 1) * W * S +
  grow (2 * n + 1) * eta64 * (INR n + 1 + W + INR n * (INR n + 2 * W) + (INR n + 2 + 2 * W) * S).

(** for a Cholesky factor of size n whose elements are at most w: how far its product can be from A, and bounds for the
    results of the forward (right-hand side at most b) and of the back substitution, when the inverse of A has absolute row
    sums at most K *)
Definition chol_factor_error (n : nat) (w : R) : R := err n.+1 * (w * w) + grow n.+1 * eta64 * (INR n + 2 * w).
Definition chol_forward_bound (n : nat) (K w b : R) : R := INR n * (w * (2 * K * (b + grow n * eta64 * (INR n + w)))).
Definition chol_sol_bound (n : nat) (K w Y : R) : R := 2 * K * (INR n * (w * (Y + grow n * eta64 * (INR n + w)))).
