(** * is_full_rank and solve of the QR decomposition in f32 (C62)

    Only property theorems, each closed by a lemma of Float32QRSolveThms.v, and the
    Examples showing that their hypotheses are met.  Generated from Float32QRSolveThms.v by
    tools/genprops.py. *)
From Coq Require Import ZArith Reals Lra Psatz.
From Flocq Require Import Core BinarySingleNaN.
From mathcomp Require Import all_ssreflect all_algebra zify.
From Verif Require Import Base Scalar Hoare ModelMatrix ModelQR Spec MatrixProofs MatrixProofs2 LUProofs LUEval QREval B32 SpecFloat32 SpecFloat32PinvPrio Float32Base Float32LU Float32Chol Float32CholThms Float32CholFull RealVec32 QRReal32 Float32QR Float32QRThms Float32QRPrio Float32QRPrioThms.
From Verif Require Import Float32QRSolveThms.

Set Implicit Arguments.
Unset Strict Implicit.
Unset Printing Implicit Defensive.

Local Open Scope R_scope.

(** ** C62 (C73 in f32) is_full_rank and solve of the QR decomposition of an f32 matrix *)

(** C62 (C73 in f32): for every f32 matrix A (NaN and infinities included) and every right-hand side B.  is_full_rank is false exactly
  if the computed R has a zero on its diagonal, true otherwise for a matrix that is not wide, and a panic for a wide one.
  solve panics if the numbers of rows differ; otherwise the result is None if R has a zero on its diagonal, and if it has
  none, solve panics for every matrix that is not square and returns some matrix of the right shape for a square one. *)
Theorem qr_solve_outcome_f32 : forall g m n m' k (A : 'M[b32]_(m.+1, n.+1)) (B : 'M[b32]_(m', k.+1)),
  exists (d : qr_decomp B32) (Rm : 'M[b32]_(m.+1, n.+1)),
  [/\ qr_new (S:=B32) g (mat_of A) = Ok d, forall g, qr_get_r g d = Ok (mat_of Rm),
      qr_is_full_rank d = (if diag_zero Rm then Ok false else if (n <= m)%N then Ok true else Err Panic) &
      if m' != m.+1 then qr_solve (S:=B32) d (mat_of B) = Err Panic
      else if diag_zero Rm then qr_solve (S:=B32) d (mat_of B) = Ok None
      else if m == n then exists X : 'M[b32]_(n.+1, k.+1), qr_solve (S:=B32) d (mat_of B) = Ok (Some (mat_of X))
      else qr_solve (S:=B32) d (mat_of B) = Err Panic].
Proof. exact: qr_solve_outcome_f32_L. Qed.
Print Assumptions qr_solve_outcome_f32.

(** C62 (C73 in f32), finding: for an f32 matrix with more rows than columns that satisfies the conditions of C68 (columns of norm at
  most M, singular values at least sg), the least squares problem that solve is for, solve always panics. *)
Theorem qr_solve_least_squares_refuted_f32 : forall g m n k (A : 'M[b32]_(m.+1, n.+1)) (B : 'M[b32]_(m.+1, k.+1)) M sg, (n < m)%N ->
  (forall i j, finite (A i j)) -> 64 * err (m.+1 + 3) <= 1 ->
  (forall j, sqrt (\rsum_(i < m.+1) (rv (A i j) ^ 2)) <= M) -> M <= 2 ^ 18 ->
  (forall x : 'I_n.+1 -> R,
     sg * sqrt (\rsum_(j < n.+1) (x j ^ 2)) <= sqrt (\rsum_(i < m.+1) ((\rsum_(j < n.+1) (rv (A i j) * x j)) ^ 2))) ->
  / 2 ^ 14 <= sg -> 2 * INR n.+1 * qr_err m.+1 n.+1 M <= sg ->
  exists d, [/\ qr_new (S:=B32) g (mat_of A) = Ok d, qr_is_full_rank d = Ok true & qr_solve (S:=B32) d (mat_of B) = Err Panic].
Proof. exact: qr_solve_least_squares_refuted_f32_L. Qed.
Print Assumptions qr_solve_least_squares_refuted_f32.

(** C62 (C73 in f32), finding: rounding makes is_full_rank call the singular matrix [1 2; 2 4] regular, and solve returns a finite
  matrix whose first element is at least 2^24 in magnitude for the right-hand side [1; 2], the first column. *)
Theorem qr_full_rank_f32_refuted : exists (A : 'M[b32]_2) (B : 'M[b32]_(2, 1)),
  [/\ rv (A ord0 ord0) = 1 /\ rv (A ord_max ord0) = 2, rv (A ord0 ord_max) = 2 /\ rv (A ord_max ord_max) = 4,
      rv (B ord0 ord0) = 1 /\ rv (B ord_max ord0) = 2 &
  forall g, exists d (X : 'M[b32]_(2, 1)),
  [/\ qr_new (S:=B32) g (mat_of A) = Ok d, qr_is_full_rank d = Ok true, qr_solve (S:=B32) d (mat_of B) = Ok (Some (mat_of X)),
      forall i j, finite (X i j) & 2 ^ 24 <= Rabs (rv (X ord0 ord0))]].
Proof. exact: qr_full_rank_f32_refuted_L. Qed.
Print Assumptions qr_full_rank_f32_refuted.

(** C62 (C73 in f32), finding: the f32 solution of 2 x = 2 is 3, and for the invertible matrix [2^-80] the answer is None. *)
Theorem qr_solve_f32_refuted : (exists A B : 'M[b32]_1, rv (A ord0 ord0) = 2 /\ rv (B ord0 ord0) = 2 /\ forall g, exists d (X : 'M[b32]_1),
     [/\ qr_new (S:=B32) g (mat_of A) = Ok d, qr_solve (S:=B32) d (mat_of B) = Ok (Some (mat_of X)) & rv (X ord0 ord0) = 3]) /\
  (exists A B : 'M[b32]_1, [/\ finite (A ord0 ord0), rv (A ord0 ord0) <> 0, rv (B ord0 ord0) = 1 &
     forall g, exists d, qr_new (S:=B32) g (mat_of A) = Ok d /\ qr_solve (S:=B32) d (mat_of B) = Ok None]).
Proof. exact: qr_solve_f32_refuted_L. Qed.
Print Assumptions qr_solve_f32_refuted.

(** all the outcomes occur: a wide matrix panics in is_full_rank or has no full rank; the hypotheses of
    qr_solve_least_squares_refuted are met by the 3 x 2 matrix of qr_no_overflow_hyps (PropFloatQRPrio.v) *)
Definition wide_rank (l : seq nat) (g : nat -> B32) : res bool :=
  match qr_new (S:=B32) g (Mat 1 [seq b32_int (Z.of_nat k) | k <- l]) with Ok d => qr_is_full_rank d | Err e => Err e end.
Example wide_rank_panics : wide_rank [:: 1; 2]%N (fun=> B754_nan) = Err Panic. Proof. by vm_cast_no_check (erefl (@Err bool Panic)). Qed.
Example wide_rank_false : wide_rank [:: 0; 2]%N (fun=> B754_nan) = Ok false. Proof. by vm_cast_no_check (erefl (Ok false)). Qed.
