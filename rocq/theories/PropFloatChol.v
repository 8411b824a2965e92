(** * PropFloatChol: Cholesky decomposition in f64 (C53)

    Only property theorems, each closed by a lemma of FloatCholThms.v, and the
    Examples showing that their hypotheses are met.  Generated from FloatCholThms.v by
    tools/genprops.py. *)
From Coq Require Import ZArith Reals Lra Psatz.
From Flocq Require Import Core BinarySingleNaN.
From mathcomp Require Import all_ssreflect all_algebra zify.
From Verif Require Import Base Scalar Hoare ModelMatrix ModelCholesky Spec MatrixProofs MatrixProofs2 LUProofs LUEval CholEval B64 SpecFloat64 FloatBase FloatLU FloatChol.
From Verif Require Import FloatCholThms.

Set Implicit Arguments.
Unset Strict Implicit.
Unset Printing Implicit Defensive.

Local Open Scope R_scope.

(** ** C53 Cholesky decomposition in f64 *)

(** C53: for every square f64 matrix (NaN and infinities included) CholeskyDecomposition::new returns None or a lower
  triangular L, and the same one whatever the uninitialised memory contains.  When L is finite, the matrix is finite and
  symmetric, the diagonal of L is positive and L L' reproduces the matrix up to (1+u)^(n+1) - 1 relative to |L||L'|,
  plus an underflow term. *)
Theorem chol_rounding : forall g n (A : 'M[b64]_n.+1),
  chol_new (S:=B64) g (mat_of A) = Ok None \/
  exists L : 'M[b64]_n.+1,
  [/\ chol_new (S:=B64) g (mat_of A) = Ok (Some (mat_of L)),
      forall i j : 'I_n.+1, (i < j)%N -> L i j = b64_zero &
  (forall i j, finite (L i j)) ->
  [/\ forall i j, finite (A i j), forall i j, rv (A i j) = rv (A j i), forall i, 0 < rv (L i i) &
      forall i j, Rabs (rv (A i j) - (\rsum_(l < n.+1) (rv (L i l) * rv (L j l)))) <=
        err n.+2 * (\rsum_(l < n.+1) (Rabs (rv (L i l)) * Rabs (rv (L j l)))) +
        grow n.+2 * eta64 * (INR n.+1 + rv (L j j) + rv (L i i))]].
Proof. exact: chol_rounding_L. Qed.
Print Assumptions chol_rounding.

(** C53: what Some means: the matrix is positive semidefinite up to rounding, with a tolerance relative to its trace t:
  x'Ax >= -(2 err (t + w) + underflow) |x|^2 for every real vector x, where err = (1+u)^(n+1) - 1 and w is an underflow term. *)
Theorem chol_some_f64 : forall g n (A L : 'M[b64]_n.+1),
  chol_new (S:=B64) g (mat_of A) = Ok (Some (mat_of L)) -> (forall i j, finite (L i j)) -> 4 * err n.+2 <= 1 ->
  let t := \rsum_(i < n.+1) rv (A i i) in let N := INR n.+1 in
  let w := 3 * N * N * eta64 in
  forall x : 'I_n.+1 -> R,
  - ((2 * err n.+2 * (t + w) + 2 * eta64 * N * (N + 1 + 2 * (t + w))) * (\rsum_(i < n.+1) (x i * x i))) <=
  (\rsum_(i < n.+1) (\rsum_(j < n.+1) (x i * rv (A i j) * x j))).
Proof. exact: chol_some_f64_L. Qed.
Print Assumptions chol_some_f64.

(** C53: solve with a finite factor: it never panics, and when the result is finite the residual B - A X is bounded
  componentwise by ((1+u)^(3n+1) - 1) |L||L'||X| plus an underflow term. *)
Theorem chol_solve_rounding : forall g n k (A L : 'M[b64]_n.+1) (B : 'M[b64]_(n.+1, k.+1)),
  chol_new (S:=B64) g (mat_of A) = Ok (Some (mat_of L)) ->
  exists X : 'M[b64]_(n.+1, k.+1), chol_solve (S:=B64) (mat_of L) (mat_of B) = Ok (mat_of X) /\
  ((forall i j, finite (L i j)) -> (forall i j, finite (X i j)) ->
   (forall i j, finite (B i j)) /\ forall i j,
   Rabs (rv (B i j) - (\rsum_(l < n.+1) (rv (A i l) * rv (X l j)))) <=
     err (3 * n.+1 + 1) * (\rsum_(l < n.+1) (Rabs (rv (L i l)) * (\rsum_(p < n.+1) (Rabs (rv (L p l)) * Rabs (rv (X p j)))))) +
     grow (2 * n.+1 + 1) * eta64 *
       (INR n.+1 + rv (L i i) + (\rsum_(l < n.+1) (Rabs (rv (L i l)) * (INR n.+1 + rv (L l l)))) +
        (\rsum_(p < n.+1) ((INR n.+1 + rv (L p p) + rv (L i i)) * Rabs (rv (X p j)))))).
Proof. exact: chol_solve_rounding_L. Qed.
Print Assumptions chol_solve_rounding.

(** C53, finding: "Some iff positive definite" does not extend to NaN.  A matrix whose first diagonal element is NaN (and
  whose other elements are symmetric numbers) is accepted, because NaN <= 0 is false; the factor consists of NaN. *)
Theorem chol_nan_refuted : forall g n (A : 'M[b64]_n.+1),
  is_nan (A ord0 ord0) -> (forall i j, i != j -> Beqb (A i j) (A j i)) ->
  exists L : 'M[b64]_n.+1, chol_new (S:=B64) g (mat_of A) = Ok (Some (mat_of L)) /\
    forall i j : 'I_n.+1, (j <= i)%N -> is_nan (L i j).
Proof. exact: chol_nan_refuted_L. Qed.
Print Assumptions chol_nan_refuted.

(** the hypotheses are met: a 3 x 3 matrix whose factor is computed with rounding (1/3), and the solution of a system *)
Definition mx33 : 'M[b64]_3 := (\matrix_(i, j) b64_int (Z.of_nat (if i == j then 9 else 3)%N))%R.
Definition ch_fin (M : mat b64) : bool := all (@is_finite b_prec b_emax) (data M).
Lemma mx33E : mat_of mx33 = Mat 3 [seq b64_int (Z.of_nat k) | k <- [:: 9; 3; 3; 3; 9; 3; 3; 3; 9]%N].
Proof.
apply/esym/(@rep_mat_of _ 3 3 _ (fun i j => nth b64_zero [seq b64_int (Z.of_nat k) | k <- [:: 9; 3; 3; 3; 9; 3; 3; 3; 9]%N] (i * 3 + j))).
  by split=> //; split=> // -[|[|[|i]]] // [|[|[|j]]].
by move=> [[|[|[|i]]] hi] [[|[|[|j]]] hj] //; rewrite mxE.
Qed.
Example chol_rounding_example :
  match chol_new (S:=B64) (fun=> B754_nan) (mat_of mx33) with
  | Ok (Some L) => ch_fin L && match chol_solve (S:=B64) L (mat_of mx33) with Ok X => ch_fin X | _ => false end
  | _ => false
  end.
Proof. by rewrite mx33E; vm_cast_no_check (erefl true). Qed.
Example chol_some_example : 4 * err 4 <= 1.
Proof. by have := u64_lt1; have := u64_gt0; rewrite /err /grow /=; nra. Qed.
