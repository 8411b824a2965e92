(** * PropFloat: f64 comparisons, products, sums and norms (C49, C50)

    Only property theorems, each closed by a lemma of FloatThms.v, and the
    Examples showing that their hypotheses are met.  Generated from FloatThms.v by
    tools/genprops.py. *)
From Coq Require Import ZArith Reals Lra Psatz.
From Flocq Require Import Core BinarySingleNaN.
From mathcomp Require Import all_ssreflect all_algebra zify.
From Verif Require Import Base Scalar Hoare ModelMatrix Spec MatrixThms MiscThms B64 SpecFloat64 FloatBase.
From Verif Require Import FloatThms.

Set Implicit Arguments.
Unset Strict Implicit.
Unset Printing Implicit Defensive.

Local Open Scope R_scope.

(** ** C49 special values in comparisons *)

(** C49, f64: a matrix is approximately equal to itself exactly when it contains no NaN and no infinity. *)
Theorem approx_eq_refl_f64 : forall m n (A : 'M[b64]_(m.+1, n.+1)),
  approx_eq (S:=B64) (mat_of A) (mat_of A) = Ok [forall i, forall j, is_finite (A i j)].
Proof. exact: approx_eq_refl_f64_L. Qed.
Print Assumptions approx_eq_refl_f64.

(** C49, f64: approx_eq is symmetric for all values, NaN and infinities included. *)
Theorem approx_eq_sym_f64 : forall m n (A B : 'M[b64]_(m.+1, n.+1)),
  approx_eq (S:=B64) (mat_of A) (mat_of B) = approx_eq (S:=B64) (mat_of B) (mat_of A).
Proof. exact: approx_eq_sym_f64_L. Qed.
Print Assumptions approx_eq_sym_f64.

(** C49, f64: a matrix with A(i,j) = A(j,i) is reported symmetric exactly when its off-diagonal elements are finite;
  the diagonal is not looked at. *)
Theorem is_symmetric_f64 : forall n (A : 'M[b64]_n.+1),
  (forall i j, A i j = A j i) ->
  is_symmetric (S:=B64) (mat_of A) = Ok [forall i : 'I_n.+1, forall j : 'I_n.+1, (i != j) ==> is_finite (A i j)].
Proof. exact: is_symmetric_f64_L. Qed.
Print Assumptions is_symmetric_f64.

(** C49, f64: == on matrices of the same shape compares element by element; A == A unless A contains a NaN. *)
Theorem mat_eq_refl_f64 : forall m n (A : 'M[b64]_(m.+1, n.+1)),
  mat_eq (s_eqb (s:=B64)) (mat_of A) (mat_of A) = [forall i, forall j, ~~ is_nan (A i j)].
Proof. exact: mat_eq_refl_f64_L. Qed.
Print Assumptions mat_eq_refl_f64.

(** a matrix with one NaN off the diagonal: neither approximately equal nor equal to itself, and not symmetric *)
Definition nan_mat : 'M[b64]_2 := (\matrix_(i, j) (if (i == j)%N then b64_int 1 else B754_nan))%R.
Example nan_mat_example :
  [/\ approx_eq (S:=B64) (mat_of nan_mat) (mat_of nan_mat) = Ok false,
      is_symmetric (S:=B64) (mat_of nan_mat) = Ok false & mat_eq (s_eqb (s:=B64)) (mat_of nan_mat) (mat_of nan_mat) = false].
Proof.
split.
- rewrite approx_eq_refl_f64; congr Ok; apply/negbTE/negP => /forallP /(_ ord0) /forallP /(_ ord_max).
  by rewrite mxE.
- rewrite is_symmetric_f64; last by move=> i j; rewrite !mxE eq_sym.
  congr Ok; apply/negbTE/negP => /forallP /(_ ord0) /forallP /(_ ord_max).
  by rewrite mxE.
- rewrite mat_eq_refl_f64; apply/negbTE/negP => /forallP /(_ ord0) /forallP /(_ ord_max).
  by rewrite mxE.
Qed.

(** ** C50 rounding errors of products, sums and norms *)

(** C50, f64 matrix product: whenever an element of the computed product is finite, the factors it was formed from are
  finite and it differs from the exact sum of products by at most ((1+u)^p - 1) times the sum of the absolute values
  of the products, plus p (1+u)^p eta for underflow; p is the inner dimension, u = 2^-53, eta = 2^-1075.  The element
  is finite whenever its factors are and the sum of the absolute values is not close to the overflow threshold. *)
Theorem mul_rounding : forall g m p n (A : 'M[b64]_(m.+1, p.+1)) (B : 'M[b64]_(p.+1, n.+1)),
  exists C : 'M[b64]_(m.+1, n.+1), mul (N:=B64) g (mat_of A) (mat_of B) = Ok (mat_of C) /\
  forall i j,
    let exact := \rsum_(k < p.+1) (rv (A i k) * rv (B k j)) in
    let magnitude := \rsum_(k < p.+1) (Rabs (rv (A i k)) * Rabs (rv (B k j))) in
    (finite (C i j) ->
       (forall k, finite (A i k) /\ finite (B k j)) /\
       Rabs (rv (C i j) - exact) <= err p.+1 * magnitude + INR p.+1 * (grow p.+1 * eta64)) /\
    ((forall k, finite (A i k) /\ finite (B k j)) ->
       grow p.+1 * (magnitude + INR p.+1 * eta64) <= 2 ^ 1023 -> finite (C i j)).
Proof. exact: mul_rounding_L. Qed.
Print Assumptions mul_rounding.

(** C50, f64 trace: error at most ((1+u)^(n-1) - 1) times the sum of the absolute values of the diagonal. *)
Theorem trace_rounding : forall n (A : 'M[b64]_n.+1),
  exists t, trace (S:=B64) (mat_of A) = Ok t /\
  (finite t -> (forall i, finite (A i i)) /\
     Rabs (rv t - (\rsum_(i < n.+1) rv (A i i))) <= err n * (\rsum_(i < n.+1) Rabs (rv (A i i)))).
Proof. exact: trace_rounding_L. Qed.
Print Assumptions trace_rounding.

(** C50, f64 vector_1_norm: relative error at most (1+u)^(m-1) - 1 for m elements. *)
Theorem norm1_rounding : forall m (v : 'cV[b64]_m.+1),
  exists r, vector_1_norm (S:=B64) (mat_of v) = Ok r /\
  (finite r -> (forall i, finite (v i ord0)) /\
     Rabs (rv r - (\rsum_(i < m.+1) Rabs (rv (v i ord0)))) <= err m * (\rsum_(i < m.+1) Rabs (rv (v i ord0)))).
Proof. exact: norm1_rounding_L. Qed.
Print Assumptions norm1_rounding.

(** C50, f64 euclidean norm (length, vector_2_norm): the square of the result has relative error at most
  (1+u)^(m+2) - 1, plus an underflow term. *)
Theorem norm2_rounding : forall m (v : 'cV[b64]_m.+1),
  exists r, [/\ vector_euclidean_norm (S:=B64) (mat_of v) = Ok r, length_ (S:=B64) (mat_of v) = Ok r,
    vector_2_norm (S:=B64) (mat_of v) = Ok r &
    finite r -> let sq := \rsum_(i < m.+1) (rv (v i ord0) * rv (v i ord0)) in
     [/\ forall i, finite (v i ord0), 0 <= rv r &
      Rabs (rv r * rv r - sq) <= err m.+3 * sq + INR m.+1 * (grow m.+3 * eta64)]].
Proof. exact: norm2_rounding_L. Qed.
Print Assumptions norm2_rounding.

(** C50, f64 frobenius_norm: the same with the number of elements mn. *)
Theorem frobenius_rounding : forall m n (A : 'M[b64]_(m, n)),
  exists r, frobenius_norm (S:=B64) (mat_of A) = Ok r /\
    (finite r -> let sq := \rsum_(i < m) (\rsum_(j < n) (rv (A i j) * rv (A i j))) in
     [/\ forall i j, finite (A i j), 0 <= rv r &
      Rabs (rv r * rv r - sq) <= err (m * n).+2 * sq + INR (m * n) * (grow (m * n).+2 * eta64)]).
Proof. exact: frobenius_rounding_L. Qed.
Print Assumptions frobenius_rounding.

(** C50, f64 vector_inf_norm: exact for finite elements. *)
Theorem inf_norm_f64 : forall m (v : 'cV[b64]_m.+1), (forall i, finite (v i ord0)) ->
  exists x, [/\ vector_inf_norm (S:=B64) (mat_of v) = Ok x,
    (exists i, x = Babs (v i ord0)) & forall i, Rabs (rv (v i ord0)) <= rv x].
Proof. exact: inf_norm_f64_L. Qed.
Print Assumptions inf_norm_f64.

(** the hypotheses are met: the product of the 2 x 2 matrices of ones is finite, and so are all its factors *)
Example mul_rounding_example :
  let A : 'M[b64]_2 := (\matrix_(i, j) b64_int 1)%R in
  (forall i k, finite (A i k)) /\
  forall i j, grow 2 * ((\rsum_(k < 2) (Rabs (rv (A i k)) * Rabs (rv (A k j)))) + INR 2 * eta64) <= 2 ^ 1023.
Proof.
split=> [i k|i j]; first by rewrite mxE.
rewrite !big_ord_recl big_ord0 !mxE rv_int1 Rabs_R1 /grow /=.
have u1 := u64_lt1; have e1 : eta64 <= 1 by rewrite /eta64 -Rinv_1; apply: Rinv_le_contravar; [lra|apply: pow_R1_Rle; lra].
have u0 := u64_gt0; have e0 := eta64_gt0.
apply: (@Rle_trans _ (2 ^ 4)); last by apply: (@Rle_pow 2 4 1023); [lra|apply/leP].
rewrite /=; nra.
Qed.
