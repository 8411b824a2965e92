(** * C48: eigen.rs, matrices that are not symmetric

    Only property theorems, each closed by a lemma of HqrThms.v, and the
    Examples showing that their hypotheses are met.  Generated from HqrThms.v by
    tools/genprops.py. *)
From mathcomp Require Import all_ssreflect all_algebra zify ring.
From Verif Require Import Base Scalar Hoare ModelMatrix ModelEigen Spec SpecDecomp MatrixProofs MatrixThms LUProofs LUThms MiscThms QRThms Orth TredProofs TqlProofs EigenProofs OrthesProofs EigenThms HqrStep HqrSweep HqrIter HqrMore HqrTwo HqrAll HqrBack HqrFinal.
From Verif Require Import HqrThms.

Set Implicit Arguments.
Unset Strict Implicit.
Unset Printing Implicit Defensive.
Import Order.TTheory GRing.Theory Num.Theory.
Local Open Scope ring_scope.

(** ** C48 matrices that are not symmetric *)

(** C48: for every square matrix that is not symmetric, whatever the uninitialised buffers held and
    however many QR iterations are allowed: the decomposition either does not return within them, or returns
    eigenvalues d_i + i e_i and a matrix V such that
    - complex eigenvalues come in adjacent conjugate pairs, positive imaginary part first;
    - they are exactly the eigenvalues, with multiplicities, of a matrix B near A;
    - V is invertible;
    - A V = V D up to a small error, where D is the block diagonal matrix get_d returns, unless two of the
      conjugate pairs are the same.
    No panic, no division by zero, no root of a negative number.  eps is the machine epsilon the code
    compares with; the bounds go to 0 with it. *)
Theorem eigen_general_correct : forall (F : rcfType) (eps tiny : F) n (A : 'M[F]_n.+1) fuel (g : nat -> nat -> F),
  0 < eps -> A^T <> A ->
  let result := eigen_new (S:=exactE eps tiny) fuel (g 0%N) (g 1%N) (g 2%N) (g 3%N) (g 4%N) (g 5%N) (g 6%N) (g 7%N) (mat_of A) in
  let delta := (1 + eps * (18 + 2 * (n.+1 * n.+1))%:R) ^+ fuel - 1 in
  result = Err OutOfFuel \/
  exists (d e : seq F) (V B : 'M[F]_n.+1),
  [/\ result = Ok (Eigen (S:=exactE eps tiny) n.+1 d e (mat_of V)),
      conj_pairs n.+1 d e,
      fro (A - B) <= delta * fro A /\ char_poly B = eig_poly n.+1 d e,
      V \in unitmx &
      distinct_pairs n.+1 d e ->
      fro (A *m V - V *m pair_blocks n.+1 d e) <= (delta + eps * (n.+1 * n.+1)%:R) * fro A * fro V].
Proof. exact: eigen_general_correct_L. Qed.
Print Assumptions eigen_general_correct.

(** C48: for a 2 x 2 matrix that is not symmetric three iterations are always enough, so the
    decomposition returns. *)
Theorem eigen_general_2x2_returns : forall (F : rcfType) (eps tiny : F) (A : 'M[F]_2) fuel (g : nat -> nat -> F),
  0 < eps -> A^T <> A -> (3 <= fuel)%N ->
  exists x, eigen_new (S:=exactE eps tiny) fuel (g 0%N) (g 1%N) (g 2%N) (g 3%N) (g 4%N) (g 5%N) (g 6%N) (g 7%N) (mat_of A) = Ok x.
Proof. exact: eigen_general_2x2_returns_L. Qed.
Print Assumptions eigen_general_2x2_returns.

(** ** C40 get_d of a decomposition that was returned *)

(** C40: for every square matrix, symmetric or not: if new returns, then get_d does not panic and
    is the block diagonal matrix with the block [d] for a real eigenvalue and the block [d e; -e d] for a
    conjugate pair. *)
Theorem eigen_get_d_total : forall (F : rcfType) (eps tiny : F) n (A : 'M[F]_n.+1) fuel (g : nat -> nat -> F) g' x,
  0 < eps ->
  eigen_new (S:=exactE eps tiny) fuel (g 0%N) (g 1%N) (g 2%N) (g 3%N) (g 4%N) (g 5%N) (g 6%N) (g 7%N) (mat_of A) = Ok x ->
  conj_pairs n.+1 (eg_d x) (eg_e x) /\
  eigen_get_d g' x = Ok (mat_of (pair_blocks n.+1 (eg_d x) (eg_e x))).
Proof. exact: eigen_get_d_total_L. Qed.
Print Assumptions eigen_get_d_total.

(** C48: up to size 3 there is at most one conjugate pair, so the error bound on A V = V D always applies;
    from size 4 on it is a real condition. *)
Theorem distinct_pairs_small : forall (F : rcfType) n (d e : seq F), (n <= 3)%N -> conj_pairs n d e -> distinct_pairs n d e.
Proof. exact: distinct_pairs_small_L. Qed.
Print Assumptions distinct_pairs_small.

(** the hypotheses are met by the rotation by a right angle, and the decomposition returns *)
Example eigen_general_example (F : rcfType) (eps tiny : F) (g : nat -> nat -> F) :
  let A : 'M[F]_2 := \matrix_(i, j) (if i == j then 0 else if (i < j)%N then 1 else -1) in
  0 < eps ->
  A^T <> A /\ exists x, eigen_new (S:=exactE eps tiny) 3 (g 0%N) (g 1%N) (g 2%N) (g 3%N) (g 4%N) (g 5%N) (g 6%N) (g 7%N) (mat_of A) = Ok x.
Proof.
move=> A e0; have nA : A^T <> A.
  move=> /matrixP/(_ ord0 ord_max); rewrite !mxE /= => /eqP.
  by rewrite eq_sym -subr_eq0 opprK -mulr2n mulrn_eq0 oner_eq0.
by split=> //; apply: eigen_general_2x2_returns.
Qed.
