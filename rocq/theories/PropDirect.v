(** * SVD::direct (C47)

    Only property theorems, each closed by a lemma of DirectThms.v, and the
    Examples showing that their hypotheses are met.  Generated from DirectThms.v by
    tools/genprops.py. *)
From mathcomp Require Import all_ssreflect all_algebra zify ring.
From Verif Require Import Base Scalar Hoare ModelMatrix ModelLU ModelSVD ModelEigen Spec SpecDecomp MatrixProofs MatrixProofs2 MatrixThms LUProofs LUThms MiscThms QRThms Orth EigenProofs EigenThms SvdThms.
From Verif Require Import DirectThms.

Set Implicit Arguments.
Unset Strict Implicit.
Unset Printing Implicit Defensive.
Import Order.TTheory GRing.Theory Num.Theory.
Local Open Scope ring_scope.

(** ** C47 SVD::direct *)

(** C47: whenever SVD::direct returns, U S V^T is exactly A (for any threshold eps of the eigenvalue
    iteration), S is rectangular diagonal with positive entries in non-increasing order, and the factor on the
    shorter side (V for m >= n, U for m < n) is orthogonal. *)
Theorem svd_direct_correct : forall (F : rcfType) (eps tiny : F) m n (A : 'M[F]_(m.+1, n.+1)) fuel ge g gp gt1 gt2 d,
  0 <= eps ->
  svd_direct (S:=exactE eps tiny) fuel ge g gp gt1 gt2 (mat_of A) = Ok d ->
  exists (s : seq F) (U : 'M[F]_m.+1) (V : 'M[F]_n.+1),
  [/\ [/\ svd_u d = mat_of U, svd_s d = mat_of (rdiag m.+1 n.+1 s) & svd_v d = mat_of V],
      [/\ size s = minn m.+1 n.+1, forall i, (i < minn m.+1 n.+1)%N -> 0 < nth 0 s i
        & forall i, (i.+1 < minn m.+1 n.+1)%N -> nth 0 s i.+1 <= nth 0 s i],
      A = U *m rdiag m.+1 n.+1 s *m V^T &
      if (n <= m)%N then orthogonal V else orthogonal U].
Proof. exact: svd_direct_correct_L. Qed.
Print Assumptions svd_direct_correct.

(** C47 with a zero threshold: apart from not converging, SVD::direct returns exactly for the matrices of
    full rank min(m, n), and panics (unwrap of None) for all others. *)
Theorem svd_direct_rank : forall (F : rcfType) (tiny : F) m n (A : 'M[F]_(m.+1, n.+1)) fuel ge g gp gt1 gt2,
  let result := svd_direct (S:=exactE 0 tiny) fuel ge g gp gt1 gt2 (mat_of A) in
  [\/ result = Err OutOfFuel,
      (\rank A < minn m.+1 n.+1)%N /\ result = Err Panic |
      \rank A = minn m.+1 n.+1 /\ exists d, result = Ok d].
Proof. exact: svd_direct_rank_L. Qed.
Print Assumptions svd_direct_rank.

(** C47, total: with a positive threshold eps, SVD::direct returns for every matrix whose smallest singular
    value is not too small: here mu is a lower bound for its square (for the side that is used), and mu has to
    exceed the error of the eigenvalues of the Gram matrix, 12 min(m,n) eps |A^T A|_F.  (For a smaller one it
    may panic.)  The bound on the number of iterations is the one of the symmetric eigenvalue problem. *)
Theorem svd_direct_total : forall (F : rcfType) (eps tiny mu : F) m n (A : 'M[F]_(m.+1, n.+1)) fuel ge g gp gt1 gt2,
  0 < eps -> (2 <= fuel)%N -> 16%:R <= 2%:R ^+ fuel * eps ^+ 6 ->
  (if (n <= m)%N then (forall x : 'cV[F]_n.+1, mu * fro x ^+ 2 <= fro (A *m x) ^+ 2) /\
                      (12 * n.+1)%:R * eps * fro (A^T *m A) < mu
   else (forall x : 'cV[F]_m.+1, mu * fro x ^+ 2 <= fro (A^T *m x) ^+ 2) /\
        (12 * m.+1)%:R * eps * fro (A *m A^T) < mu) ->
  exists d, svd_direct (S:=exactE eps tiny) fuel ge g gp gt1 gt2 (mat_of A) = Ok d.
Proof. exact: svd_direct_total_L. Qed.
Print Assumptions svd_direct_total.

(** the hypotheses are met by the 2 x 2 identity, the f64 epsilon and 316 iterations *)
Example svd_direct_total_example (F : rcfType) : let eps : F := 2%:R ^- 52 in
  [/\ 0 < eps, 16%:R <= 2%:R ^+ 316 * eps ^+ 6,
      forall x : 'cV[F]_2, 1 * fro x ^+ 2 <= fro (1%:M *m x) ^+ 2 &
      (12 * 2)%:R * eps * fro ((1%:M : 'M[F]_2)^T *m 1%:M) < 1].
Proof.
have p k : 0 < 2%:R ^+ k :> F by rewrite exprn_gt0 ?ltr0n.
split=> [| |x|]; first by rewrite invr_gt0.
- rewrite exprVn -exprM (_ : 316%N = (4 + 52 * 6)%N) // exprD mulfK ?gt_eqF //.
  by rewrite -natrX.
- by rewrite mul1mx mul1r.
have h : fro (1%:M : 'M[F]_2) <= 2%:R.
  rewrite -[2%:R]ger0_norm ?ler0n // -sqrtr_sqr ler_wsqrtr //.
  by rewrite !big_ord_recl !big_ord0 !mxE /= !addr0 expr0n expr1n /= addr0 add0r -natrX -(natrD _ 1 1) ler_nat.
rewrite trmx1 mulmx1; apply: le_lt_trans (ler_wpmul2l _ h) _; first by rewrite mulr_ge0 ?ler0n // ltW // invr_gt0.
rewrite mulrAC -natrM ltr_pdivr_mulr // mul1r -natrX ltr_nat.
by apply: (@leq_trans (2 ^ 6)); rewrite ?leq_exp2l.
Qed.

(** C47: the claim that U and V are orthogonal fails for every non-square matrix: the factor on the longer
    side has zero columns.  (Here for m > n; a wide matrix is transposed first.) *)
Theorem svd_direct_u_refuted : forall (F : rcfType) (eps tiny : F) m n (A : 'M[F]_(m.+1, n.+1)) fuel ge g gp gt1 gt2 d,
  0 <= eps -> (n < m)%N ->
  svd_direct (S:=exactE eps tiny) fuel ge g gp gt1 gt2 (mat_of A) = Ok d ->
  exists U : 'M[F]_m.+1, [/\ svd_u d = mat_of U, forall i j : 'I_m.+1, (n < j)%N -> U i j = 0 & ~ orthogonal U].
Proof. exact: svd_direct_u_refuted_L. Qed.
Print Assumptions svd_direct_u_refuted.

(** C47 with a zero threshold, m >= n: the first n columns of U are orthonormal, the others are zero
    (so for square matrices U is orthogonal). *)
Theorem svd_direct_thin : forall (F : rcfType) (tiny : F) m n (A : 'M[F]_(m.+1, n.+1)) fuel ge g gp gt1 gt2 d,
  (n <= m)%N ->
  svd_direct (S:=exactE 0 tiny) fuel ge g gp gt1 gt2 (mat_of A) = Ok d ->
  exists2 U : 'M[F]_m.+1, svd_u d = mat_of U & U^T *m U = pid_mx n.+1.
Proof. exact: svd_direct_thin_L. Qed.
Print Assumptions svd_direct_thin.
