(** * singular value decomposition (C35, C36)

    Only property theorems, each closed by a lemma of SvdThms.v, and the
    Examples showing that their hypotheses are met.  Generated from SvdThms.v by
    tools/genprops.py. *)
From mathcomp Require Import all_ssreflect all_algebra zify ring.
From Verif Require Import Base Scalar Hoare ModelMatrix ModelSVD Spec SpecDecomp MatrixProofs MatrixProofs2 MatrixThms LUProofs LUThms MiscThms QRThms Orth TredProofs TqlProofs EigenProofs OrthesProofs EigenThms SvdBidiag SvdIter.
From Verif Require Import SvdThms.

Set Implicit Arguments.
Unset Strict Implicit.
Unset Printing Implicit Defensive.
Import Order.TTheory GRing.Theory Num.Theory.
Local Open Scope ring_scope.

(** ** C35 the decomposition *)

(** C35: for every matrix (tall, square or wide), whatever the uninitialised buffers held and however many
    iterations are allowed: SVD::new either does not return within them, or returns U and V orthogonal, S
    rectangular diagonal with non-negative entries in non-increasing order, and A = U S V^T up to
    (min(m,n) - 1) (tiny + 2 eps |A|_F), tiny and eps being the two thresholds the code compares with.
    No panic, no index out of bounds, no division by zero, no root of a negative number.
    (The matrix is (m+1) x (n+1), so min - 1 is minn m n.) *)
Theorem svd_correct : forall (F : rcfType) (eps tiny : F) m n (A : 'M[F]_(m.+1, n.+1)) fuel (g : nat -> nat -> F),
  0 <= eps -> 0 <= tiny ->
  let result := svd_new (S:=exactE eps tiny) fuel (g 0%N) (g 1%N) (g 2%N) (g 3%N) (g 4%N) (g 5%N) (g 6%N) (g 7%N) (mat_of A) in
  result = Err OutOfFuel \/
  exists (s : seq F) (U : 'M[F]_m.+1) (V : 'M[F]_n.+1),
  [/\ result = Ok (SVDec (S:=exactE eps tiny) (mat_of U) (mat_of (rdiag m.+1 n.+1 s)) (mat_of V)),
      [/\ size s = minn m.+1 n.+1, forall i, (i < minn m.+1 n.+1)%N -> 0 <= nth 0 s i
        & forall i, (i.+1 < minn m.+1 n.+1)%N -> nth 0 s i.+1 <= nth 0 s i],
      orthogonal U, orthogonal V &
      fro (A - U *m rdiag m.+1 n.+1 s *m V^T) <= (minn m n)%:R * (tiny + 2%:R * eps * fro A)].
Proof. exact: svd_correct_L. Qed.
Print Assumptions svd_correct.

(** C35, total: with a positive lower threshold the iteration always ends (the shift makes the last
    off-diagonal elements of B B^T shrink geometrically), after at most q (q + 1) (K + 1) rounds, where
    q = min(m, n) and K is such that 2^K tiny^12 >= 16 |A|_F^12.  So SVD::new returns for every matrix. *)
Theorem svd_total : forall (F : rcfType) (eps tiny : F) m n (A : 'M[F]_(m.+1, n.+1)) K fuel (g : nat -> nat -> F),
  0 <= eps -> 0 < tiny -> (2 <= K)%N -> 16%:R * fro A ^+ 12 <= 2%:R ^+ K * tiny ^+ 12 ->
  (minn m.+1 n.+1 * (minn m.+1 n.+1).+1 * K.+1 <= fuel)%N ->
  exists (s : seq F) (U : 'M[F]_m.+1) (V : 'M[F]_n.+1),
  [/\ svd_new (S:=exactE eps tiny) fuel (g 0%N) (g 1%N) (g 2%N) (g 3%N) (g 4%N) (g 5%N) (g 6%N) (g 7%N) (mat_of A)
        = Ok (SVDec (S:=exactE eps tiny) (mat_of U) (mat_of (rdiag m.+1 n.+1 s)) (mat_of V)),
      [/\ size s = minn m.+1 n.+1, forall i, (i < minn m.+1 n.+1)%N -> 0 <= nth 0 s i
        & forall i, (i.+1 < minn m.+1 n.+1)%N -> nth 0 s i.+1 <= nth 0 s i],
      orthogonal U, orthogonal V &
      fro (A - U *m rdiag m.+1 n.+1 s *m V^T) <= (minn m n)%:R * (tiny + 2%:R * eps * fro A)].
Proof. exact: svd_total_L. Qed.
Print Assumptions svd_total.

(** the hypotheses are met by the two thresholds of the f64 code (2^-52 and 2^-966), every matrix of norm at
    most 2^10, and K = 11716 *)
Example svd_total_example (F : rcfType) m n (A : 'M[F]_(m.+1, n.+1)) : fro A <= 2%:R ^+ 10 ->
  let tiny : F := 2%:R ^- 966 in [/\ 0 < tiny, (2 <= 11716)%N & 16%:R * fro A ^+ 12 <= 2%:R ^+ 11716 * tiny ^+ 12].
Proof.
have p k : 0 < 2%:R ^+ k :> F by rewrite exprn_gt0 ?ltr0n.
move=> h; split; [by rewrite invr_gt0|by []|].
rewrite exprVn -exprM -(subnK (_ : 966 * 12 <= 11716)%N) // exprD mulfK ?gt_eqF //.
have -> : (11716 - 966 * 12 = 4 + 10 * 12)%N by [].
rewrite [X in _ <= X]exprD exprM -natrX; apply: ler_pmul; rewrite ?ler0n ?exprn_ge0 ?fro_ge0 //.
by apply: ler_expn2r; rewrite ?nnegrE ?fro_ge0 // ltW.
Qed.

(** C35 with zero thresholds: the factorisation is exact, and the singular values are the square roots of
    the eigenvalues of A^T A (columns of V) and A A^T (columns of U). *)
Theorem svd_exact : forall (F : rcfType) m n (A : 'M[F]_(m.+1, n.+1)) fuel (g : nat -> nat -> F) d,
  svd_new (S:=exactE 0 0) fuel (g 0%N) (g 1%N) (g 2%N) (g 3%N) (g 4%N) (g 5%N) (g 6%N) (g 7%N) (mat_of A) = Ok d ->
  exists (s : seq F) (U : 'M[F]_m.+1) (V : 'M[F]_n.+1),
  [/\ [/\ svd_u d = mat_of U, svd_s d = mat_of (rdiag m.+1 n.+1 s) & svd_v d = mat_of V],
      A = U *m rdiag m.+1 n.+1 s *m V^T,
      (A^T *m A) *m V = V *m (rdiag n.+1 m.+1 s *m rdiag m.+1 n.+1 s) &
      (A *m A^T) *m U = U *m (rdiag m.+1 n.+1 s *m rdiag n.+1 m.+1 s)].
Proof. exact: svd_exact_L. Qed.
Print Assumptions svd_exact.

(** The decomposition does return for every column and every row vector, after two rounds of the loop (so
    the second alternative of the theorem above is met). *)
Theorem svd_vector_returns : forall (F : rcfType) (eps tiny : F) m n (A : 'M[F]_(m.+1, n.+1)) fuel (g : nat -> nat -> F),
  0 <= eps -> 0 <= tiny -> m = 0%N \/ n = 0%N ->
  exists d, svd_new (S:=exactE eps tiny) fuel.+2 (g 0%N) (g 1%N) (g 2%N) (g 3%N) (g 4%N) (g 5%N) (g 6%N) (g 7%N) (mat_of A) = Ok d.
Proof. exact: svd_vector_returns_L. Qed.
Print Assumptions svd_vector_returns.

(** ** C36 rank *)

(** C36: rank() counts the singular values above max(m, n) s_00 eps when the matrix has at least as many
    columns as rows ... *)
Theorem svd_rank_partial : forall (F : rcfType) (eps tiny : F) m n (s : seq F) (U : 'M[F]_m.+1) (V : 'M[F]_n.+1),
  (m <= n)%N -> size s = minn m.+1 n.+1 ->
  svd_rank (SVDec (S:=exactE eps tiny) (mat_of U) (mat_of (rdiag m.+1 n.+1 s)) (mat_of V))
  = Ok (count_above ((maxn m.+1 n.+1)%:R * nth 0 s 0 * eps) s).
Proof. exact: svd_rank_partial_L. Qed.
Print Assumptions svd_rank_partial.

(** ... and panics for every matrix with more rows than columns, contrary to the claim that it does not. *)
Theorem svd_rank_tall_refuted : forall (F : rcfType) (eps tiny : F) m n (s : seq F) (U : 'M[F]_m.+1) (V : 'M[F]_n.+1),
  (n < m)%N ->
  svd_rank (SVDec (S:=exactE eps tiny) (mat_of U) (mat_of (rdiag m.+1 n.+1 s)) (mat_of V)) = Err Panic.
Proof. exact: svd_rank_tall_refuted_L. Qed.
Print Assumptions svd_rank_tall_refuted.

(** C36 with zero thresholds, m <= n: rank() of the decomposition is the rank of the matrix. *)
Theorem svd_rank_exact : forall (F : rcfType) m n (A : 'M[F]_(m.+1, n.+1)) fuel (g : nat -> nat -> F) d,
  (m <= n)%N ->
  svd_new (S:=exactE 0 0) fuel (g 0%N) (g 1%N) (g 2%N) (g 3%N) (g 4%N) (g 5%N) (g 6%N) (g 7%N) (mat_of A) = Ok d ->
  svd_rank d = Ok (\rank A).
Proof. exact: svd_rank_exact_L. Qed.
Print Assumptions svd_rank_exact.
