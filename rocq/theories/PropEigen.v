(** * C37-C40: eigen.rs (symmetric matrices, Hessenberg reduction, cdiv, get_d)

    Only property theorems, each closed by a lemma of EigenThms.v, and the
    Examples showing that their hypotheses are met.  Generated from EigenThms.v by
    tools/genprops.py. *)
From mathcomp Require Import all_ssreflect all_algebra zify ring.
From Verif Require Import Base Scalar Hoare ModelMatrix ModelEigen Spec SpecDecomp MatrixProofs MatrixThms LUProofs LUThms MiscThms QRThms Orth TredProofs TqlProofs EigenProofs OrthesProofs.
From Verif Require Import EigenThms.

Set Implicit Arguments.
Unset Strict Implicit.
Unset Printing Implicit Defensive.
Import Order.TTheory GRing.Theory Num.Theory.
Local Open Scope ring_scope.

(** ** C37 symmetric matrices *)

(** C37: for every symmetric matrix, whatever the uninitialised buffers held and however many QL
    iterations are allowed: the decomposition either does not return within them, or returns V orthogonal,
    imaginary parts all zero, real parts in non-increasing order, and A = V D V^T up to 12 n eps |A|_F
    (Frobenius norm; eps is the machine epsilon the code compares with).  No panic, no division by zero,
    no root of a negative number. *)
Theorem eigen_symmetric_correct : forall (F : rcfType) (eps tiny : F) n (A : 'M[F]_n.+1) fuel (g : nat -> nat -> F),
  0 <= eps -> A^T = A ->
  let result := eigen_new (S:=exactE eps tiny) fuel (g 0%N) (g 1%N) (g 2%N) (g 3%N) (g 4%N) (g 5%N) (g 6%N) (g 7%N) (mat_of A) in
  result = Err OutOfFuel \/
  exists (d : seq F) (V : 'M[F]_n.+1),
  [/\ result = Ok (Eigen (S:=exactE eps tiny) n.+1 d (nseq n.+1 0) (mat_of V)),
      size d = n.+1 /\ (forall i j, (i < j <= n)%N -> nth 0 d j <= nth 0 d i),
      orthogonal V,
      fro (A - V *m diag_of n.+1 d *m V^T) <= (12 * n.+1)%:R * eps * fro A &
      fro (A *m V - V *m diag_of n.+1 d) <= (12 * n.+1)%:R * eps * fro A].
Proof. exact: eigen_symmetric_correct_L. Qed.
Print Assumptions eigen_symmetric_correct.

(** C37, total: with a positive threshold the QL iteration always converges (Wilkinson's shift), and the
    number of iterations per eigenvalue is bounded independently of the matrix and its size: k iterations
    suffice as soon as 2^k eps^6 >= 16, that is 316 for the f64 epsilon 2^-52.  So the decomposition of every
    symmetric matrix returns. *)
Theorem eigen_symmetric_total : forall (F : rcfType) (eps tiny : F) n (A : 'M[F]_n.+1) fuel (g : nat -> nat -> F),
  0 < eps -> (2 <= fuel)%N -> 16%:R <= 2%:R ^+ fuel * eps ^+ 6 -> A^T = A ->
  exists (d : seq F) (V : 'M[F]_n.+1),
  [/\ eigen_new (S:=exactE eps tiny) fuel (g 0%N) (g 1%N) (g 2%N) (g 3%N) (g 4%N) (g 5%N) (g 6%N) (g 7%N) (mat_of A)
        = Ok (Eigen (S:=exactE eps tiny) n.+1 d (nseq n.+1 0) (mat_of V)),
      size d = n.+1 /\ (forall i j, (i < j <= n)%N -> nth 0 d j <= nth 0 d i),
      orthogonal V,
      fro (A - V *m diag_of n.+1 d *m V^T) <= (12 * n.+1)%:R * eps * fro A &
      fro (A *m V - V *m diag_of n.+1 d) <= (12 * n.+1)%:R * eps * fro A].
Proof. exact: eigen_symmetric_total_L. Qed.
Print Assumptions eigen_symmetric_total.

(** the hypotheses are met by the f64 epsilon and 316 iterations, by every symmetric matrix *)
Example eigen_symmetric_total_example (F : rcfType) :
  let eps : F := 2%:R ^- 52 in [/\ 0 < eps, (2 <= 316)%N & 16%:R <= 2%:R ^+ 316 * eps ^+ 6].
Proof.
have p k : 0 < 2%:R ^+ k :> F by rewrite exprn_gt0 ?ltr0n.
split=> //; first by rewrite invr_gt0.
rewrite exprVn -exprM (_ : 316%N = (4 + 52 * 6)%N) // exprD mulfK ?gt_eqF //.
by rewrite -natrX.
Qed.

(** C37 with zero threshold: the factorisation is exact, so the columns of V are eigenvectors. *)
Theorem eigen_symmetric_exact : forall (F : rcfType) (tiny : F) n (A : 'M[F]_n.+1) fuel (g : nat -> nat -> F) x,
  A^T = A ->
  eigen_new (S:=exactE 0 tiny) fuel (g 0%N) (g 1%N) (g 2%N) (g 3%N) (g 4%N) (g 5%N) (g 6%N) (g 7%N) (mat_of A) = Ok x ->
  exists (V : 'M[F]_n.+1),
  [/\ eg_v x = mat_of V, A *m V = V *m diag_of n.+1 (eg_d x) & A = V *m diag_of n.+1 (eg_d x) *m V^T].
Proof. exact: eigen_symmetric_exact_L. Qed.
Print Assumptions eigen_symmetric_exact.

(** A matrix with more columns than rows always panics. *)
Theorem eigen_wide_panics : forall (F : rcfType) (eps tiny : F) m n (A : 'M[F]_(m.+1, n.+1)) fuel (g : nat -> nat -> F),
  (m < n)%N ->
  eigen_new (S:=exactE eps tiny) fuel (g 0%N) (g 1%N) (g 2%N) (g 3%N) (g 4%N) (g 5%N) (g 6%N) (g 7%N) (mat_of A) = Err Panic.
Proof. exact: eigen_wide_panics_L. Qed.
Print Assumptions eigen_wide_panics.

(** A matrix with more rows than columns is silently replaced by its leading square block: the extra
    rows are ignored (for every scalar type, also for machine floats). *)
Theorem eigen_tall_ignores_rows : forall (S : scalar) m n (A : 'M[S]_(n.+1 + m, n.+1)) fuel (g : nat -> nat -> S),
  eigen_new fuel (g 0%N) (g 1%N) (g 2%N) (g 3%N) (g 4%N) (g 5%N) (g 6%N) (g 7%N) (mat_of A) =
  eigen_new fuel (g 0%N) (g 1%N) (g 2%N) (g 3%N) (g 4%N) (g 5%N) (g 6%N) (g 7%N) (mat_of (usubmx A)).
Proof. exact: eigen_tall_ignores_rows_L. Qed.
Print Assumptions eigen_tall_ignores_rows.

(** ** C39 complex division *)

(** C39: for every non-zero divisor yr + i yi the result q satisfies (in the complex field F[i]):
    q * y = x, given here by the two real equations. *)
Theorem cdiv_exact : forall (F : rcfType) (eps tiny xr xi yr yi : F), (yr != 0) || (yi != 0) ->
  exists qr qi, [/\ cdiv (S:=exactE eps tiny) xr xi yr yi = Ok (qr, qi),
     qr * yr - qi * yi = xr & qr * yi + qi * yr = xi].
Proof. exact: cdiv_exact_L. Qed.
Print Assumptions cdiv_exact.

(** C39: a zero divisor is the only input for which it divides by zero. *)
Theorem cdiv_zero : forall (F : rcfType) (eps tiny xr xi : F),
  cdiv (S:=exactE eps tiny) xr xi 0 0 = Err Undef.
Proof. exact: cdiv_zero_L. Qed.
Print Assumptions cdiv_zero.

(** ** C40 get_d *)

(** C40: for every decomposition record and scalar type, if a positive imaginary part is never in the
    last place and a negative one never in the first, get_d returns the matrix with the real parts on the
    diagonal, a positive imaginary part at (i, i+1), a negative one at (i, i-1), zero elsewhere. *)
Theorem eigen_get_d_blocks : forall (S : scalar) n (d e : 'I_n.+1 -> S) v g,
  ~~ s_ltb (n_zero S) (e ord_max) -> s_ltb (n_zero S) (e ord0) || ~~ s_ltb (e ord0) (n_zero S) ->
  eigen_get_d g (Eigen n.+1 [seq d i | i <- enum 'I_n.+1] [seq e i | i <- enum 'I_n.+1] v) =
  Ok (mat_of (\matrix_(i, j) (
     if j == i then d i
     else if s_ltb (n_zero S) (e i) && (j == i.+1 :> nat) then e i
     else if ~~ s_ltb (n_zero S) (e i) && s_ltb (e i) (n_zero S) && (j.+1 == i :> nat) then e i
     else n_zero S))).
Proof. exact: eigen_get_d_blocks_L. Qed.
Print Assumptions eigen_get_d_blocks.

(** C40: in the two remaining cases get_d panics. *)
Theorem eigen_get_d_panics : forall (S : scalar) n (d e : 'I_n.+1 -> S) v g,
  s_ltb (n_zero S) (e ord_max) || (~~ s_ltb (n_zero S) (e ord0) && s_ltb (e ord0) (n_zero S)) ->
  eigen_get_d g (Eigen n.+1 [seq d i | i <- enum 'I_n.+1] [seq e i | i <- enum 'I_n.+1] v) = Err Panic.
Proof. exact: eigen_get_d_panics_L. Qed.
Print Assumptions eigen_get_d_panics.

(** C37 and C40 together: for a symmetric matrix get_d is the diagonal matrix of the eigenvalues. *)
Theorem eigen_symmetric_get_d : forall (F : rcfType) (eps tiny : F) n (d : seq F) v g, size d = n.+1 ->
  eigen_get_d g (Eigen (S:=exactE eps tiny) n.+1 d (nseq n.+1 0) v) = Ok (mat_of (diag_of n.+1 d)).
Proof. exact: eigen_symmetric_get_d_L. Qed.
Print Assumptions eigen_symmetric_get_d.

(** ** C38 Hessenberg reduction *)

(** C38: for every square matrix and any contents of the two uninitialised buffers the reduction
    returns (h, v): v holds an orthogonal V, and with H the matrix that has the entries of h on and above
    the subdiagonal and zero below it, H is upper Hessenberg and A = V H V^T. *)
Theorem orthes_correct : forall (F : rcfType) (eps tiny : F) n (A : 'M[F]_n.+1) gort v0, size v0 = (n.+1 * n.+1)%N ->
  exists h (V H : 'M[F]_n.+1),
  [/\ orthes (S:=exactE eps tiny) n.+1 gort (data (mat_of A)) v0 = Ok (h, data (mat_of V)),
      orthogonal V, hessenberg H, A = V *m H *m V^T &
      forall i j : 'I_n.+1, (i <= j.+1)%N -> vget h (i * n.+1 + j) = Ok (H i j)].
Proof. exact: orthes_correct_L. Qed.
Print Assumptions orthes_correct.
