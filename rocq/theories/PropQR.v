(** * C25-C29, C46: QR decomposition, QR solve, pseudo-inverse

    Only property theorems, each closed by a lemma of QRThms.v, and the
    Examples showing that their hypotheses are met.  Generated from QRThms.v by
    tools/genprops.py. *)
From mathcomp Require Import all_ssreflect all_algebra zify ring.
From Verif Require Import Base Scalar Hoare ModelMatrix ModelLU ModelQR Spec MatrixProofs MatrixProofs2 MatrixThms LUProofs LUThms CholThms QRProofs QRSolve.
From Verif Require Import QRThms.

Set Implicit Arguments.
Unset Strict Implicit.
Unset Printing Implicit Defensive.
Import Order.TTheory GRing.Theory Num.Theory.
Local Open Scope ring_scope.

(** ** C25 QR factorisation *)

(** C25: for every matrix of every shape and rank the decomposition succeeds; R is m x n upper
    triangular, Q is m x m, Q R = A, and Q^T Q is the identity restricted to the first min(m,n) columns. *)
Theorem qr_factorisation : forall (F : rcfType) (eps tiny : F) m n (A : 'M[F]_(m.+1, n.+1)) g,
  exists (d : qr_decomp (exactE eps tiny)) (Q : 'M[F]_m.+1) (R : 'M[F]_(m.+1, n.+1)),
  [/\ qr_new (S:=exactE eps tiny) g (mat_of A) = Ok d,
      qr_get_q d = Ok (mat_of Q), forall g', qr_get_r g' d = Ok (mat_of R) &
  [/\ upper R, Q *m R = A &
      forall i j : 'I_m.+1, (Q^T *m Q) i j = ((i == j) && (i < minn m.+1 n.+1)%N)%:R]].
Proof. exact: qr_factorisation_L. Qed.
Print Assumptions qr_factorisation.

(** C26 (holds exactly when the matrix is not tall): Q is orthogonal. *)
Theorem qr_q_orthogonal_partial : forall (F : rcfType) (eps tiny : F) m n (A : 'M[F]_(m.+1, n.+1)) g,
  (m <= n)%N ->
  exists (d : qr_decomp (exactE eps tiny)) (Q : 'M[F]_m.+1),
  [/\ qr_new (S:=exactE eps tiny) g (mat_of A) = Ok d,
      qr_get_q d = Ok (mat_of Q), Q^T *m Q = 1%:M & Q *m Q^T = 1%:M].
Proof. exact: qr_q_orthogonal_partial_L. Qed.
Print Assumptions qr_q_orthogonal_partial.

(** C26 refuted for every tall matrix: the columns n, .., m-1 of Q are zero, so Q is not orthogonal. *)
Theorem qr_q_orthogonal_refuted : forall (F : rcfType) (eps tiny : F) m n (A : 'M[F]_(m.+1, n.+1)) g,
  (n < m)%N ->
  exists (d : qr_decomp (exactE eps tiny)) (Q : 'M[F]_m.+1),
  [/\ qr_new (S:=exactE eps tiny) g (mat_of A) = Ok d,
      qr_get_q d = Ok (mat_of Q),
      forall i j : 'I_m.+1, (n < j)%N -> Q i j = 0 & Q^T *m Q <> 1%:M].
Proof. exact: qr_q_orthogonal_refuted_L. Qed.
Print Assumptions qr_q_orthogonal_refuted.

(** ** C27 full rank test *)

(** C27 for matrices that are not wide: is_full_rank decides full column rank. *)
Theorem qr_full_rank_partial : forall (F : rcfType) (eps tiny : F) m n (A : 'M[F]_(m.+1, n.+1)) g,
  (n <= m)%N ->
  bind (qr_new (S:=exactE eps tiny) g (mat_of A)) (@qr_is_full_rank _) = Ok (\rank A == n.+1).
Proof. exact: qr_full_rank_partial_L. Qed.
Print Assumptions qr_full_rank_partial.

(** C27 refuted for wide matrices: A = [A1 A2] with A1 square; is_full_rank panics (index out of
    bounds) when A1 is invertible, and answers false otherwise - even when A has full (row) rank. *)
Theorem qr_full_rank_wide_refuted : forall (F : rcfType) (eps tiny : F) m k (A1 : 'M[F]_m.+1)
    (A2 : 'M[F]_(m.+1, k.+1)) g,
  bind (qr_new (S:=exactE eps tiny) g (mat_of (row_mx A1 A2))) (@qr_is_full_rank _) =
  if A1 \in unitmx then Err Panic else Ok false.
Proof. exact: qr_full_rank_wide_refuted_L. Qed.
Print Assumptions qr_full_rank_wide_refuted.

(** ** C29 pseudo-inverse *)

(** C29: pinverse returns M iff A has full column rank and M is the Moore-Penrose inverse of A. *)
Theorem pinverse_partial : forall (F : rcfType) (eps tiny : F) m n (A : 'M[F]_(m.+1, n.+1))
    gp g1 g2 g3 g4 g5 g6 g7 g8,
  pinverse (S:=exactE eps tiny) gp g1 g2 g3 g4 g5 g6 g7 g8 (mat_of A) =
  if \rank A == n.+1 then Ok (mat_of (invmx (A^T *m A) *m A^T)) else Err Panic.
Proof. exact: pinverse_partial_L. Qed.
Print Assumptions pinverse_partial.

(** C29: the Moore-Penrose inverse is unique. *)
Theorem moore_penrose_unique : forall (F : fieldType) m n (A : 'M[F]_(m, n)) X Y,
  moore_penrose A X -> moore_penrose A Y -> X = Y.
Proof. exact: moore_penrose_unique_L. Qed.
Print Assumptions moore_penrose_unique.

(** C29: in terms of the four Penrose conditions. *)
Theorem pinverse_sound : forall (F : rcfType) (eps tiny : F) m n (A : 'M[F]_(m.+1, n.+1))
    gp g1 g2 g3 g4 g5 g6 g7 g8 M,
  pinverse (S:=exactE eps tiny) gp g1 g2 g3 g4 g5 g6 g7 g8 (mat_of A) = Ok M <->
  \rank A = n.+1 /\ exists2 X, M = mat_of X & moore_penrose A X.
Proof. exact: pinverse_sound_L. Qed.
Print Assumptions pinverse_sound.

(** C29 refuted without full column rank: every rank deficient and every wide matrix makes pinverse
    panic, although every such matrix has a Moore-Penrose inverse (shown here for the zero matrix). *)
Theorem pinverse_refuted : forall (F : rcfType) (eps tiny : F) m n (A : 'M[F]_(m.+1, n.+1))
    gp g1 g2 g3 g4 g5 g6 g7 g8,
  (\rank A < n.+1)%N ->
  pinverse (S:=exactE eps tiny) gp g1 g2 g3 g4 g5 g6 g7 g8 (mat_of A) = Err Panic.
Proof. exact: pinverse_refuted_L. Qed.
Print Assumptions pinverse_refuted.

(** ** C46 Householder vectors *)

(** C46: get_h is lower trapezoidal and its columns define reflections whose product times R is A. *)
Theorem qr_get_h_spec : forall (F : rcfType) (eps tiny : F) m n (A : 'M[F]_(m.+1, n.+1)) g,
  exists (d : qr_decomp (exactE eps tiny)) (H R : 'M[F]_(m.+1, n.+1)),
  [/\ qr_new (S:=exactE eps tiny) g (mat_of A) = Ok d,
      forall g', qr_get_h g' d = Ok (mat_of H), forall g', qr_get_r g' d = Ok (mat_of R),
      lower H & reflect_cols H *m R = A].
Proof. exact: qr_get_h_spec_L. Qed.
Print Assumptions qr_get_h_spec.

(** ** C28 solve *)

(** C28: row count mismatch panics. *)
Theorem qr_solve_panics : forall (F : rcfType) (eps tiny : F) m n m' k (A : 'M[F]_(m.+1, n.+1)) (B : 'M[F]_(m', k)) g,
  m' <> m.+1 ->
  bind (qr_new (S:=exactE eps tiny) g (mat_of A)) (fun d => qr_solve d (mat_of B)) = Err Panic.
Proof. exact: qr_solve_panics_L. Qed.
Print Assumptions qr_solve_panics.

(** C28, the part that holds: None for a rank deficient matrix that is not wide. *)
Theorem qr_solve_none_partial : forall (F : rcfType) (eps tiny : F) m n k (A : 'M[F]_(m.+1, n.+1)) (B : 'M[F]_(m.+1, k)) g,
  (n <= m)%N -> \rank A <> n.+1 ->
  bind (qr_new (S:=exactE eps tiny) g (mat_of A)) (fun d => qr_solve d (mat_of B)) = Ok None.
Proof. exact: qr_solve_none_partial_L. Qed.
Print Assumptions qr_solve_none_partial.

(** C28 refuted for every tall matrix of full column rank and every right hand side: solve panics. *)
Theorem qr_solve_tall_refuted : forall (F : rcfType) (eps tiny : F) m n k (A : 'M[F]_(m.+1, n.+1)) (B : 'M[F]_(m.+1, k.+1)) g,
  (n < m)%N -> \rank A = n.+1 ->
  bind (qr_new (S:=exactE eps tiny) g (mat_of A)) (fun d => qr_solve d (mat_of B)) = Err Panic.
Proof. exact: qr_solve_tall_refuted_L. Qed.
Print Assumptions qr_solve_tall_refuted.

(** C28, what solve computes for a square invertible A: X with R X = G_(n-1)...G_0 B where G_k is
    I - h_k h_k^T / h_kk. The property needs the reflections I + h_k h_k^T / (r_kk h_kk) here, so the result
    is the solution of A X = B when every diagonal element of R is -1 (see qr_solve_refuted for the rest). *)
Theorem qr_solve_square_partial : forall (F : rcfType) (eps tiny : F) n k (A : 'M[F]_n.+1) (B : 'M[F]_(n.+1, k.+1)) g,
  A \in unitmx ->
  exists (d : qr_decomp (exactE eps tiny)) (H R : 'M[F]_n.+1) (X : 'M[F]_(n.+1, k.+1)),
  [/\ qr_new (S:=exactE eps tiny) g (mat_of A) = Ok d,
      forall g', qr_get_h g' d = Ok (mat_of H), forall g', qr_get_r g' d = Ok (mat_of R) &
  [/\ qr_solve d (mat_of B) = Ok (Some (mat_of X)), R \in unitmx,
      R *m X = (\big[mulmx/1%:M]_(j < n.+1) (1%:M - (H (rev_ord j) (rev_ord j))^-1 *: (col (rev_ord j) H *m (col (rev_ord j) H)^T))) *m B &
      (forall i, R i i = -1) -> A *m X = B]].
Proof. exact: qr_solve_square_partial_L. Qed.
Print Assumptions qr_solve_square_partial.

(** C28 refuted: for a 1 x 1 system a x = b with a <> 0 solve returns b (2a - 1) / a, which is the
    solution b / a only if a = 1 or b = 0. *)
Theorem qr_solve_refuted : forall (F : rcfType) (eps tiny : F) (a b : F) g,
  a != 0 ->
  bind (qr_new (S:=exactE eps tiny) g (mat_of (const_mx a : 'M_1))) (fun d => qr_solve d (mat_of (const_mx b : 'M_1)))
    = Ok (Some (mat_of (const_mx (b * (2%:R * a - 1) / a) : 'M_1))) /\
  ((const_mx a : 'M_1) *m const_mx (b * (2%:R * a - 1) / a) = const_mx b :> 'M_1 <-> a = 1 \/ b = 0).
Proof. exact: qr_solve_refuted_L. Qed.
Print Assumptions qr_solve_refuted.

(** the hypotheses are met by a tall full rank matrix, by a rank deficient one and by wide ones *)
Example qr_tall_full_rank (F : rcfType) : \rank (col_mx 1%:M 0 : 'M[F]_(2 + 1, 2)) = 2%N.
Proof. by apply/eqP; rewrite -gram_unit tr_col_mx mul_row_col trmx1 mulmx1 mulmx0 addr0 unitmx1. Qed.
Example qr_rank_deficient (F : rcfType) : \rank (const_mx 0 : 'M[F]_(3, 2)) <> 2%N.
Proof. by have -> : const_mx 0 = 0 :> 'M[F]_(3, 2) by []; rewrite mxrank0. Qed.
Example qr_solve_wrong (F : rcfType) (eps tiny : F) g :
  bind (qr_new (S:=exactE eps tiny) g (mat_of (const_mx 2%:R : 'M_1))) (fun d => qr_solve d (mat_of (const_mx 2%:R : 'M_1)))
    = Ok (Some (mat_of (const_mx 3%:R : 'M_1))).
Proof.
have two : (2%:R : F) != 0 by rewrite pnatr_eq0.
rewrite (proj1 (@qr_solve_refuted F eps tiny _ _ g two)) mulrAC mulfV // mul1r.
by congr (Ok (Some (mat_of (const_mx _)))); rewrite -natrM -[1]/(1%:R) -natrB.
Qed.

(** ** C45 agreement with the other decompositions *)

(** C45: for an invertible matrix pinverse and inverse return the same matrix. *)
Theorem pinverse_inverse : forall (F : rcfType) (eps tiny : F) n (A : 'M[F]_n.+1)
    gp g1 g2 g3 g4 g5 g6 g7 g8 gp' g1' g2' M,
  inverse (S:=exactE eps tiny) gp' g1' g2' (mat_of A) = Ok (Some M) ->
  pinverse (S:=exactE eps tiny) gp g1 g2 g3 g4 g5 g6 g7 g8 (mat_of A) = Ok M.
Proof. exact: pinverse_inverse_L. Qed.
Print Assumptions pinverse_inverse.

(** C45: the diagonal of R gives the determinant up to sign. *)
Theorem qr_det : forall (F : rcfType) (eps tiny : F) n (A : 'M[F]_n.+1) g gp,
  exists (d : qr_decomp (exactE eps tiny)) (R : 'M[F]_n.+1) (x : F),
  [/\ qr_new (S:=exactE eps tiny) g (mat_of A) = Ok d,
      forall g', qr_get_r g' d = Ok (mat_of R),
      det (S:=exactE eps tiny) gp (mat_of A) = Ok x & `|\prod_i R i i| = `|x|].
Proof. exact: qr_det_L. Qed.
Print Assumptions qr_det.
