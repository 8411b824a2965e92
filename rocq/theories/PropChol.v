(** * PropChol: properties C23, C24 (Cholesky)

    Only property theorems, each closed by a lemma of CholThms.v, and the
    Examples showing that their hypotheses are met.  Generated from CholThms.v by
    tools/genprops.py. *)
From mathcomp Require Import all_ssreflect all_algebra zify ring.
From mathcomp Require Import fingroup perm.
From Verif Require Import Base Scalar Hoare ModelMatrix ModelLU ModelCholesky Spec MatrixProofs MatrixThms LUProofs LUThms CholProofs.
From Verif Require Import CholThms.

Set Implicit Arguments.
Unset Strict Implicit.
Unset Printing Implicit Defensive.
Import Order.TTheory GRing.Theory Num.Theory.
Local Open Scope ring_scope.

(** ** C23 Cholesky factorisation *)

(** C23: a decomposition is returned exactly when a Cholesky factor exists, and it is that factor
    (so it is unique). *)
Theorem chol_some : forall (F : rcfType) (eps tiny : F) n (A : 'M[F]_n.+1) g M,
  chol_new (S:=exactE eps tiny) g (mat_of A) = Ok (Some M) <->
  exists2 L : 'M[F]_n.+1, chol_get_l M = mat_of L & chol_factor A L.
Proof. exact: chol_some_L. Qed.
Print Assumptions chol_some.

(** C23: None is returned exactly when the matrix is not symmetric positive definite. *)
Theorem chol_none : forall (F : rcfType) (eps tiny : F) n (A : 'M[F]_n.+1) g,
  chol_new (S:=exactE eps tiny) g (mat_of A) = Ok None <-> ~ posdef A.
Proof. exact: chol_none_L. Qed.
Print Assumptions chol_none.

(** C23: it always returns one or the other (no panic, no division by zero, no root of a negative number). *)
Theorem chol_total : forall (F : rcfType) (eps tiny : F) n (A : 'M[F]_n.+1) g,
  exists r, chol_new (S:=exactE eps tiny) g (mat_of A) = Ok r.
Proof. exact: chol_total_L. Qed.
Print Assumptions chol_total.

(** C23: positive definite matrices are exactly those with a Cholesky factor. *)
Theorem posdef_iff : forall (F : rcfType) n (A : 'M[F]_n.+1),
  posdef A <-> exists L, chol_factor A L.
Proof. exact: posdef_iff_L. Qed.
Print Assumptions posdef_iff.

(** C23: non-square matrices give None. *)
Theorem chol_nonsquare : forall (S : scalar) m n (A : 'M[S]_(m.+1, n.+1)) g,
  m <> n -> chol_new g (mat_of A) = Ok None.
Proof. exact: chol_nonsquare_L. Qed.
Print Assumptions chol_nonsquare.

(** C23: the factor is unique. *)
Theorem chol_unique : forall (F : rcfType) n (A L L' : 'M[F]_n),
  chol_factor A L -> chol_factor A L' -> L = L'.
Proof. exact: chol_unique_L. Qed.
Print Assumptions chol_unique.

(** ** C24 Cholesky solve *)

(** C24: solve returns the solution of A X = B. *)
Theorem chol_solve_ok : forall (F : rcfType) (eps tiny : F) n k (A : 'M[F]_n.+1) (B : 'M[F]_(n.+1, k.+1)) g M,
  chol_new (S:=exactE eps tiny) g (mat_of A) = Ok (Some M) ->
  exists2 X : 'M[F]_(n.+1, k.+1), chol_solve M (mat_of B) = Ok (mat_of X) & A *m X = B.
Proof. exact: chol_solve_ok_L. Qed.
Print Assumptions chol_solve_ok.

(** C24: solve panics iff the row counts differ. *)
Theorem chol_solve_panics : forall (S : scalar) n m k (L : 'M[S]_n.+1) (B : 'M[S]_(m, k)),
  m <> n.+1 -> chol_solve (mat_of L) (mat_of B) = Err Panic.
Proof. exact: chol_solve_panics_L. Qed.
Print Assumptions chol_solve_panics.

(** C24, C45: Cholesky and LU agree on positive definite systems. *)
Theorem chol_solve_lu : forall (F : rcfType) (eps tiny : F) n k (A : 'M[F]_n.+1) (B : 'M[F]_(n.+1, k.+1)) g gp g' M,
  chol_new (S:=exactE eps tiny) g (mat_of A) = Ok (Some M) ->
  solve (S:=exactE eps tiny) gp g' (mat_of A) (mat_of B) =
  bind (chol_solve M (mat_of B)) (fun X => Ok (Some X)).
Proof. exact: chol_solve_lu_L. Qed.
Print Assumptions chol_solve_lu.

(** C45: the determinant of a positive definite matrix from its Cholesky factor. *)
Theorem chol_det : forall (F : rcfType) (eps tiny : F) n (A L : 'M[F]_n.+1) g gp,
  chol_new (S:=exactE eps tiny) g (mat_of A) = Ok (Some (mat_of L)) ->
  det (S:=exactE eps tiny) gp (mat_of A) = Ok ((\prod_i L i i) ^+ 2).
Proof. exact: chol_det_L. Qed.
Print Assumptions chol_det.

(** the hypotheses are met: the decomposition of a non-diagonal positive definite matrix [4 2; 2 2] is [2 0; 1 1] *)
Example chol_example (F : rcfType) (eps tiny : F) g :
  let L : 'M[F]_2 := \matrix_(i, j) (if (j <= i)%N then if (val i == 0)%N then 2%:R else 1 else 0) in
  chol_new (S:=exactE eps tiny) g (mat_of (L *m L^T)) = Ok (Some (mat_of L)).
Proof.
move=> L; apply/chol_some; exists L => //; split=> //.
- by move=> i j ij; rewrite mxE leqNgt ij.
- by move=> i; rewrite mxE leqnn; case: ifP; rewrite ?ltr0n ?ltr01.
Qed.
Example chol_example_none (F : rcfType) (eps tiny : F) g :
  chol_new (S:=exactE eps tiny) g (mat_of (0 : 'M[F]_2)) = Ok None.
Proof.
apply/chol_none => -[_ /(_ (const_mx 1))].
rewrite mulmx0 mul0mx mxE ltxx => H; suff : false by []; apply: H.
apply/eqP => /matrixP/(_ ord0 ord0); rewrite !mxE => /eqP; by rewrite oner_eq0.
Qed.
