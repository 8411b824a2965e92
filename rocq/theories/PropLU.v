(** * PropLU: properties C18-C22 and C45 (LU, det, solve, inverse)

    Only property theorems, each closed by a lemma of LUThms.v, and the
    Examples showing that their hypotheses are met.  Generated from LUThms.v by
    tools/genprops.py. *)
From mathcomp Require Import all_ssreflect all_algebra zify.
From mathcomp Require Import fingroup perm.
From Verif Require Import Base Scalar Hoare ModelMatrix ModelLU Spec MatrixProofs MatrixProofs2 MatrixThms LUProofs.
From Verif Require Import LUThms.

Set Implicit Arguments.
Unset Strict Implicit.
Unset Printing Implicit Defensive.
Import GRing.Theory Num.Theory.
Local Open Scope ring_scope.

(** ** C18 LU factorisation *)

(** C18: for every matrix of any shape, new succeeds; L is unit lower trapezoidal with entries
    bounded by 1, U upper trapezoidal, P the permutation matrix of the pivot list, and P A = L U. *)
Theorem lu_factorisation : forall (F : rcfType) (eps tiny : F) m n (A : 'M[F]_(m.+1, n.+1)) gp,
  exists (d : lu_decomp (exactE eps tiny)) (s : 'S_m.+1)
         (L : 'M[F]_(m.+1, minn m.+1 n.+1)) (U : 'M[F]_(minn m.+1 n.+1, n.+1)),
  [/\ lu_new (S:=exactE eps tiny) gp (mat_of A) = Ok d,
      forall g, lu_get_l g d = Ok (mat_of L),
      forall g, lu_get_u g d = Ok (mat_of U),
      forall g1 g2, lu_get_p g1 g2 d = Ok (mat_of (perm_mx s)) &
  [/\ lu_get_piv d = perm_list s, unit_lower L, (forall i j, `|L i j| <= 1), upper U &
      perm_mx s *m A = L *m U]].
Proof. exact: lu_factorisation_L. Qed.
Print Assumptions lu_factorisation.

(** ** C19 determinant *)

(** C19: det is the determinant. *)
Theorem det_ok : forall (F : rcfType) (eps tiny : F) n (A : 'M[F]_n.+1) gp,
  det (S:=exactE eps tiny) gp (mat_of A) = Ok (\det A).
Proof. exact: det_ok_L. Qed.
Print Assumptions det_ok.

(** C19: det panics exactly on non-square matrices. *)
Theorem det_panics : forall (F : rcfType) (eps tiny : F) m n (A : 'M[F]_(m.+1, n.+1)) gp,
  m != n -> det (S:=exactE eps tiny) gp (mat_of A) = Err Panic.
Proof. exact: det_panics_L. Qed.
Print Assumptions det_panics.

(** C19: consequences: the determinant of the product and of the transpose as computed. *)
Theorem det_mul : forall (F : rcfType) (eps tiny : F) n (A B : 'M[F]_n.+1) g gp gp1 gp2,
  let S := exactE eps tiny in
  bind (mul (N:=S) g (mat_of A) (mat_of B)) (det (S:=S) gp) =
  bind (det (S:=S) gp1 (mat_of A)) (fun a => bind (det (S:=S) gp2 (mat_of B)) (fun b => Ok (a * b))).
Proof. exact: det_mul_L. Qed.
Print Assumptions det_mul.

(** C19: the determinant of the transpose. *)
Theorem det_t : forall (F : rcfType) (eps tiny : F) n (A : 'M[F]_n.+1) g gp gp1,
  let S := exactE eps tiny in
  bind (t g (mat_of A)) (det (S:=S) gp) = det (S:=S) gp1 (mat_of A).
Proof. exact: det_t_L. Qed.
Print Assumptions det_t.

(** ** C20 linear systems *)

(** C20: for square A and any right-hand side with as many rows, solve returns the unique solution,
    or None exactly when A is singular. *)
Theorem solve_ok : forall (F : rcfType) (eps tiny : F) n k (A : 'M[F]_n.+1) (B : 'M[F]_(n.+1, k.+1)) gp g,
  solve (S:=exactE eps tiny) gp g (mat_of A) (mat_of B) =
    Ok (if A \in unitmx then Some (mat_of (invmx A *m B)) else None).
Proof. exact: solve_ok_L. Qed.
Print Assumptions solve_ok.

(** C20: in terms of the equation itself: Some X is returned iff X is a matrix with A X = B and A is invertible. *)
Theorem solve_sound : forall (F : rcfType) (eps tiny : F) n k (A : 'M[F]_n.+1) (B : 'M[F]_(n.+1, k.+1)) gp g M,
  solve (S:=exactE eps tiny) gp g (mat_of A) (mat_of B) = Ok (Some M) <->
  (\det A != 0 /\ exists2 X : 'M[F]_(n.+1, k.+1), M = mat_of X & A *m X = B).
Proof. exact: solve_sound_L. Qed.
Print Assumptions solve_sound.

(** C20: solve panics when the row counts differ, whatever the shape of A. *)
Theorem solve_panics : forall (F : rcfType) (eps tiny : F) m n m' k (A : 'M[F]_(m.+1, n.+1))
    (B : 'M[F]_(m', k)) gp g,
  m' <> m.+1 -> solve (S:=exactE eps tiny) gp g (mat_of A) (mat_of B) = Err Panic.
Proof. exact: solve_panics_L. Qed.
Print Assumptions solve_panics.

(** ** C21 inverse *)

(** C21: inverse of a square matrix. *)
Theorem inverse_ok : forall (F : rcfType) (eps tiny : F) n (A : 'M[F]_n.+1) gp g1 g2,
  inverse (S:=exactE eps tiny) gp g1 g2 (mat_of A) =
    Ok (if A \in unitmx then Some (mat_of (invmx A)) else None).
Proof. exact: inverse_ok_L. Qed.
Print Assumptions inverse_ok.

(** C21: as an equation: Some X is returned iff X is the two-sided inverse. *)
Theorem inverse_sound : forall (F : rcfType) (eps tiny : F) n (A : 'M[F]_n.+1) gp g1 g2 M,
  inverse (S:=exactE eps tiny) gp g1 g2 (mat_of A) = Ok (Some M) <->
  exists2 X : 'M[F]_n.+1, M = mat_of X & A *m X = 1%:M /\ X *m A = 1%:M.
Proof. exact: inverse_sound_L. Qed.
Print Assumptions inverse_sound.

(** C21: inverse panics on non-square matrices. *)
Theorem inverse_panics : forall (F : rcfType) (eps tiny : F) m n (A : 'M[F]_(m.+1, n.+1)) gp g1 g2,
  m != n -> inverse (S:=exactE eps tiny) gp g1 g2 (mat_of A) = Err Panic.
Proof. exact: inverse_panics_L. Qed.
Print Assumptions inverse_panics.

(** C21: inverting twice gives the matrix back. *)
Theorem inverse_inverse : forall (F : rcfType) (eps tiny : F) n (A : 'M[F]_n.+1) gp g1 g2 gp' g1' g2' M,
  inverse (S:=exactE eps tiny) gp g1 g2 (mat_of A) = Ok (Some M) ->
  inverse (S:=exactE eps tiny) gp' g1' g2' M = Ok (Some (mat_of A)).
Proof. exact: inverse_inverse_L. Qed.
Print Assumptions inverse_inverse.

(** ** C22 singularity tests *)

(** C22: is_non_singular decides invertibility (det != 0), is_singular is its negation. *)
Theorem is_non_singular_ok : forall (F : rcfType) (eps tiny : F) n (A : 'M[F]_n.+1) gp,
  [/\ is_non_singular (S:=exactE eps tiny) gp (mat_of A) = Ok (\det A != 0),
      is_singular (S:=exactE eps tiny) gp (mat_of A) = Ok (\det A == 0) &
      (\det A != 0) = (A \in unitmx)].
Proof. exact: is_non_singular_ok_L. Qed.
Print Assumptions is_non_singular_ok.

Theorem is_non_singular_panics : forall (F : rcfType) (eps tiny : F) m n (A : 'M[F]_(m.+1, n.+1)) gp,
  m != n -> is_non_singular (S:=exactE eps tiny) gp (mat_of A) = Err Panic /\
            is_singular (S:=exactE eps tiny) gp (mat_of A) = Err Panic.
Proof. exact: is_non_singular_panics_L. Qed.
Print Assumptions is_non_singular_panics.

(** ** C20 rectangular systems (what solve does outside the property) *)

(** Finding: for a tall system the result has as many rows as A, not as many as A has columns,
    so it can never be multiplied by A from the left.  solve returns None iff the columns are dependent. *)
Theorem solve_tall_refuted : forall (F : rcfType) (eps tiny : F) m n k (A : 'M[F]_(m.+1, n.+1))
    (B : 'M[F]_(m.+1, k.+1)) gp g, (n < m)%N ->
  (solve (S:=exactE eps tiny) gp g (mat_of A) (mat_of B) = Ok None) \/
  exists2 X : 'M[F]_(m.+1, k.+1),
    solve (S:=exactE eps tiny) gp g (mat_of A) (mat_of B) = Ok (Some (mat_of X)) &
    forall g', mul (N:=exactE eps tiny) g' (mat_of A) (mat_of X) = Err Panic.
Proof. exact: solve_tall_refuted_L. Qed.
Print Assumptions solve_tall_refuted.

(** Finding: for a wide system solve never returns a solution: it panics (index out of bounds) or
    returns None. *)
Theorem solve_wide_refuted : forall (F : rcfType) (eps tiny : F) m n k (A : 'M[F]_(m.+1, n.+1))
    (B : 'M[F]_(m.+1, k.+1)) gp g, (m < n)%N ->
  solve (S:=exactE eps tiny) gp g (mat_of A) (mat_of B) = Ok None \/
  solve (S:=exactE eps tiny) gp g (mat_of A) (mat_of B) = Err Panic.
Proof. exact: solve_wide_refuted_L. Qed.
Print Assumptions solve_wide_refuted.

(** ** C45 laws across the API *)

(** C45: solving A Y = A X gives X back. *)
Theorem solve_mul : forall (F : rcfType) (eps tiny : F) n k (A : 'M[F]_n.+1) (X : 'M[F]_(n.+1, k.+1)) gp g g',
  \det A != 0 ->
  bind (mul (N:=exactE eps tiny) g' (mat_of A) (mat_of X)) (solve (S:=exactE eps tiny) gp g (mat_of A))
  = Ok (Some (mat_of X)).
Proof. exact: solve_mul_L. Qed.
Print Assumptions solve_mul.

(** C45: solve(A,B) = inverse(A) * B. *)
Theorem solve_inverse : forall (F : rcfType) (eps tiny : F) n k (A : 'M[F]_n.+1) (B : 'M[F]_(n.+1, k.+1))
    gp g gp' g1 g2 g3 M,
  inverse (S:=exactE eps tiny) gp' g1 g2 (mat_of A) = Ok (Some M) ->
  solve (S:=exactE eps tiny) gp g (mat_of A) (mat_of B) =
  bind (mul (N:=exactE eps tiny) g3 M (mat_of B)) (fun X => Ok (Some X)).
Proof. exact: solve_inverse_L. Qed.
Print Assumptions solve_inverse.

(** C45: the inverse of a product is the product of the inverses in the other order. *)
Theorem inverse_mul : forall (F : rcfType) (eps tiny : F) n (A B : 'M[F]_n.+1) MA MB
    g gp1 g11 g12 gp2 g21 g22 gp3 g31 g32 g4,
  let S := exactE eps tiny in
  inverse (S:=S) gp1 g11 g12 (mat_of A) = Ok (Some MA) ->
  inverse (S:=S) gp2 g21 g22 (mat_of B) = Ok (Some MB) ->
  bind (mul (N:=S) g (mat_of A) (mat_of B)) (inverse (S:=S) gp3 g31 g32) =
  bind (mul (N:=S) g4 MB MA) (fun X => Ok (Some X)).
Proof. exact: inverse_mul_L. Qed.
Print Assumptions inverse_mul.

(** the hypotheses are met: 2I is invertible, with inverse (1/2)I *)
Example inverse_hyps_met (F : rcfType) (eps tiny : F) gp g1 g2 :
  inverse (S:=exactE eps tiny) gp g1 g2 (mat_of (2%:R%:M : 'M[F]_3)) =
    Ok (Some (mat_of ((2%:R^-1)%:M : 'M[F]_3))).
Proof.
apply/inverse_sound; exists (2%:R^-1)%:M => //.
by rewrite -!scalar_mxM mulfV ?mulVf // pnatr_eq0.
Qed.
Example singular_met (F : rcfType) (eps tiny : F) gp g1 g2 :
  inverse (S:=exactE eps tiny) gp g1 g2 (mat_of (const_mx 1 : 'M[F]_2)) = Ok None.
Proof.
rewrite inverse_ok.
rewrite unitmxE (@determinant_alternate _ _ _ ord0 (lift ord0 ord0)) ?unitr0 // => j.
by rewrite !mxE.
Qed.
