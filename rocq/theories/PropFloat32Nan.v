(** * NaN and infinities in the f32 results

    Only property theorems, each closed by a lemma of Float32NanThms.v, and the
    Examples showing that their hypotheses are met.  Generated from Float32NanThms.v by
    tools/genprops.py. *)
From Coq Require Import ZArith Reals Lra Psatz.
From Flocq Require Import Core BinarySingleNaN.
From mathcomp Require Import all_ssreflect all_algebra zify.
From mathcomp Require Import fingroup perm.
From Verif Require Import Base Scalar Hoare ModelMatrix ModelLU Spec MatrixThms MiscThms LUProofs LUEval MatrixProofs MatrixProofs2 B32 SpecFloat32 Float32Base Float32Thms Float32MoreThms Float32LU Float32LUThms.
From Verif Require Import Float32NanThms.

Set Implicit Arguments.
Unset Strict Implicit.
Unset Printing Implicit Defensive.

Local Open Scope R_scope.

(** ** C62 (C65 in f32) NaN and infinities in norms *)

(** C62 (C65 in f32): the Frobenius norm of an f32 matrix is NaN exactly when one of its elements is, and plus infinity when one is
  infinite and none is NaN. *)
Theorem frobenius_special_f32 : forall m n (A : 'M[b32]_(m, n)),
  exists r, [/\ frobenius_norm (S:=B32) (mat_of A) = Ok r,
    is_nan r = [exists i, exists j, is_nan (A i j)] &
    ~~ is_nan r -> (exists i j, ~~ is_finite (A i j)) -> r = B754_infinity false].
Proof. exact: frobenius_special_f32_L. Qed.
Print Assumptions frobenius_special_f32.

(** C62 (C65 in f32): the same for the vector norms: vector_1_norm and the euclidean norm. *)
Theorem vector_norms_special_f32 : forall m (v : 'cV[b32]_m.+1),
  exists r1 r2, [/\ vector_1_norm (S:=B32) (mat_of v) = Ok r1,
    [/\ vector_euclidean_norm (S:=B32) (mat_of v) = Ok r2, length_ (S:=B32) (mat_of v) = Ok r2 &
        vector_2_norm (S:=B32) (mat_of v) = Ok r2],
    is_nan r1 = [exists i, is_nan (v i ord0)], is_nan r2 = [exists i, is_nan (v i ord0)] &
    (forall i, ~~ is_nan (v i ord0)) -> (exists i, ~~ is_finite (v i ord0)) ->
      r1 = B754_infinity false /\ r2 = B754_infinity false].
Proof. exact: vector_norms_special_f32_L. Qed.
Print Assumptions vector_norms_special_f32.

(** C62 (C65 in f32): vector_inf_norm does not propagate NaN.  Its result is NaN exactly when the first element is; otherwise it is the
  largest magnitude among the elements that are not NaN (infinities included). *)
Theorem inf_norm_special_f32 : forall m (v : 'cV[b32]_m.+1),
  exists r, [/\ vector_inf_norm (S:=B32) (mat_of v) = Ok r,
    is_nan r = is_nan (v ord0 ord0) &
    ~~ is_nan (v ord0 ord0) ->
      (exists i, ~~ is_nan (v i ord0) /\ r = Babs (v i ord0)) /\
      forall i, ~~ is_nan (v i ord0) -> ~~ Bltb r (Babs (v i ord0))].
Proof. exact: inf_norm_special_f32_L. Qed.
Print Assumptions inf_norm_special_f32.

(** ** C62 (C65 in f32) NaN in products, determinants and solutions *)

(** C62 (C65 in f32): an element of a product of f32 matrices is NaN when an element of the row or column it is formed from is, and the
  trace is NaN when an element of the diagonal is. *)
Theorem mul_nan_f32 : forall g m p n (A : 'M[b32]_(m.+1, p.+1)) (B : 'M[b32]_(p.+1, n.+1)),
  exists C : 'M[b32]_(m.+1, n.+1), mul (N:=B32) g (mat_of A) (mat_of B) = Ok (mat_of C) /\
  forall i j, (exists k, is_nan (A i k) || is_nan (B k j)) -> is_nan (C i j).
Proof. exact: mul_nan_f32_L. Qed.
Print Assumptions mul_nan_f32.

Theorem trace_nan_f32 : forall n (A : 'M[b32]_n.+1),
  exists t, trace (S:=B32) (mat_of A) = Ok t /\ ((exists i, is_nan (A i i)) -> is_nan t).
Proof. exact: trace_nan_f32_L. Qed.
Print Assumptions trace_nan_f32.

(** C62 (C65 in f32): when an f32 matrix has a NaN element, its determinant is NaN. *)
Theorem det_nan_f32 : forall gp n (A : 'M[b32]_n.+1),
  exists x, det (S:=B32) gp (mat_of A) = Ok x /\ ((exists i j, is_nan (A i j)) -> is_nan x).
Proof. exact: det_nan_f32_L. Qed.
Print Assumptions det_nan_f32.

(** C62 (C65 in f32): when A or B has a NaN element, solve A X = B does not hide it: it gives up, or X has a NaN in every column for
  a NaN of A and in column j for a NaN in column j of B; likewise for inverse. *)
Theorem solve_nan_f32 : forall gp g n k (A : 'M[b32]_n.+1) (B : 'M[b32]_(n.+1, k.+1)),
  solve (S:=B32) gp g (mat_of A) (mat_of B) = Ok None \/
  exists X : 'M[b32]_(n.+1, k.+1), [/\ solve (S:=B32) gp g (mat_of A) (mat_of B) = Ok (Some (mat_of X)),
    (exists i j, is_nan (A i j)) -> exists i, forall j, is_nan (X i j) &
    forall j, (exists i, is_nan (B i j)) -> exists i, is_nan (X i j)].
Proof. exact: solve_nan_f32_L. Qed.
Print Assumptions solve_nan_f32.

Theorem inverse_nan_f32 : forall gp g1 g2 n (A : 'M[b32]_n.+1),
  inverse (S:=B32) gp g1 g2 (mat_of A) = Ok None \/
  exists X : 'M[b32]_n.+1, inverse (S:=B32) gp g1 g2 (mat_of A) = Ok (Some (mat_of X)) /\
    ((exists i j, is_nan (A i j)) -> exists i, forall j, is_nan (X i j)).
Proof. exact: inverse_nan_f32_L. Qed.
Print Assumptions inverse_nan_f32.

(** a 2x2 system with a NaN off the diagonal: the NaN reaches the determinant and a row of the solution *)
Example nan_example :
  let g : nat -> B32 := fun=> b32_zero in
  let A : mat B32 := Mat 2 [:: b32_int 1; B754_nan; b32_int 3; b32_int 4] in
  let B : mat B32 := Mat 2 [:: b32_int 1; b32_int 2] in
  match det (S:=B32) (fun=> 7%N) A, solve (S:=B32) (fun=> 7%N) g A B with
  | Ok x, Ok (Some X) => is_nan x && has (@is_nan b_prec b_emax) (data X)
  | _, _ => false
  end.
Proof. vm_cast_no_check (erefl true). Qed.
(** the largest element in absolute value does not see a NaN that is not first *)
Example inf_norm_nan_example :
  match vector_inf_norm (S:=B32) (Mat 3 [:: b32_int 1; B754_nan; b32_int (-3)]) with
  | Ok x => Beqb x (b32_int 3)
  | _ => false
  end.
Proof. vm_cast_no_check (erefl true). Qed.
