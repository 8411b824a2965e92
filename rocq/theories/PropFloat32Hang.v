(** * PropFloat32Hang: SVD::new does not terminate on ordinary f32 matrices (C62)

    Only property theorems, each closed by a lemma of Float32HangThms.v, and the
    Examples showing that their hypotheses are met.  Generated from Float32HangThms.v by
    tools/genprops.py. *)
From Coq Require Import ZArith Reals SpecFloat.
From Flocq Require Import Core BinarySingleNaN.
From mathcomp Require Import all_ssreflect all_algebra zify.
From Verif Require Import Base Scalar Hoare ModelMatrix ModelHypot ModelSVD ModelEigen Spec SpecGarbage MatrixProofs MatrixThms B32 SpecFloat32 Safe SafeSvd Float32RobustThms.
From Verif Require Import Float32HangThms.

Set Implicit Arguments.
Unset Strict Implicit.
Unset Printing Implicit Defensive.



(** ** C62 SVD::new does not terminate on ordinary f32 matrices *)

(** C62: on the f32 matrix [39 -3; -3 -39] (sqrt 1530 times an orthogonal matrix) SVD::new never returns. *)
Theorem svd_new_hangs_2x2_f32 : exists A : 'M[b32]_2,
  [/\ A ord0 ord0 = b32_int 39, A ord0 ord_max = b32_int (-3), A ord_max ord0 = b32_int (-3) & A ord_max ord_max = b32_int (-39)] /\
  forall fuel (gs gu gv ge gw gb gt1 gt2 : nat -> B32), svd_new (S:=B32) fuel gs gu gv ge gw gb gt1 gt2 (mat_of A) = Err OutOfFuel.
Proof. exact: svd_new_hangs_2x2_f32_L. Qed.
Print Assumptions svd_new_hangs_2x2_f32.

(** C62: nor does it on the f32 matrix [2 -1 -2; 1 2 -1; -2 -1 -2], whose singular values are sqrt 10, sqrt 10 and 2. *)
Theorem svd_new_hangs_3x3_f32 : exists A : 'M[b32]_3,
  (forall i j : 'I_3, A i j = nth b32_zero [:: b32_int 2; b32_int (-1); b32_int (-2); b32_int 1; b32_int 2; b32_int (-1);
                                              b32_int (-2); b32_int (-1); b32_int (-2)] (3 * i + j)) /\
  forall fuel (gs gu gv ge gw gb gt1 gt2 : nat -> B32), svd_new (S:=B32) fuel gs gu gv ge gw gb gt1 gt2 (mat_of A) = Err OutOfFuel.
Proof. exact: svd_new_hangs_3x3_f32_L. Qed.
Print Assumptions svd_new_hangs_3x3_f32.

(** C62: the hypothesis [zero_sum] of the theorems on uninitialised memory (C44) holds for f32. *)
Theorem zero_sum_f32 : zero_sum B32.
Proof. exact: zero_sum_f32_L. Qed.
Print Assumptions zero_sum_f32.
