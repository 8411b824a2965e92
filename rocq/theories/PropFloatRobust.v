(** * C60: SVD and eigenvalues of arbitrary f64 matrices

    Only property theorems, each closed by a lemma of FloatRobustThms.v, and the
    Examples showing that their hypotheses are met.  Generated from FloatRobustThms.v by
    tools/genprops.py. *)
From Coq Require Import ZArith Reals.
From Flocq Require Import Core BinarySingleNaN.
From mathcomp Require Import all_ssreflect all_algebra zify.
From Verif Require Import Base Scalar Hoare ModelMatrix ModelHypot ModelSVD ModelEigen Spec MatrixProofs MatrixThms EigenProofs B64 SpecFloat64 FloatBase FloatChol FloatCholThms FloatQRThms Safe SafeSvd.
From Verif Require Import FloatRobustThms.

Set Implicit Arguments.
Unset Strict Implicit.
Unset Printing Implicit Defensive.



(** ** C60 no panic on any f64 input *)

(** C60: for every f64 matrix, NaN and infinities included, SVD::new does not panic: it returns factors of the right
  shapes, or the iteration goes on for longer than the given number of rounds.  There are no other outcomes. *)
Theorem svd_new_no_panic_f64 : forall m n (A : 'M[b64]_(m.+1, n.+1)) fuel (gs gu gv ge gw gb gt1 gt2 : nat -> B64),
  (exists U Sg V, svd_new (S:=B64) fuel gs gu gv ge gw gb gt1 gt2 (mat_of A) =
     Ok (@SVDec B64 (@mat_of b64 m.+1 m.+1 U) (@mat_of b64 m.+1 n.+1 Sg) (@mat_of b64 n.+1 n.+1 V))) \/
  svd_new (S:=B64) fuel gs gu gv ge gw gb gt1 gt2 (mat_of A) = Err OutOfFuel.
Proof. exact: svd_new_no_panic_f64_L. Qed.
Print Assumptions svd_new_no_panic_f64.

(** C60: the same for EigenDecomposition::new, if the square matrix is not symmetric (elements compared by ==, so a
  matrix holding a NaN is never symmetric); get_d does not panic on the result either. *)
Theorem eigen_new_no_panic_f64 : forall n (A : 'M[b64]_n.+1) fuel (gv gd ge gh gort gz gr gs g : nat -> B64),
  (exists i j, Beqb (A i j) (A j i) = false) ->
  (exists d e V, eigen_new (S:=B64) fuel gv gd ge gh gort gz gr gs (mat_of A) = Ok (@Eigen B64 n.+1 d e (@mat_of b64 n.+1 n.+1 V)) /\
     size d = n.+1 /\ size e = n.+1 /\
     exists D, eigen_get_d g (@Eigen B64 n.+1 d e (mat_of V)) = Ok (@mat_of b64 n.+1 n.+1 D)) \/
  eigen_new (S:=B64) fuel gv gd ge gh gort gz gr gs (mat_of A) = Err OutOfFuel.
Proof. exact: eigen_new_no_panic_f64_L. Qed.
Print Assumptions eigen_new_no_panic_f64.

(** both outcomes of SVD::new and EigenDecomposition::new occur; a matrix holding a NaN is a case of the hypothesis *)
Definition svd_run : bool :=
  match svd_new (S:=B64) 30 (fun=> B754_nan) (fun=> B754_nan) (fun=> B754_nan) (fun=> B754_nan) (fun=> B754_nan) (fun=> B754_nan)
    (fun=> B754_nan) (fun=> B754_nan) (Mat 2 [seq b64_int (Z.of_nat k) | k <- [:: 1; 2; 3; 4; 5; 7]%N]) with
  | Ok d => all (fun x : b64 => is_finite x) (data (svd_s d) ++ data (svd_u d) ++ data (svd_v d)) | Err _ => false end.
Lemma svd_run_ok : svd_run = true. Proof. vm_cast_no_check (erefl true). Qed.
Definition eig_run : bool :=
  match eigen_new (S:=B64) 60 (fun=> B754_nan) (fun=> B754_nan) (fun=> B754_nan) (fun=> B754_nan) (fun=> B754_nan) (fun=> B754_nan)
    (fun=> B754_nan) (fun=> B754_nan) (Mat 3 [seq b64_int (Z.of_nat k) | k <- [:: 1; 2; 3; 4; 5; 6; 7; 8; 9]%N]) with
  | Ok d => all (fun x : b64 => is_finite x) (eg_d d ++ eg_e d ++ data (eg_v d)) | Err _ => false end.
Lemma eig_run_ok : eig_run = true. Proof. vm_cast_no_check (erefl true). Qed.
Lemma eig_hyp_met : let A : 'M[b64]_2 := mxn 2 2 (fun _ _ => B754_nan) in exists i j, Beqb (A i j) (A j i) = false.
Proof. by exists ord0, ord0; rewrite !mxE. Qed.

(** ** C60 finite data near the overflow threshold *)

(** C60: SVD::new does not return for this finite upper triangular matrix with unit diagonal, however long it runs. *)
Theorem svd_new_hangs_f64 : let M := b64_of 1 1023 in exists A : 'M[b64]_3,
  (forall i j : 'I_3, A i j = if (j < i)%N then b64_zero else if i == j then b64_int 1 else M) /\ finite M /\
  forall fuel (gs gu gv ge gw gb gt1 gt2 : nat -> B64), svd_new (S:=B64) fuel gs gu gv ge gw gb gt1 gt2 (mat_of A) = Err OutOfFuel.
Proof. exact: svd_new_hangs_f64_L. Qed.
Print Assumptions svd_new_hangs_f64.

(** C60: for the finite matrix [1 M; 0 1], M = 2^1023, of determinant 1, SVD::new returns the singular values 0 and 0. *)
Theorem svd_new_wrong_f64 : let M := b64_of 1 1023 in exists A : 'M[b64]_2,
  (forall i j : 'I_2, A i j = if (j < i)%N then b64_zero else if i == j then b64_int 1 else M) /\ finite M /\
  forall fuel (gs gu gv ge gw gb gt1 gt2 : nat -> B64), (10 <= fuel)%N ->
    exists U V Sg, svd_new (S:=B64) fuel gs gu gv ge gw gb gt1 gt2 (mat_of A) =
      Ok (@SVDec B64 (@mat_of b64 2 2 U) (@mat_of b64 2 2 Sg) (@mat_of b64 2 2 V)) /\
      forall i j, B2R (Sg i j) = R0.
Proof. exact: svd_new_wrong_f64_L. Qed.
Print Assumptions svd_new_wrong_f64.

(** C60: a NaN in the data can be lost: SVD::new of diag(NaN, 1) returns finite U and V and the singular values 1 and 0. *)
Theorem svd_new_nan_f64 : exists A : 'M[b64]_2, A ord0 ord0 = B754_nan /\
  (forall i j, (i, j) != (ord0, ord0) -> A i j = if i == j then b64_int 1 else b64_zero) /\
  forall fuel (gs gu gv ge gw gb gt1 gt2 : nat -> B64), (10 <= fuel)%N ->
    exists U V Sg, svd_new (S:=B64) fuel gs gu gv ge gw gb gt1 gt2 (mat_of A) =
      Ok (@SVDec B64 (@mat_of b64 2 2 U) (@mat_of b64 2 2 Sg) (@mat_of b64 2 2 V)) /\
      (forall i j, finite (U i j) /\ finite (V i j) /\ finite (Sg i j)) /\
      B2R (Sg ord0 ord0) = R1 /\ forall i j, (i, j) != (ord0, ord0) -> B2R (Sg i j) = R0.
Proof. exact: svd_new_nan_f64_L. Qed.
Print Assumptions svd_new_nan_f64.

(** C60: EigenDecomposition::new does not return for the finite tridiagonal matrix [1 M 0; 1 1 M; 0 1 1]. *)
Theorem eigen_new_hangs_f64 : let M := b64_of 1 1023 in exists A : 'M[b64]_3,
  (forall i j : 'I_3, A i j = if (j == i.+1 :> nat) then M else if (i == j :> nat) || (i == j.+1 :> nat) then b64_int 1 else b64_zero) /\ finite M /\
  forall fuel (gv gd ge gh gort gz gr gs : nat -> B64), eigen_new (S:=B64) fuel gv gd ge gh gort gz gr gs (mat_of A) = Err OutOfFuel.
Proof. exact: eigen_new_hangs_f64_L. Qed.
Print Assumptions eigen_new_hangs_f64.

(** C60: for the finite matrix [0 M 0; 0 0 M; M 0 0] (M times a cyclic permutation, so invertible) EigenDecomposition::new
  returns the eigenvalue 0 three times. *)
Theorem eigen_new_wrong_f64 : let M := b64_of 1 1023 in exists A : 'M[b64]_3,
  (forall i j : 'I_3, A i j = if (j == i.+1 %% 3 :> nat)%N then M else b64_zero) /\ finite M /\
  forall fuel (gv gd ge gh gort gz gr gs : nat -> B64), (10 <= fuel)%N ->
    exists d e V, eigen_new (S:=B64) fuel gv gd ge gh gort gz gr gs (mat_of A) = Ok (@Eigen B64 3 d e V) /\
      map (fun x : b64 => B2R x) d = [:: R0; R0; R0] /\ map (fun x : b64 => B2R x) e = [:: R0; R0; R0].
Proof. exact: eigen_new_wrong_f64_L. Qed.
Print Assumptions eigen_new_wrong_f64.

(** C60: EigenDecomposition::new panics on the finite symmetric matrix [0 L; L 0], L = 15 * 2^1020 (its eigenvalues L and -L
  are representable): an index runs out of bounds. *)
Theorem eigen_new_sym_panics_f64 : let L := b64_of 15 1020 in exists A : 'M[b64]_2,
  (forall i j : 'I_2, A i j = if i == j then b64_zero else L) /\ finite L /\
  forall fuel (gv gd ge gh gort gz gr gs : nat -> B64), (10 <= fuel)%N ->
    eigen_new (S:=B64) fuel gv gd ge gh gort gz gr gs (mat_of A) = Err Panic.
Proof. exact: eigen_new_sym_panics_f64_L. Qed.
Print Assumptions eigen_new_sym_panics_f64.

(** C60: EigenDecomposition::new does not return for the finite symmetric matrix [M M; M -M], M = 2^1023. *)
Theorem eigen_new_sym_hangs_f64 : let M := b64_of 1 1023 in exists A : 'M[b64]_2,
  (forall i j : 'I_2, A i j = if (i == ord_max) && (j == ord_max) then Bopp M else M) /\ finite M /\
  forall fuel (gv gd ge gh gort gz gr gs : nat -> B64), eigen_new (S:=B64) fuel gv gd ge gh gort gz gr gs (mat_of A) = Err OutOfFuel.
Proof. exact: eigen_new_sym_hangs_f64_L. Qed.
Print Assumptions eigen_new_sym_hangs_f64.
