(** * C44: machine integers

    Only property theorems, each closed by a lemma of UsizeThms.v, and the
    Examples showing that their hypotheses are met.  Generated from UsizeThms.v by
    tools/genprops.py. *)
From mathcomp Require Import all_ssreflect all_algebra zify.
From Verif Require Import Base Scalar Hoare ModelMatrix ModelUsize Spec MatrixProofs MtProofs MatrixThms.
From Verif Require Import UsizeThms.

Set Implicit Arguments.
Unset Strict Implicit.
Unset Printing Implicit Defensive.



(** ** C44 overflow checks on (debug profile) *)

(** C44: with overflow checks, whatever the machine version returns is what the unbounded-integer version (the
    one all other theorems are about) returns: an overflow can only turn a result into a panic. *)
Theorem checked_new : forall w T r c (d : seq T) M, new_w w true r c d = Ok M -> new r c d = Ok M.
Proof. exact: checked_new_L. Qed.
Print Assumptions checked_new.

Theorem checked_get : forall w T (M : mat T) r c x, get_w w true M r c = Ok x -> get M r c = Ok x.
Proof. exact: checked_get_L. Qed.
Print Assumptions checked_get.

Theorem checked_set : forall w T (M : mat T) r c v M', set_w w true M r c v = Ok M' -> set M r c v = Ok M'.
Proof. exact: checked_set_L. Qed.
Print Assumptions checked_set.

Theorem checked_constructors : forall w (N : numops) (g rnd : nat -> N) m n ds M,
  [/\ zero_w w true g m n = Ok M -> zero g m n = Ok M,
      id_w w true g m n = Ok M -> id g m n = Ok M,
      random_w w true g rnd m n = Ok M -> random g rnd m n = Ok M &
      block_diag_w w true g m n ds = Ok M -> block_diag g m n ds = Ok M].
Proof. exact: checked_constructors_L. Qed.
Print Assumptions checked_constructors.

Theorem checked_sub_matrix : forall w T (g : nat -> T) M sr sc er ec M',
  sub_matrix_w w true g M sr sc er ec = Ok M' -> sub_matrix g M sr sc er ec = Ok M'.
Proof. exact: checked_sub_matrix_L. Qed.
Print Assumptions checked_sub_matrix.

Theorem checked_permute_rows : forall w T (g : nat -> T) M rs M',
  permute_rows_w w true g M rs = Ok M' -> permute_rows g M rs = Ok M'.
Proof. exact: checked_permute_rows_L. Qed.
Print Assumptions checked_permute_rows.

Theorem checked_mul : forall w (N : numops) (g : nat -> N) M M2 M',
  mul_w w true g M M2 = Ok M' -> mul g M M2 = Ok M'.
Proof. exact: checked_mul_L. Qed.
Print Assumptions checked_mul.

(** C44 (mt): with overflow checks, whatever the number of iterations, a returned in-place transpose is the transpose. *)
Theorem checked_mt : forall w fuel T m n (A : 'M[T]_(m.+1, n.+1)) M',
  mt_w w true fuel (mat_of A) = Ok M' -> M' = mat_of A^T%R.
Proof. exact: checked_mt_L. Qed.
Print Assumptions checked_mt.

(** ** C44 no overflow *)

(** C44: when the exact sizes fit in usize the machine versions agree with the unbounded ones in both profiles. *)
Theorem fits_new : forall w ch T r c (d : seq T), r * c < 2 ^ w -> new_w w ch r c d = new r c d.
Proof. exact: fits_new_L. Qed.
Print Assumptions fits_new.

Theorem fits_get : forall w ch T (M : mat T) r c, size (data M) <= 2 ^ w -> get_w w ch M r c = get M r c.
Proof. exact: fits_get_L. Qed.
Print Assumptions fits_get.

Theorem fits_set : forall w ch T (M : mat T) r c v, size (data M) <= 2 ^ w -> set_w w ch M r c v = set M r c v.
Proof. exact: fits_set_L. Qed.
Print Assumptions fits_set.

Theorem fits_constructors : forall w ch (N : numops) (g rnd : nat -> N) m n ds, m * n < 2 ^ w ->
  [/\ zero_w w ch g m n = zero g m n, id_w w ch g m n = id g m n,
      random_w w ch g rnd m n = random g rnd m n & block_diag_w w ch g m n ds = block_diag g m n ds].
Proof. exact: fits_constructors_L. Qed.
Print Assumptions fits_constructors.

Theorem fits_mul : forall w ch (N : numops) (g : nat -> N) M M2 n2, cols M2 = Ok n2 -> no_rows M * n2 < 2 ^ w ->
  size (data M) <= 2 ^ w -> size (data M2) <= 2 ^ w -> mul_w w ch g M M2 = mul g M M2.
Proof. exact: fits_mul_L. Qed.
Print Assumptions fits_mul.

(** C44 (mt): no overflow if rows * len fits. *)
Theorem fits_mt : forall w ch T (M : mat T), no_rows M * size (data M) < 2 ^ w ->
  mt_w w ch (size (data M)) M = mt M.
Proof. exact: fits_mt_L. Qed.
Print Assumptions fits_mt.

(** ** C44 release profile *)

(** C44 is refuted without overflow checks: on a machine with 2k-bit usize, Matrix::new(2^k, 2^k, vec![]) is accepted
    (for k = 32: new(4294967296, 4294967296, vec![])), so that data.len() is not rows * cols as passed. *)
Theorem wrap_new_refuted : forall k T, new_w (k + k) false (2 ^ k) (2 ^ k) ([::] : seq T) = Ok (Mat (2 ^ k) [::]).
Proof. exact: wrap_new_refuted_L. Qed.
Print Assumptions wrap_new_refuted.

(** C44 is refuted without overflow checks: zero(2^k, 2^k + 1) returns a matrix with one column. *)
Theorem wrap_zero_refuted : forall k (N : numops) (g : nat -> N), 0 < k ->
  exists M, [/\ zero_w (k + k) false g (2 ^ k) (2 ^ k).+1 = Ok M, rows M = 2 ^ k & cols M = Ok 1].
Proof. exact: wrap_zero_refuted_L. Qed.
Print Assumptions wrap_zero_refuted.

(** C44/C07 refuted without overflow checks: on a 2 x 2 matrix sub_matrix(2^(w-1), 0, 2^(w-1) + 1, 1), far outside the
    matrix, returns its first element. *)
Theorem wrap_sub_matrix_refuted : forall w T (g : nat -> T) a b c d,
  sub_matrix_w w.+2 false g (Mat 2 [:: a; b; c; d]) (2 ^ w.+1) 0 (2 ^ w.+1).+1 1 = Ok (Mat 1 [:: a]).
Proof. exact: wrap_sub_matrix_refuted_L. Qed.
Print Assumptions wrap_sub_matrix_refuted.

(** C44/C04 refuted without overflow checks: on a machine with 2k-bit usize, the in-place transpose of a column vector
    of 2^k + 2 elements never terminates (for k = 32: 4294967298 elements; on a 32-bit machine: 65538 elements). *)
Theorem wrap_mt_refuted : forall k T (d : seq T) fuel, 1 < k -> size d = 2 ^ k + 2 ->
  mt_w (k + k) false fuel (Mat (2 ^ k + 2) d) = Err OutOfFuel.
Proof. exact: wrap_mt_refuted_L. Qed.
Print Assumptions wrap_mt_refuted.

(** The hypotheses are met by e.g. k = 2 (a 4-bit usize) and by k = 32. *)
Example wrap_hyps : 1 < 32 /\ size (nseq (2 ^ 2 + 2) tt) = 2 ^ 2 + 2.
Proof. by rewrite size_nseq. Qed.
(** and the no-overflow theorems by every small matrix *)
Example fits_hyps : 2 * size [:: 1; 2; 3; 4] < 2 ^ 16.
Proof. by rewrite (@leq_trans (2 ^ 4)) // leq_exp2l. Qed.
