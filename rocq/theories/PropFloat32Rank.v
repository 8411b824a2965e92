(** * SVD::rank in f32 (C62, C74)

    Only property theorems, each closed by a lemma of Float32RankThms.v, and the
    Examples showing that their hypotheses are met.  Generated from Float32RankThms.v by
    tools/genprops.py. *)
From Coq Require Import ZArith Reals Lra Psatz.
From Flocq Require Import Core BinarySingleNaN.
From mathcomp Require Import all_ssreflect all_algebra zify.
From Verif Require Import Base Scalar Hoare ModelMatrix ModelSVD Spec MatrixProofs MatrixProofs2 B32 SpecFloat32 Float32Base Float32LU Float32QR.
From Verif Require Import Float32RankThms.

Set Implicit Arguments.
Unset Strict Implicit.
Unset Printing Implicit Defensive.

Local Open Scope R_scope.

(** ** C62 (C74 in f32) SVD::rank in f32 *)

(** C62 (C74 in f32): for f32 matrices U, S, V of the shapes of a decomposition with at least as many columns as rows, n + 1 < 2^24
  columns, rank succeeds and counts the selected elements of the diagonal of S.  If s = S_00 is finite and (n + 1) |s| is at
  most 2^127, an element is selected if it exceeds t = (n + 1) s 2^-52 by more than the error of two roundings, and not if
  it is below t by as much; between the two limits the rounding decides.  An element that is NaN is never selected.  If s is
  NaN or plus infinity, or (n + 1) s overflows, nothing is selected and the rank is 0. *)
Theorem svd_rank_rounding_f32 : forall m n (Sm : 'M[b32]_(m.+1, n.+1)) (U : 'M[b32]_m.+1) (V : 'M[b32]_n.+1), (m <= n)%N -> INR n.+1 < 2 ^ 24 ->
  exists sel : 'I_m.+1 -> bool,
  [/\ svd_rank (SVDec (S:=B32) (mat_of U) (mat_of Sm) (mat_of V)) = Ok #|[set i | sel i]|,
      forall (i : 'I_m.+1) (j : 'I_n.+1), i = j :> nat -> is_nan (Sm i j) -> sel i = false,
      let s := Sm ord0 ord0 in
      let t := INR n.+1 * rv s / 2 ^ 52 in
      let e := err 2 * Rabs t + 2 * eta32 in
      finite s -> INR n.+1 * Rabs (rv s) <= 2 ^ 127 ->
      forall (i : 'I_m.+1) (j : 'I_n.+1), i = j :> nat -> finite (Sm i j) ->
        (t + e < rv (Sm i j) -> sel i = true) /\ (rv (Sm i j) <= t - e -> sel i = false) &
      is_nan (Sm ord0 ord0) \/ Sm ord0 ord0 = B754_infinity false \/
        (finite (Sm ord0 ord0) /\ 2 ^ 128 <= INR n.+1 * rv (Sm ord0 ord0)) -> forall i, sel i = false].
Proof. exact: svd_rank_rounding_f32_L. Qed.
Print Assumptions svd_rank_rounding_f32.

(** C62 (C74 in f32), finding: with more rows than columns rank panics, whatever the elements are. *)
Theorem svd_rank_tall_panics_f32 : forall m n (Sm : 'M[b32]_(m.+1, n.+1)) (U : 'M[b32]_m.+1) (V : 'M[b32]_n.+1), (n < m)%N ->
  svd_rank (SVDec (S:=B32) (mat_of U) (mat_of Sm) (mat_of V)) = Err Panic.
Proof. exact: svd_rank_tall_panics_f32_L. Qed.
Print Assumptions svd_rank_tall_panics_f32.

(** C62 (C74 in f32), finding: SVD::new returns for the finite matrix 2^127 * I of order 2, and rank() of the decomposition is 0; for
  2^126 * I the rank is 2. *)
Theorem svd_rank_overflow_refuted_f32 : exists A B : 'M[b32]_2,
  [/\ forall i j, finite (A i j) /\ rv (A i j) = if i == j then 2 ^ 127 else 0,
      forall i j, finite (B i j) /\ rv (B i j) = if i == j then 2 ^ 126 else 0 &
  forall fuel gs gu gv ge gw gb gt1 gt2, (60 <= fuel)%N ->
    (exists d, svd_new (S:=B32) fuel gs gu gv ge gw gb gt1 gt2 (mat_of A) = Ok d /\ svd_rank d = Ok 0%N) /\
    (exists d, svd_new (S:=B32) fuel gs gu gv ge gw gb gt1 gt2 (mat_of B) = Ok d /\ svd_rank d = Ok 2%N)].
Proof. exact: svd_rank_overflow_refuted_f32_L. Qed.
Print Assumptions svd_rank_overflow_refuted_f32.

(** the hypotheses of svd_rank_rounding are met by the decomposition with S = I of order 2, and its rank is 2; with NaN or
    plus infinity as the first element it is 0, and the 2 x 1 decomposition panics *)
Example svd_rank_rounding_hyps : [/\ (1 <= 1)%N, INR 2 < 2 ^ 24, finite (b32_int 1) & INR 2 * Rabs (rv (b32_int 1)) <= 2 ^ 127].
Proof.
have h k : 1 <= 2 ^ k by apply: pow_R1_Rle; lra.
have -> : INR 2 = 2 by rewrite /=; lra.
rewrite rv_int1 Rabs_R1; split=> //; first by have := h 23%N; rewrite (_ : 2 ^ 24 = 2 * 2 ^ 23) //; lra.
by have := h 126%N; rewrite (_ : 2 ^ 127 = 2 * 2 ^ 126) //; lra.
Qed.
Definition rank_of (l : seq b32) : res nat :=
  svd_rank (SVDec (S:=B32) (Mat 2 l) (Mat 2 l) (Mat 2 l)).
Example rank_one : rank_of [:: b32_int 1; b32_zero; b32_zero; b32_int 1] = Ok 2%N. Proof. by vm_compute. Qed.
Example rank_nan : rank_of [:: B754_nan; b32_zero; b32_zero; b32_int 1] = Ok 0%N. Proof. by vm_compute. Qed.
Example rank_inf : rank_of [:: B754_infinity false; b32_zero; b32_zero; b32_int 1] = Ok 0%N. Proof. by vm_compute. Qed.
Example rank_tall : svd_rank (SVDec (S:=B32) (Mat 2 [:: b32_int 1; b32_zero; b32_zero; b32_int 1]) (Mat 2 [:: b32_int 1; b32_zero]) (Mat 1 [:: b32_int 1])) = Err Panic.
Proof. by vm_compute. Qed.
