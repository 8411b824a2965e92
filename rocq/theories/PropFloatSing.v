(** * is_singular in f64 (C75)

    Only property theorems, each closed by a lemma of FloatSingThms.v, and the
    Examples showing that their hypotheses are met.  Generated from FloatSingThms.v by
    tools/genprops.py. *)
From Coq Require Import ZArith Reals Lra Psatz.
From Flocq Require Import Core BinarySingleNaN.
From mathcomp Require Import all_ssreflect all_algebra zify.
From mathcomp Require Import fingroup perm.
From Verif Require Import Base Scalar Hoare ModelMatrix ModelLU Spec MatrixProofs MatrixProofs2 LUProofs LUEval B64 SpecFloat64 FloatBase FloatLU SpecFloatPrio FloatLUThms FloatPrio FloatPrioThms.
From Verif Require Import FloatSingThms.

Set Implicit Arguments.
Unset Strict Implicit.
Unset Printing Implicit Defensive.

Local Open Scope R_scope.

(** ** C75 is_singular in f64 *)

(** C75: for every square f64 matrix (NaN and infinities included) is_singular and is_non_singular return, with opposite
  answers: A is called singular exactly if U of its LU decomposition has a zero on the diagonal. *)
Theorem is_singular_f64 : forall gp n (A : 'M[b64]_n.+1),
  exists (d : lu_decomp B64) (U : 'M[b64]_n.+1),
  [/\ lu_new (S:=B64) gp (mat_of A) = Ok d, forall g, lu_get_u g d = Ok (mat_of U),
      is_singular (S:=B64) gp (mat_of A) = Ok [exists i, Beqb (U i i) b64_zero] &
      is_non_singular (S:=B64) gp (mat_of A) = Ok [forall i, ~~ Beqb (U i i) b64_zero]].
Proof. exact: is_singular_f64_L. Qed.
Print Assumptions is_singular_f64.

(** C75: a square f64 matrix with elements at most M, without overflow by the bound of C63, that is called singular is
  close to a singular matrix: some E with all elements at most lu_error in magnitude makes (A + E) w = 0 for a w that is
  not zero. *)
Theorem is_singular_nearby : forall gp n (A : 'M[b64]_n.+1) M, let W := lu_bound n.+1 M n in
  (forall i j, finite (A i j) /\ Rabs (rv (A i j)) <= M) -> W <= 2 ^ 1023 ->
  is_singular (S:=B64) gp (mat_of A) = Ok true ->
  exists (E : 'I_n.+1 -> 'I_n.+1 -> R) (w : 'I_n.+1 -> R),
  [/\ forall i j, Rabs (E i j) <= lu_error n.+1 W, exists j, w j <> 0 &
      forall i, \rsum_(j < n.+1) ((rv (A i j) + E i j) * w j) = 0].
Proof. exact: is_singular_nearby_L. Qed.
Print Assumptions is_singular_nearby.

(** C75: a matrix that is well-conditioned in the sense of C63 is called non-singular. *)
Theorem is_singular_well_conditioned : forall gp n (A : 'M[b64]_n.+1) M V K, let W := lu_bound n.+1 M n in
  (forall i j, finite (A i j) /\ Rabs (rv (A i j)) <= M) -> W <= 2 ^ 1023 ->
  left_inverse V A -> (forall i, \rsum_(l < n.+1) Rabs (V i l) <= K) -> K * (INR n.+1 * lu_error n.+1 W) < 1 ->
  is_singular (S:=B64) gp (mat_of A) = Ok false /\ is_non_singular (S:=B64) gp (mat_of A) = Ok true.
Proof. exact: is_singular_well_conditioned_L. Qed.
Print Assumptions is_singular_well_conditioned.

(** C75: a matrix that is not square makes both panic. *)
Theorem is_singular_panics_f64 : forall m n (A : 'M[b64]_(m.+1, n.+1)) gp, m != n ->
  is_singular (S:=B64) gp (mat_of A) = Err Panic /\ is_non_singular (S:=B64) gp (mat_of A) = Err Panic.
Proof. exact: is_singular_panics_f64_L. Qed.
Print Assumptions is_singular_panics_f64.

(** C75, finding: the test is exact, so that rounding decides: the singular f64 matrix [49 49; 1 1] is called non-singular,
  and the invertible [3 1; 1 t] with t the double nearest to 1/3, whose determinant 3 t - 1 is not 0, is called singular. *)
Theorem is_singular_f64_refuted : exists A B : 'M[b64]_2,
  [/\ (forall i j, finite (A i j) /\ finite (B i j)),
      (forall i, rv (A i ord0) = rv (A i ord_max)) /\ (forall gp, is_singular (S:=B64) gp (mat_of A) = Ok false) &
      rv (B ord0 ord0) * rv (B ord_max ord_max) - rv (B ord0 ord_max) * rv (B ord_max ord0) <> 0 /\
      (forall gp, is_singular (S:=B64) gp (mat_of B) = Ok true)].
Proof. exact: is_singular_f64_refuted_L. Qed.
Print Assumptions is_singular_f64_refuted.

(** the hypotheses of is_singular_nearby are met by the zero matrix of order 1 with M = 0; those of
    is_singular_well_conditioned by the matrix of solve_well_conditioned_example (PropFloatPrio.v) *)
Example is_singular_nearby_hyps (A : 'M[b64]_1 := (const_mx b64_zero)%R) : let W := lu_bound 1 1 0 in
  [/\ forall i j, finite (A i j) /\ Rabs (rv (A i j)) <= 1, W <= 2 ^ 1023 &
      forall gp, is_singular (S:=B64) gp (mat_of A) = Ok true].
Proof.
split.
- by move=> i j; rewrite mxE; split=> //; rewrite Rabs_R0; lra.
- have h : 2 ^ 3 <= 2 ^ 1023 by apply: Rle_pow; [lra|lia].
  apply: Rle_trans h; rewrite /lu_bound /grow /=; have := u64_lt1; have := u64_gt0.
  have := u64_lt1; have ue : eta64 <= / 1024 by apply: Rle_trans (Rlt_le _ _ u64_lt1); apply: Rinv_le_contravar; [apply: pow_lt; lra|apply: Rle_pow; [lra|lia]].
  have := eta64_gt0; move: (eta64) (u64) ue => y x; nra.
move=> gp; have -> : mat_of A = Mat 1 [:: b64_zero].
  by apply/esym/(@rep_mat_of _ 1 1 _ (fun _ _ => b64_zero)); [split=> //; split=> // -[|i] // [|j]|move=> i j; rewrite mxE].
by vm_compute.
Qed.
