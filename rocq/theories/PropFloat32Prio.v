(** * a priori guarantees for LU, solve and inverse in f32 (C62)

    Only property theorems, each closed by a lemma of Float32PrioThms.v, and the
    Examples showing that their hypotheses are met.  Generated from Float32PrioThms.v by
    tools/genprops.py. *)
From Coq Require Import ZArith Reals Lra Psatz.
From Flocq Require Import Core BinarySingleNaN.
From mathcomp Require Import all_ssreflect all_algebra zify.
From mathcomp Require Import fingroup perm.
From Verif Require Import Base Scalar Hoare ModelMatrix ModelLU Spec MatrixProofs MatrixProofs2 LUProofs LUEval B32 SpecFloat32 Float32Base Float32LU SpecFloat32Prio Float32LUThms Float32Prio.
From Verif Require Import Float32PrioThms.

Set Implicit Arguments.
Unset Strict Implicit.
Unset Printing Implicit Defensive.

Local Open Scope R_scope.

(** ** C62 (C63 in f32) no overflow in the LU decomposition *)

(** C62 (C63 in f32): if the elements of A are at most M in absolute value, and the growth that partial pivoting allows keeps them
  below 2^127, then L and U are finite, |L| <= 1, and row i of U is bounded by (1+u)^(r+1) (1 + (1+u)^(r+1))^i (M + ...). *)
Theorem lu_no_overflow_f32 : forall gp m n (A : 'M[b32]_(m.+1, n.+1)) M, let r := minn m.+1 n.+1 in
  (forall i j, finite (A i j) /\ Rabs (rv (A i j)) <= M) -> lu_bound r M r.-1 <= 2 ^ 127 ->
  exists (d : lu_decomp B32) (L : 'M[b32]_(m.+1, r)) (U : 'M[b32]_(r, n.+1)),
  [/\ lu_new (S:=B32) gp (mat_of A) = Ok d,
      forall g, lu_get_l g d = Ok (mat_of L),
      forall g, lu_get_u g d = Ok (mat_of U),
      forall i j, finite (L i j) /\ Rabs (rv (L i j)) <= 1 &
      forall i j, finite (U i j) /\ Rabs (rv (U i j)) <= lu_bound r M i].
Proof. exact: lu_no_overflow_f32_L. Qed.
Print Assumptions lu_no_overflow_f32.

(** ** C62 (C63 in f32) well-conditioned systems are solved *)

(** C62 (C63 in f32): let A be an f32 matrix with |A| <= M and V its (real) inverse, with absolute row sums at most K.  If the growth
  that partial pivoting allows keeps W = lu_bound below 2^127 and K times the rounding error of the factors is below 1
  (A is not singular to working accuracy), then the LU decomposition reports A as non-singular, solve returns a matrix X,
  and, when X is finite, X differs from the exact solution V B by at most K times the residual bound. *)
Theorem solve_well_conditioned_f32 : forall gp g n k (A : 'M[b32]_n.+1) (B : 'M[b32]_(n.+1, k.+1)) M V K,
  let W := lu_bound n.+1 M n in
  (forall i j, finite (A i j) /\ Rabs (rv (A i j)) <= M) -> W <= 2 ^ 127 ->
  left_inverse V A -> (forall i, \rsum_(l < n.+1) Rabs (V i l) <= K) -> K * (INR n.+1 * lu_error n.+1 W) < 1 ->
  (exists d, lu_new (S:=B32) gp (mat_of A) = Ok d /\ lu_is_non_singular d = Ok true) /\
  exists X : 'M[b32]_(n.+1, k.+1), solve (S:=B32) gp g (mat_of A) (mat_of B) = Ok (Some (mat_of X)) /\
    ((forall i j, finite (X i j)) -> forall i j,
      Rabs (rv (X i j) - \rsum_(l < n.+1) (V i l * rv (B l j))) <=
      K * solve_error n.+1 W (\rsum_(l < n.+1) Rabs (rv (X l j)))).
Proof. exact: solve_well_conditioned_f32_L. Qed.
Print Assumptions solve_well_conditioned_f32.

(** C62 (C63 in f32): the same for inverse: its result is close to the inverse of A. *)
Theorem inverse_well_conditioned_f32 : forall gp g1 g2 n (A : 'M[b32]_n.+1) M V K,
  let W := lu_bound n.+1 M n in
  (forall i j, finite (A i j) /\ Rabs (rv (A i j)) <= M) -> W <= 2 ^ 127 ->
  left_inverse V A -> (forall i, \rsum_(l < n.+1) Rabs (V i l) <= K) -> K * (INR n.+1 * lu_error n.+1 W) < 1 ->
  exists X : 'M[b32]_n.+1, inverse (S:=B32) gp g1 g2 (mat_of A) = Ok (Some (mat_of X)) /\
    ((forall i j, finite (X i j)) -> forall i j,
      Rabs (rv (X i j) - V i j) <= K * solve_error n.+1 W (\rsum_(l < n.+1) Rabs (rv (X l j)))).
Proof. exact: inverse_well_conditioned_f32_L. Qed.
Print Assumptions inverse_well_conditioned_f32.

(** the hypotheses are met by a matrix that needs a pivot: A = [0 1; 1 1], with inverse V = [-1 1; 1 0], M = 1 and K = 2 *)
Definition prio_mx : 'M[b32]_2 := (\matrix_(i, j) if (i == ord0) && (j == ord0) then b32_zero else b32_int 1)%R.
Definition prio_inv (i j : 'I_2) : R := if i == ord0 then (if j == ord0 then -1 else 1) else (if j == ord0 then 1 else 0).
Lemma prio_rv i j : rv (prio_mx i j) = if (i == ord0) && (j == ord0) then 0 else 1.
Proof. by rewrite mxE; case: ifP => _; rewrite ?rv_int1. Qed.
Lemma prio_grow : grow 3 <= 2 /\ err 2 <= / 256.
Proof. have := u32_lt1; have := u32_gt0; rewrite /err /grow /=; split; nra. Qed.
Example solve_well_conditioned_example : let W := lu_bound 2 1 1 in
  [/\ forall i j, finite (prio_mx i j) /\ Rabs (rv (prio_mx i j)) <= 1, W <= 2 ^ 127,
      left_inverse prio_inv prio_mx, forall i, \rsum_(l < 2) Rabs (prio_inv i l) <= 2 & 2 * (INR 2 * lu_error 2 W) < 1].
Proof.
have [g3 e2] := prio_grow; have g1 := grow_ge1 3; have e0 := eta32_gt0.
have ue : eta32 <= / 1024 by apply: Rle_trans (Rlt_le _ _ u32_lt1); apply: Rinv_le_contravar; [apply: pow_lt; lra|apply: Rle_pow; [lra|lia]].
have W6 : lu_bound 2 1 1 <= 7.
  rewrite /lu_bound pow_1 (_ : INR 3 = 3); last by rewrite /=; ring.
  apply: Rle_trans (_ : 2 * 3 * (1 + 3 * / 1024) <= 7); last lra.
  by apply: Rmult_le_compat; [nra|lra| |lra]; apply: Rmult_le_compat; lra.
have W0 : 0 <= lu_bound 2 1 1.
  by rewrite /lu_bound pow_1; apply: Rmult_le_pos; [nra|have := pos_INR 3; nra].
have I2 : INR 2 = 2 by rewrite /=; ring.
split.
- move=> i j; split; first by rewrite mxE; case: ifP.
  by rewrite prio_rv; case: ifP => _; rewrite ?Rabs_R0 ?Rabs_R1; lra.
- apply: Rle_trans W6 _; apply: Rle_trans (_ : 2 ^ 3 <= _); first by rewrite /=; lra.
  by apply: Rle_pow; [lra|lia].
- move=> i j; rewrite big_ord_recl big_ord1 !prio_rv.
  by case: i => -[|[|i]] hi //; case: j => -[|[|j]] hj //; rewrite /prio_inv /=; lra.
- move=> i; rewrite big_ord_recl big_ord1.
  by case: i => -[|[|i]] hi //; rewrite /prio_inv /= ?Rabs_Ropp ?Rabs_R1 ?Rabs_R0; lra.
have g2 : grow 2 <= grow 3 by apply: grow_le.
have g20 := grow_ge1 2.
have e20 := err_ge0 2.
rewrite I2 /lu_error I2.
have a1 : err 2 * lu_bound 2 1 1 <= / 256 * 7 by apply: Rmult_le_compat.
have a2 : grow 2 * eta32 <= 2 * / 1024 by apply: Rmult_le_compat; lra.
have a3 : grow 2 * eta32 * (1 + lu_bound 2 1 1) <= 2 * / 1024 * 8.
  by apply: Rmult_le_compat; [apply: Rmult_le_pos; lra|lra|lra|lra].
lra.
Qed.
