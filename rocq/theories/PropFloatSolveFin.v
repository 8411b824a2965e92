(** * f64 solve and inverse: no overflow

    Only property theorems, each closed by a lemma of FloatSolveFinThms.v, and the
    Examples showing that their hypotheses are met.  Generated from FloatSolveFinThms.v by
    tools/genprops.py. *)
From Coq Require Import ZArith Reals Lra Psatz.
From Flocq Require Import Core BinarySingleNaN.
From mathcomp Require Import all_ssreflect all_algebra zify.
From mathcomp Require Import fingroup perm.
From Verif Require Import Base Scalar Hoare ModelMatrix ModelLU Spec MatrixProofs MatrixProofs2 LUProofs LUEval B64 SpecFloat64 FloatBase FloatLU SpecFloatPrio FloatLUThms FloatPrio FloatPrioThms FloatSolveFin.
From Verif Require Import FloatSolveFinThms.

Set Implicit Arguments.
Unset Strict Implicit.
Unset Printing Implicit Defensive.

Local Open Scope R_scope.

(** ** C66 well-conditioned systems are solved without overflow *)

(** C66: let A be an f64 matrix with |A| <= M, V its (real) inverse with absolute row sums at most K, B a right-hand side
  with |B| <= b.  If K times the rounding error of the factors is at most 1/4 and the numbers that bound the intermediate
  results (W for U, Y for the forward and Z for the back substitution) stay below 2^1023, then solve returns a matrix X, X is
  finite, |X| <= Z, and X differs from the exact solution V B by at most K times the residual bound: nothing about the
  result is assumed. *)
Theorem solve_no_overflow : forall gp g n k (A : 'M[b64]_n.+1) (B : 'M[b64]_(n.+1, k.+1)) M V K b,
  let N := n.+1 in let W := lu_bound N M n in let Y := lu_bound N b n in let Z := sol_bound N K W Y in
  (forall i j, finite (A i j) /\ Rabs (rv (A i j)) <= M) -> (forall i j, finite (B i j) /\ Rabs (rv (B i j)) <= b) ->
  left_inverse V A -> (forall i, \rsum_(l < N) Rabs (V i l) <= K) -> K * (INR N * lu_error N W) <= / 4 ->
  W <= 2 ^ 1023 -> Z <= 2 ^ 1023 -> grow N.+1 * (Y + INR N * (W * Z + eta64)) <= 2 ^ 1023 ->
  exists X : 'M[b64]_(n.+1, k.+1), [/\ solve (S:=B64) gp g (mat_of A) (mat_of B) = Ok (Some (mat_of X)),
    forall i j, finite (X i j) /\ Rabs (rv (X i j)) <= Z &
    forall i j, Rabs (rv (X i j) - \rsum_(l < N) (V i l * rv (B l j))) <=
      K * solve_error N W (\rsum_(l < N) Rabs (rv (X l j)))].
Proof. exact: solve_no_overflow_L. Qed.
Print Assumptions solve_no_overflow.

(** C66: the same for inverse, whose right-hand side is the identity (b = 1). *)
Theorem inverse_no_overflow : forall gp g1 g2 n (A : 'M[b64]_n.+1) M V K,
  let N := n.+1 in let W := lu_bound N M n in let Y := lu_bound N 1 n in let Z := sol_bound N K W Y in
  (forall i j, finite (A i j) /\ Rabs (rv (A i j)) <= M) ->
  left_inverse V A -> (forall i, \rsum_(l < N) Rabs (V i l) <= K) -> K * (INR N * lu_error N W) <= / 4 ->
  W <= 2 ^ 1023 -> Z <= 2 ^ 1023 -> grow N.+1 * (Y + INR N * (W * Z + eta64)) <= 2 ^ 1023 ->
  exists X : 'M[b64]_n.+1, [/\ inverse (S:=B64) gp g1 g2 (mat_of A) = Ok (Some (mat_of X)),
    forall i j, finite (X i j) /\ Rabs (rv (X i j)) <= Z &
    forall i j, Rabs (rv (X i j) - V i j) <= K * solve_error N W (\rsum_(l < N) Rabs (rv (X l j)))].
Proof. exact: inverse_no_overflow_L. Qed.
Print Assumptions inverse_no_overflow.

From Verif Require Import PropFloatPrio.
(** the hypotheses are met by A = [0 1; 1 1] (with inverse [-1 1; 1 0], M = 1, K = 2) and right-hand sides up to 1 *)
Example solve_no_overflow_example : let W := lu_bound 2 1 1 in let Y := lu_bound 2 1 1 in let Z := sol_bound 2 2 W Y in
  [/\ 2 * (INR 2 * lu_error 2 W) <= / 4, W <= 2 ^ 1023, Z <= 2 ^ 1023 & grow 3 * (Y + INR 2 * (W * Z + eta64)) <= 2 ^ 1023].
Proof.
have [g3 _] := prio_grow; have g1 := grow_ge1 3; have e0 := eta64_gt0; have u0 := u64_gt0.
have uS : u64 <= / 2 ^ 20 by apply: Rinv_le_contravar; [apply: pow_lt; lra|apply: Rle_pow; [lra|lia]].
have ue : eta64 <= / 2 ^ 20 by apply: Rinv_le_contravar; [apply: pow_lt; lra|apply: Rle_pow; [lra|lia]].
have p20 : / 2 ^ 20 <= / 1000000 by apply: Rinv_le_contravar; [lra|rewrite /=; lra].
have W6 : lu_bound 2 1 1 <= 7.
  rewrite /lu_bound pow_1 (_ : INR 3 = 3); last by rewrite /=; ring.
  apply: Rle_trans (_ : 2 * 3 * (1 + 3 * / 1000000) <= 7); last lra.
  by apply: Rmult_le_compat; [nra|lra| |lra]; apply: Rmult_le_compat; lra.
have W0 : 0 <= lu_bound 2 1 1.
  by rewrite /lu_bound pow_1; apply: Rmult_le_pos; [nra|have := pos_INR 3; nra].
have I2 : INR 2 = 2 by rewrite /=; ring.
have g2 : grow 2 <= grow 3 by apply: grow_le.
have g20 := grow_ge1 2.
have e2 : err 2 <= 3 * / 1000000 by rewrite /err /grow /=; nra.
have e20 := err_ge0 2.
have big (x : R) : x <= 1024 -> x <= 2 ^ 1023.
  move=> h; apply: Rle_trans h _; apply: Rle_trans (_ : 2 ^ 10 <= _); first by rewrite /=; lra.
  by apply: Rle_pow; [lra|lia].
have ge : grow 2 * eta64 <= 2 * / 1000000 by apply: Rmult_le_compat; lra.
have ge0 : 0 <= grow 2 * eta64 by apply: Rmult_le_pos; lra.
have Z60 : 0 <= sol_bound 2 2 (lu_bound 2 1 1) (lu_bound 2 1 1) <= 57.
  rewrite /sol_bound I2; set w := lu_bound 2 1 1 in W6 W0 *.
  have a1 : grow 2 * eta64 * (2 + w) <= 2 * / 1000000 * 9 by apply: Rmult_le_compat; lra.
  have a2 : 0 <= grow 2 * eta64 * (2 + w) by apply: Rmult_le_pos; lra.
  split; lra.
move=> W Y Z; have w6 : W <= 7 := W6; have w0 : 0 <= W := W0; have y6 : Y <= 7 := W6; have y0 : 0 <= Y := W0.
have [z0 z57] : 0 <= Z <= 57 := Z60.
have a1 : err 2 * W <= 3 * / 1000000 * 7 by apply: Rmult_le_compat.
have a2 : grow 2 * eta64 * (1 + W) <= 2 * / 1000000 * 8 by apply: Rmult_le_compat; lra.
split.
- by rewrite /lu_error I2; lra.
- by apply: big; lra.
- by apply: big; lra.
apply: Rle_trans (_ : 2 * (7 + 2 * (7 * 57 + 1)) <= _); last by apply: Rle_trans (_ : 2 ^ 11 <= _); [rewrite /=; lra|apply: Rle_pow; [lra|lia]].
rewrite I2.
have wz : W * Z <= 7 * 57 by apply: Rmult_le_compat.
have wz0 : 0 <= W * Z by apply: Rmult_le_pos.
apply: Rmult_le_compat; lra.
Qed.
