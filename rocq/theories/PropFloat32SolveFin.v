(** * f32 solve and inverse: no overflow

    Only property theorems, each closed by a lemma of Float32SolveFinThms.v, and the
    Examples showing that their hypotheses are met.  Generated from Float32SolveFinThms.v by
    tools/genprops.py. *)
From Coq Require Import ZArith Reals Lra Psatz.
From Flocq Require Import Core BinarySingleNaN.
From mathcomp Require Import all_ssreflect all_algebra zify.
From mathcomp Require Import fingroup perm.
From Verif Require Import Base Scalar Hoare ModelMatrix ModelLU Spec MatrixProofs MatrixProofs2 LUProofs LUEval B32 SpecFloat32 Float32Base Float32LU SpecFloat32Prio Float32LUThms Float32Prio Float32PrioThms Float32SolveFin.
From Verif Require Import Float32SolveFinThms.

Set Implicit Arguments.
Unset Strict Implicit.
Unset Printing Implicit Defensive.

Local Open Scope R_scope.

(** ** C62 (C66 in f32) well-conditioned systems are solved without overflow *)

(** C62 (C66 in f32): let A be an f32 matrix with |A| <= M, V its (real) inverse with absolute row sums at most K, B a right-hand side
  with |B| <= b.  If K times the rounding error of the factors is at most 1/4 and the numbers that bound the intermediate
  results (W for U, Y for the forward and Z for the back substitution) stay below 2^127, then solve returns a matrix X, X is
  finite, |X| <= Z, and X differs from the exact solution V B by at most K times the residual bound: nothing about the
  result is assumed. *)
Theorem solve_no_overflow_f32 : forall gp g n k (A : 'M[b32]_n.+1) (B : 'M[b32]_(n.+1, k.+1)) M V K b,
  let N := n.+1 in let W := lu_bound N M n in let Y := lu_bound N b n in let Z := sol_bound N K W Y in
  (forall i j, finite (A i j) /\ Rabs (rv (A i j)) <= M) -> (forall i j, finite (B i j) /\ Rabs (rv (B i j)) <= b) ->
  left_inverse V A -> (forall i, \rsum_(l < N) Rabs (V i l) <= K) -> K * (INR N * lu_error N W) <= / 4 ->
  W <= 2 ^ 127 -> Z <= 2 ^ 127 -> grow N.+1 * (Y + INR N * (W * Z + eta32)) <= 2 ^ 127 ->
  exists X : 'M[b32]_(n.+1, k.+1), [/\ solve (S:=B32) gp g (mat_of A) (mat_of B) = Ok (Some (mat_of X)),
    forall i j, finite (X i j) /\ Rabs (rv (X i j)) <= Z &
    forall i j, Rabs (rv (X i j) - \rsum_(l < N) (V i l * rv (B l j))) <=
      K * solve_error N W (\rsum_(l < N) Rabs (rv (X l j)))].
Proof. exact: solve_no_overflow_f32_L. Qed.
Print Assumptions solve_no_overflow_f32.

(** C62 (C66 in f32): the same for inverse, whose right-hand side is the identity (b = 1). *)
Theorem inverse_no_overflow_f32 : forall gp g1 g2 n (A : 'M[b32]_n.+1) M V K,
  let N := n.+1 in let W := lu_bound N M n in let Y := lu_bound N 1 n in let Z := sol_bound N K W Y in
  (forall i j, finite (A i j) /\ Rabs (rv (A i j)) <= M) ->
  left_inverse V A -> (forall i, \rsum_(l < N) Rabs (V i l) <= K) -> K * (INR N * lu_error N W) <= / 4 ->
  W <= 2 ^ 127 -> Z <= 2 ^ 127 -> grow N.+1 * (Y + INR N * (W * Z + eta32)) <= 2 ^ 127 ->
  exists X : 'M[b32]_n.+1, [/\ inverse (S:=B32) gp g1 g2 (mat_of A) = Ok (Some (mat_of X)),
    forall i j, finite (X i j) /\ Rabs (rv (X i j)) <= Z &
    forall i j, Rabs (rv (X i j) - V i j) <= K * solve_error N W (\rsum_(l < N) Rabs (rv (X l j)))].
Proof. exact: inverse_no_overflow_f32_L. Qed.
Print Assumptions inverse_no_overflow_f32.

From Verif Require Import PropFloat32Prio.
(** the hypotheses are met by A = [0 1; 1 1] (with inverse [-1 1; 1 0], M = 1, K = 2) and right-hand sides up to 1 *)
Example solve_no_overflow_example : let W := lu_bound 2 1 1 in let Y := lu_bound 2 1 1 in let Z := sol_bound 2 2 W Y in
  [/\ 2 * (INR 2 * lu_error 2 W) <= / 4, W <= 2 ^ 127, Z <= 2 ^ 127 & grow 3 * (Y + INR 2 * (W * Z + eta32)) <= 2 ^ 127].
Proof.
have [g3 _] := prio_grow; have g1 := grow_ge1 3; have e0 := eta32_gt0; have u0 := u32_gt0.
have uS : u32 <= / 2 ^ 20 by apply: Rinv_le_contravar; [apply: pow_lt; lra|apply: Rle_pow; [lra|lia]].
have ue : eta32 <= / 2 ^ 20 by apply: Rinv_le_contravar; [apply: pow_lt; lra|apply: Rle_pow; [lra|lia]].
have p20 : / 2 ^ 20 <= / 1000000 by apply: Rinv_le_contravar; [lra|rewrite /=; lra].
have W6 : lu_bound 2 1 1 <= 7.
  rewrite /lu_bound pow_1 (_ : INR 3 = 3); last by rewrite /=; ring.
  apply: Rle_trans (_ : 2 * 3 * (1 + 3 * / 1000000) <= 7); last lra.
  by apply: Rmult_le_compat; [nra|lra| |lra]; apply: Rmult_le_compat; lra.
have W0 : 0 <= lu_bound 2 1 1.
  by rewrite /lu_bound pow_1; apply: Rmult_le_pos; [nra|have := pos_INR 3; nra].
have I2 : INR 2 = 2 by rewrite /=; ring.
have g2 : grow 2 <= grow 3 by apply: grow_le.
have g20 := grow_ge1 2.
have e2 : err 2 <= 3 * / 1000000 by rewrite /err /grow /=; nra.
have e20 := err_ge0 2.
have big (x : R) : x <= 1024 -> x <= 2 ^ 127.
  move=> h; apply: Rle_trans h _; apply: Rle_trans (_ : 2 ^ 10 <= _); first by rewrite /=; lra.
  by apply: Rle_pow; [lra|lia].
have ge : grow 2 * eta32 <= 2 * / 1000000 by apply: Rmult_le_compat; lra.
have ge0 : 0 <= grow 2 * eta32 by apply: Rmult_le_pos; lra.
have Z60 : 0 <= sol_bound 2 2 (lu_bound 2 1 1) (lu_bound 2 1 1) <= 57.
  rewrite /sol_bound I2; set w := lu_bound 2 1 1 in W6 W0 *.
  have a1 : grow 2 * eta32 * (2 + w) <= 2 * / 1000000 * 9 by apply: Rmult_le_compat; lra.
  have a2 : 0 <= grow 2 * eta32 * (2 + w) by apply: Rmult_le_pos; lra.
  split; lra.
move=> W Y Z; have w6 : W <= 7 := W6; have w0 : 0 <= W := W0; have y6 : Y <= 7 := W6; have y0 : 0 <= Y := W0.
have [z0 z57] : 0 <= Z <= 57 := Z60.
have a1 : err 2 * W <= 3 * / 1000000 * 7 by apply: Rmult_le_compat.
have a2 : grow 2 * eta32 * (1 + W) <= 2 * / 1000000 * 8 by apply: Rmult_le_compat; lra.
split.
- by rewrite /lu_error I2; lra.
- by apply: big; lra.
- by apply: big; lra.
apply: Rle_trans (_ : 2 * (7 + 2 * (7 * 57 + 1)) <= _); last by apply: Rle_trans (_ : 2 ^ 11 <= _); [rewrite /=; lra|apply: Rle_pow; [lra|lia]].
rewrite I2.
have wz : W * Z <= 7 * 57 by apply: Rmult_le_compat.
have wz0 : 0 <= W * Z by apply: Rmult_le_pos.
apply: Rmult_le_compat; lra.
Qed.
