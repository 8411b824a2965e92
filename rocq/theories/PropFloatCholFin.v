(** * the Cholesky solver in f64: no overflow

    Only property theorems, each closed by a lemma of FloatCholFinThms.v, and the
    Examples showing that their hypotheses are met.  Generated from FloatCholFinThms.v by
    tools/genprops.py. *)
From Coq Require Import ZArith Reals Lra Psatz.
From Flocq Require Import Core BinarySingleNaN.
From mathcomp Require Import all_ssreflect all_algebra zify.
From mathcomp Require Import fingroup perm.
From Verif Require Import Base Scalar Hoare ModelMatrix ModelLU ModelCholesky CholEval Spec MatrixProofs MatrixProofs2 LUProofs LUEval B64 SpecFloat64 FloatBase FloatLU FloatChol FloatLUThms FloatCholThms FloatCholFullThms SpecFloatPrio FloatPrio FloatPrioThms FloatCholPrioThms FloatCholFin.
From Verif Require Import FloatCholFinThms.

Set Implicit Arguments.
Unset Strict Implicit.
Unset Printing Implicit Defensive.

Local Open Scope R_scope.

(** ** C67 well-conditioned positive definite systems are solved without overflow *)

(** C67: let A meet the hypotheses of chol_complete_f64 (symmetric, positive definite by a margin), with a diagonal of at
  most D, let V be its (real) inverse, with absolute row sums at most K, and let w bound the elements of the factor
  (chol_bound N D <= w^2).  If K times the rounding error of the factor is small and the numbers that bound the intermediate
  results (Y for the forward and Z for the back substitution) stay below 2^1023, then new returns a finite factor, solve
  returns X for every right-hand side B with |B| <= b, X is finite, |X| <= Z, and X differs from the exact solution V B by at
  most K times chol_error: nothing about the result is assumed. *)
Theorem chol_solve_no_overflow : forall g n k (A : 'M[b64]_n.+1) (B : 'M[b64]_(n.+1, k.+1)) D V K w b,
  let N := n.+1 in let Y := chol_forward_bound N K w b in let Z := chol_sol_bound N K w Y in
  (forall i j, finite (A i j)) -> (forall i j, rv (A i j) = rv (A j i)) -> 16 * err N.+1 <= 1 ->
  let t := \rsum_(i < N) rv (A i i) in
  / 2 ^ 900 <= t <= 2 ^ 1000 ->
  (forall x : 'I_n.+1 -> R,
     10 * INR N * err N.+1 * t * (\rsum_(i < N) (x i * x i)) <=
     (\rsum_(i < N) (\rsum_(j < N) (x i * rv (A i j) * x j)))) ->
  (forall i, rv (A i i) <= D) -> 0 <= w -> chol_bound N D <= w * w ->
  (forall i j, finite (B i j) /\ Rabs (rv (B i j)) <= b) ->
  left_inverse V A -> (forall i, \rsum_(l < N) Rabs (V i l) <= K) ->
  K * (INR N * (err N * (INR N * (w * w)) + chol_factor_error N w)) <= / 2 ->
  grow N * (b + INR N * (w * Y + eta64)) <= 2 ^ 1023 -> grow N * (Y + INR N * (w * Z + eta64)) <= 2 ^ 1023 -> Z <= 2 ^ 1023 ->
  exists (L : 'M[b64]_n.+1) (X : 'M[b64]_(n.+1, k.+1)),
  [/\ chol_new (S:=B64) g (mat_of A) = Ok (Some (mat_of L)) /\ (forall i j, finite (L i j)),
      chol_solve (S:=B64) (mat_of L) (mat_of B) = Ok (mat_of X),
      forall i j, finite (X i j) /\ Rabs (rv (X i j)) <= Z &
      forall i j, Rabs (rv (X i j) - \rsum_(l < N) (V i l * rv (B l j))) <=
        K * chol_error N (chol_bound N D) (\rsum_(l < N) Rabs (rv (X l j)))].
Proof. exact: chol_solve_no_overflow_L. Qed.
Print Assumptions chol_solve_no_overflow.

(** the hypotheses are met by the matrix of chol_complete_example (9 on the diagonal, 3 elsewhere), with w = 5 and every
    right-hand side up to 1 *)
From Verif Require Import PropFloatCholFull.
Example chol_solve_no_overflow_example k (B : 'M[b64]_(3, k.+1)) : (forall i j, finite (B i j) /\ Rabs (rv (B i j)) <= 1) ->
  let V (i j : 'I_3) : R := if i == j then 2 / 15 else - / 30 in
  let Y := chol_forward_bound 3 (/ 5) 5 1 in let Z := chol_sol_bound 3 (/ 5) 5 Y in
  Z <= 100 /\ exists (L : 'M[b64]_3) (X : 'M[b64]_(3, k.+1)),
  [/\ chol_new (S:=B64) (fun=> B754_nan) (mat_of mx933) = Ok (Some (mat_of L)) /\ (forall i j, finite (L i j)),
      chol_solve (S:=B64) (mat_of L) (mat_of B) = Ok (mat_of X),
      forall i j, finite (X i j) /\ Rabs (rv (X i j)) <= Z &
      forall i j, Rabs (rv (X i j) - \rsum_(l < 3) (V i l * rv (B l j))) <=
        / 5 * chol_error 3 (chol_bound 3 9) (\rsum_(l < 3) Rabs (rv (X l j)))].
Proof.
move=> hB V Y Z.
have e4 := err4; have e0 := err_ge0 4; have g4 := grow_ge1 4; have e30 := err_ge0 3; have g3 := grow_ge1 3.
have gg : grow 3 <= grow 4 by apply: grow_le.
have G4 : grow 4 <= 2 by rewrite /err in e4; lra.
have ue : eta64 <= / 1024.
  by apply: Rle_trans (Rlt_le _ _ u64_lt1); apply: Rinv_le_contravar; [apply: pow_lt; lra|apply: Rle_pow; [lra|lia]].
have ue0 := eta64_gt0.
have N3 : INR 3 = 3 by rewrite /=; ring.
have N5 : INR 5 = 5 by rewrite /=; ring.
have ge0 : 0 <= grow 3 * eta64 by apply: Rmult_le_pos; lra.
have ge : grow 3 * eta64 <= 2 * / 1024 by apply: Rmult_le_compat; lra.
have ge40 : 0 <= grow 4 * eta64 by apply: Rmult_le_pos; lra.
have ge4 : grow 4 * eta64 <= 2 * / 1024 by apply: Rmult_le_compat; lra.
have Y7 : 0 <= Y <= 7 by rewrite /Y /chol_forward_bound N3; lra.
have Z60 : 0 <= Z <= 50 by rewrite /Z /chol_sol_bound N3; lra.
have big (x : R) : x <= 1024 * 1024 -> x <= 2 ^ 1023.
  move=> h; apply: Rle_trans h _; apply: Rle_trans (_ : 2 ^ 20 <= _); first by rewrite /=; lra.
  by apply: Rle_pow; [lra|lia].
have M i j : rv (mx933 i j) = if i == j then 9 else 3.
  by rewrite mxE /e93; case: (i == j); rewrite ?rv_b64_int9 ?rv_b64_int3.
have F m (hm : (m < 3)%N) l (hl : (l < 3)%N) : (m != l) -> (Ordinal hm == Ordinal hl) = false by rewrite -val_eqE /= => /negPf.
split; first lra.
apply: (@chol_solve_no_overflow_L _ _ _ _ _ 9 V (/ 5) 5 1).
- by move=> i j; rewrite mxE; case: (i == j).
- by move=> i j; rewrite !mxE eq_sym.
- lra.
- rewrite !rsum3 !M !eqxx; split.
    apply: Rle_trans (_ : 1 <= _); last lra.
    by rewrite -Rinv_1; apply: Rinv_le_contravar; [lra|apply: pow_R1_Rle; lra].
  by apply: Rle_trans (_ : 2 ^ 5 <= _); [rewrite /=; lra|apply: Rle_pow; [lra|lia]].
- move=> x; rewrite !rsum3 !M !eqxx.
  rewrite /ord0 /ord_max !F //; set a := x _; set b := x _; set c := x _.
  rewrite N3.
  have sa : 0 <= a * a by apply: Rle_0_sqr.
  have sb : 0 <= b * b by apply: Rle_0_sqr.
  have sc : 0 <= c * c by apply: Rle_0_sqr.
  have s : 0 <= (a + b + c) * (a + b + c) by apply: Rle_0_sqr.
  apply: Rle_trans (_ : 1 * (a * a + b * b + c * c) <= _); last lra.
  by apply: Rmult_le_compat_r; lra.
- by move=> i; rewrite M eqxx; lra.
- lra.
- by rewrite /chol_bound N5; lra.
- exact: hB.
- move=> i j; rewrite !rsum3 !M /V.
  by case: i => -[|[|[|i]]] hi //; case: j => -[|[|[|j]]] hj //; rewrite -!val_eqE /=; field.
- by move=> i; rewrite rsum3 /V; case: i => -[|[|[|i]]] hi //; rewrite -!val_eqE /= ?Rabs_Ropp !Rabs_pos_eq; lra.
- rewrite /chol_factor_error N3; have e34 : err 3 <= err 4 by apply: err_le.
  lra.
- rewrite -/Y N3; apply: big.
  by apply: Rle_trans (_ : 2 * (1 + 3 * (5 * 7 + 1)) <= _); [apply: Rmult_le_compat; lra|lra].
- rewrite -/Y -/Z N3; apply: big.
  by apply: Rle_trans (_ : 2 * (7 + 3 * (5 * 50 + 1)) <= _); [apply: Rmult_le_compat; lra|lra].
by apply: big; rewrite -/Y -/Z; lra.
Qed.
