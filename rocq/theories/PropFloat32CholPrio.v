(** * forward error of the Cholesky solver in f32 (C62)

    Only property theorems, each closed by a lemma of Float32CholPrioThms.v, and the
    Examples showing that their hypotheses are met.  Generated from Float32CholPrioThms.v by
    tools/genprops.py. *)
From Coq Require Import ZArith Reals Lra Psatz.
From Flocq Require Import Core BinarySingleNaN.
From mathcomp Require Import all_ssreflect all_algebra zify.
From mathcomp Require Import fingroup perm.
From Verif Require Import Base Scalar Hoare ModelMatrix ModelLU ModelCholesky Spec B32 SpecFloat32 Float32Base Float32LU Float32LUThms Float32CholThms Float32CholFullThms SpecFloat32Prio Float32Prio Float32PrioThms.
From Verif Require Import Float32CholPrioThms.

Set Implicit Arguments.
Unset Strict Implicit.
Unset Printing Implicit Defensive.

Local Open Scope R_scope.

(** ** C62 (C64 in f32) the Cholesky solver in f32: forward error *)

(** C62 (C64 in f32): let A meet the hypotheses of chol_complete_f32 (symmetric, positive definite by a margin), with a diagonal of at
  most D, and let V be its (real) inverse, with absolute row sums at most K.  Then new returns a factor, solve returns a
  matrix X for every right-hand side B, and, when X is finite, B is too and X differs from the exact solution V B by at most
  K times chol_error, which is ((1+u)^(3n+1) - 1) W times the sum of the magnitudes in the column of X, W = 2 D, but for
  underflow. *)
Theorem chol_solve_well_conditioned_f32 : forall g n k (A : 'M[b32]_n.+1) (B : 'M[b32]_(n.+1, k.+1)) D V K,
  (forall i j, finite (A i j)) -> (forall i j, rv (A i j) = rv (A j i)) -> 16 * err n.+2 <= 1 ->
  let t := \rsum_(i < n.+1) rv (A i i) in
  / 2 ^ 100 <= t <= 2 ^ 104 ->
  (forall x : 'I_n.+1 -> R,
     10 * INR n.+1 * err n.+2 * t * (\rsum_(i < n.+1) (x i * x i)) <=
     (\rsum_(i < n.+1) (\rsum_(j < n.+1) (x i * rv (A i j) * x j)))) ->
  (forall i, rv (A i i) <= D) ->
  left_inverse V A -> (forall i, \rsum_(l < n.+1) Rabs (V i l) <= K) ->
  exists (L : 'M[b32]_n.+1) (X : 'M[b32]_(n.+1, k.+1)),
  [/\ chol_new (S:=B32) g (mat_of A) = Ok (Some (mat_of L)),
      chol_solve (S:=B32) (mat_of L) (mat_of B) = Ok (mat_of X) &
      (forall i j, finite (X i j)) -> (forall i j, finite (B i j)) /\ forall i j,
        Rabs (rv (X i j) - \rsum_(l < n.+1) (V i l * rv (B l j))) <=
        K * chol_error n.+1 (chol_bound n.+1 D) (\rsum_(l < n.+1) Rabs (rv (X l j)))].
Proof. exact: chol_solve_well_conditioned_f32_L. Qed.
Print Assumptions chol_solve_well_conditioned_f32.

(** the hypotheses are met by the matrix of chol_complete_example (9 on the diagonal, 3 elsewhere), whose inverse has 2/15 on
    the diagonal and -1/30 elsewhere *)
From Verif Require Import PropFloat32CholFull.
Example chol_solve_well_conditioned_example k (B : 'M[b32]_(3, k.+1)) :
  let V (i j : 'I_3) : R := if i == j then 2 / 15 else - / 30 in
  exists (L : 'M[b32]_3) (X : 'M[b32]_(3, k.+1)),
  [/\ chol_new (S:=B32) (fun=> B754_nan) (mat_of mx933) = Ok (Some (mat_of L)),
      chol_solve (S:=B32) (mat_of L) (mat_of B) = Ok (mat_of X) &
      (forall i j, finite (X i j)) -> (forall i j, finite (B i j)) /\ forall i j,
        Rabs (rv (X i j) - \rsum_(l < 3) (V i l * rv (B l j))) <=
        / 5 * chol_error 3 (chol_bound 3 9) (\rsum_(l < 3) Rabs (rv (X l j)))].
Proof.
move=> V.
have e4 := err4; have e0 := err_ge0 4.
have M i j : rv (mx933 i j) = if i == j then 9 else 3.
  by rewrite mxE /e93; case: (i == j); rewrite ?rv_b32_int9 ?rv_b32_int3.
have F m (hm : (m < 3)%N) l (hl : (l < 3)%N) : (m != l) -> (Ordinal hm == Ordinal hl) = false by rewrite -val_eqE /= => /negPf.
apply: chol_solve_well_conditioned_f32_L.
- by move=> i j; rewrite mxE; case: (i == j).
- by move=> i j; rewrite !mxE eq_sym.
- lra.
- rewrite !rsum3 !M !eqxx; split.
    apply: Rle_trans (_ : 1 <= _); last lra.
    by rewrite -Rinv_1; apply: Rinv_le_contravar; [lra|apply: pow_R1_Rle; lra].
  by apply: Rle_trans (_ : 2 ^ 5 <= _); [rewrite /=; lra|apply: Rle_pow; [lra|lia]].
- move=> x; rewrite !rsum3 !M !eqxx.
  rewrite /ord0 /ord_max !F //; set a := x _; set b := x _; set c := x _.
  have -> : INR 3 = 3 by rewrite /=; ring.
  have sa : 0 <= a * a by apply: Rle_0_sqr.
  have sb : 0 <= b * b by apply: Rle_0_sqr.
  have sc : 0 <= c * c by apply: Rle_0_sqr.
  have s : 0 <= (a + b + c) * (a + b + c) by apply: Rle_0_sqr.
  apply: Rle_trans (_ : 1 * (a * a + b * b + c * c) <= _); last lra.
  by apply: Rmult_le_compat_r; lra.
- by move=> i; rewrite M eqxx; lra.
- move=> i j; rewrite !rsum3 !M /V.
  by case: i => -[|[|[|i]]] hi //; case: j => -[|[|[|j]]] hj //; rewrite -!val_eqE /=; field.
move=> i; rewrite rsum3 /V; case: i => -[|[|[|i]]] hi //; rewrite -!val_eqE /= ?Rabs_Ropp !Rabs_pos_eq; lra.
Qed.
