(** * (generated by tools/gen32.py from FloatCholPrioThms.v) Float32CholPrioThms: forward error of the Cholesky solver in f32 (C64) *)
From Coq Require Import ZArith Reals Lra Psatz.
From Flocq Require Import Core BinarySingleNaN.
From mathcomp Require Import all_ssreflect all_algebra zify.
From mathcomp Require Import fingroup perm.
From Verif Require Import Base Scalar Hoare ModelMatrix ModelLU ModelCholesky Spec B32 SpecFloat32 Float32Base Float32LU Float32LUThms Float32CholThms Float32CholFullThms SpecFloat32Prio Float32Prio Float32PrioThms.

Set Implicit Arguments.
Unset Strict Implicit.
Unset Printing Implicit Defensive.
Local Open Scope R_scope.

(** the rows of a finite factor *)
Lemma chol_row g n (A L : 'M[b32]_n.+1) D : chol_new (S:=B32) g (mat_of A) = Ok (Some (mat_of L)) ->
  (forall i j, finite (L i j)) -> 16 * err n.+2 <= 1 -> (forall i, rv (A i i) <= D) ->
  forall i, 0 < rv (L i i) /\ \rsum_(l < n.+1) (rv (L i l) * rv (L i l)) <= chol_bound n.+1 D.
Proof.
move=> e FL er hD i.
case: (chol_rounding_f32_L g A) => [|[L' [e' _ H]]]; first by rewrite e.
have eL : L' = L by apply: mat_of_inj; move: e'; rewrite e; case=> h; congr Mat.
rewrite eL in H; have [fA sA pL hA] := H FL; split=> //.
have {hA} := hA i i.
rewrite (eq_bigr (fun l => rv (L i l) * rv (L i l)) (F1 := fun l => Rabs (rv (L i l)) * Rabs (rv (L i l)))); last first.
  by move=> l _; rewrite -Rabs_mult Rabs_pos_eq //; apply: Rle_0_sqr.
set s := \rsum_(l < n.+1) _ => h.
have s0 : 0 <= s by apply: rsum_ge0 => l; apply: Rle_0_sqr.
have ls : rv (L i i) * rv (L i i) <= s.
  by rewrite /s (bigD1 i) //=; rewrite -[X in X <= _]Rplus_0_r; apply: Rplus_le_compat_l; elim/big_ind: _ => [|x y|l _]; [lra|lra|apply: Rle_0_sqr].
have l1 : 2 * rv (L i i) <= 1 + s by have := Rle_0_sqr (1 - rv (L i i)); rewrite /Rsqr; lra.
have g0 := grow_ge1 n.+2; have e0 := eta32_gt0; have er0 := err_ge0 n.+2.
have ge : grow n.+2 * eta32 <= / 16.
  have g2 : grow n.+2 <= 2 by rewrite /err in er; lra.
  have ue : eta32 <= / 1024.
    by apply: Rle_trans (Rlt_le _ _ u32_lt1); apply: Rinv_le_contravar; [apply: pow_lt; lra|apply: Rle_pow; [lra|lia]].
  by apply: Rle_trans (_ : 2 * / 1024 <= _); [apply: Rmult_le_compat; lra|lra].
have ge0 : 0 <= grow n.+2 * eta32 by apply: Rmult_le_pos; lra.
have := hD i; rewrite /chol_bound; set G := grow n.+2 * eta32 in ge ge0 h *; have := Rabs_le_inv _ _ h.
rewrite [INR n.+3]S_INR [INR n.+2]S_INR; have n0 := pos_INR n.+1; set N := INR n.+1 in n0 h *.
have p1 : G * (N + rv (L i i) + rv (L i i)) <= G * (N + (1 + s)) by apply: Rmult_le_compat_l; lra.
have p2 : G * s <= / 16 * s by apply: Rmult_le_compat_r.
have p3 : err n.+2 * s <= / 16 * s by apply: Rmult_le_compat_r; lra.
have p4 := Rmult_le_pos _ _ ge0 n0.
by move=> [h1 h2] hd; lra.
Qed.

Lemma amul_le x y W : x * x <= W -> y * y <= W -> Rabs x * Rabs y <= W.
Proof.
move=> hx hy; have := Rle_0_sqr (Rabs x - Rabs y); rewrite /Rsqr.
have ex : Rabs x * Rabs x = x * x by rewrite -Rabs_mult Rabs_pos_eq //; apply: Rle_0_sqr.
have ey : Rabs y * Rabs y = y * y by rewrite -Rabs_mult Rabs_pos_eq //; apply: Rle_0_sqr.
lra.
Qed.
Lemma adot_le n (x y : 'I_n -> R) W : \rsum_(l < n) (x l * x l) <= W -> \rsum_(l < n) (y l * y l) <= W ->
  \rsum_(l < n) (Rabs (x l) * Rabs (y l)) <= W.
Proof.
move=> hx hy; apply: Rle_trans (_ : \rsum_(l < n) (/ 2 * (x l * x l) - - / 2 * (y l * y l)) <= _).
  apply: rsum_le => l; have := Rle_0_sqr (Rabs (x l) - Rabs (y l)); rewrite /Rsqr.
  have ex : Rabs (x l) * Rabs (x l) = x l * x l by rewrite -Rabs_mult Rabs_pos_eq //; apply: Rle_0_sqr.
  have ey : Rabs (y l) * Rabs (y l) = y l * y l by rewrite -Rabs_mult Rabs_pos_eq //; apply: Rle_0_sqr.
  lra.
by rewrite rsum_sub !rsum_scal; lra.
Qed.
Lemma rsum_cst n (c : R) : \rsum_(l < n) c = INR n * c.
Proof. by rewrite -/(rsumn n (fun=> c)); elim: n => [|d IH]; rewrite ?rsumn0 ?rsumnS ?IH ?S_INR /=; ring. Qed.
Lemma rsum_sq1 n (x : 'I_n -> R) i : x i * x i <= \rsum_(l < n) (x l * x l).
Proof.
rewrite (bigD1 i) //=; rewrite -[X in X <= _]Rplus_0_r; apply: Rplus_le_compat_l.
by elim/big_ind: _ => [|a b|l _]; [lra|lra|apply: Rle_0_sqr].
Qed.

Lemma chol_resid_le n k (L : 'M[b32]_n.+1) (X : 'M[b32]_(n.+1, k.+1)) W (i : 'I_n.+1) (j : 'I_k.+1) :
  (forall i, 0 < rv (L i i) /\ \rsum_(l < n.+1) (rv (L i l) * rv (L i l)) <= W) ->
  err (3 * n.+1 + 1) * (\rsum_(l < n.+1) (Rabs (rv (L i l)) * (\rsum_(p < n.+1) (Rabs (rv (L p l)) * Rabs (rv (X p j)))))) +
     grow (2 * n.+1 + 1) * eta32 *
       (INR n.+1 + rv (L i i) + (\rsum_(l < n.+1) (Rabs (rv (L i l)) * (INR n.+1 + rv (L l l)))) +
        (\rsum_(p < n.+1) ((INR n.+1 + rv (L p p) + rv (L i i)) * Rabs (rv (X p j))))) <=
  chol_error n.+1 W (\rsum_(p < n.+1) Rabs (rv (X p j))).
Proof.
move=> HL; set N := INR n.+1; set S := \rsum_(p < n.+1) Rabs _.
have N0 : 0 <= N by apply: pos_INR.
have sq a b : rv (L a b) * rv (L a b) <= W.
  by have [_ h] := HL a; apply: Rle_trans (@rsum_sq1 _ (fun l => rv (L a l)) b) h.
have one (a : R) : a * a <= W -> Rabs a <= 1 + W.
  move=> h; have := Rle_0_sqr (1 - Rabs a); rewrite /Rsqr.
  have ex : Rabs a * Rabs a = a * a by rewrite -Rabs_mult Rabs_pos_eq //; apply: Rle_0_sqr.
  have := Rle_0_sqr a; rewrite /Rsqr; lra.
have d1 a : rv (L a a) <= 1 + W by apply: Rle_trans (Rle_abs _) (one _ (sq a a)).
have S0 : 0 <= S by apply: rsum_ge0 => p; apply: Rabs_pos.
have b1 : \rsum_(l < n.+1) (Rabs (rv (L i l)) * (\rsum_(p < n.+1) (Rabs (rv (L p l)) * Rabs (rv (X p j))))) <= W * S.
  have -> : \rsum_(l < n.+1) (Rabs (rv (L i l)) * (\rsum_(p < n.+1) (Rabs (rv (L p l)) * Rabs (rv (X p j))))) =
            \rsum_(l < n.+1) \rsum_(p < n.+1) (Rabs (rv (X p j)) * (Rabs (rv (L i l)) * Rabs (rv (L p l)))).
    by apply: eq_bigr => l _; rewrite -rsum_scal; apply: eq_bigr => p _; ring.
  rewrite exchange_big /= -rsum_scal; apply: rsum_le => p; rewrite rsum_scal Rmult_comm.
  apply: Rmult_le_compat_r; first exact: Rabs_pos.
  by apply: adot_le; [case: (HL i)|case: (HL p)].
have b2 : \rsum_(l < n.+1) (Rabs (rv (L i l)) * (N + rv (L l l))) <= N * (N + 2 * W).
  have h1 : \rsum_(l < n.+1) (N * Rabs (rv (L i l))) <= N * (N + W).
    rewrite rsum_scal; apply: Rmult_le_compat_l => //.
    apply: Rle_trans (_ : \rsum_(l < n.+1) (1 - - 1 * (rv (L i l) * rv (L i l))) <= _).
      apply: rsum_le => l; have := Rle_0_sqr (1 - Rabs (rv (L i l))); rewrite /Rsqr.
      have ex : Rabs (rv (L i l)) * Rabs (rv (L i l)) = rv (L i l) * rv (L i l) by rewrite -Rabs_mult Rabs_pos_eq //; apply: Rle_0_sqr.
      have := Rle_0_sqr (rv (L i l)); rewrite /Rsqr; lra.
    by rewrite rsum_sub rsum_cst rsum_scal -/N; have [_ h] := HL i; lra.
  have h2 : \rsum_(l < n.+1) (Rabs (rv (L i l)) * rv (L l l)) <= N * W.
    rewrite -rsum_cst; apply: rsum_le => l; have [pl _] := HL l.
    by rewrite -[X in _ * X](Rabs_pos_eq (rv (L l l))); [apply: amul_le|lra].
  have -> : \rsum_(l < n.+1) (Rabs (rv (L i l)) * (N + rv (L l l))) =
            \rsum_(l < n.+1) (N * Rabs (rv (L i l)) - - 1 * (Rabs (rv (L i l)) * rv (L l l))) by apply: eq_bigr => l _; ring.
  by rewrite rsum_sub [X in _ - X]rsum_scal; lra.
have b3 : \rsum_(p < n.+1) ((N + rv (L p p) + rv (L i i)) * Rabs (rv (X p j))) <= (N + 2 + 2 * W) * S.
  rewrite -rsum_scal; apply: rsum_le => p; apply: Rmult_le_compat_r; first exact: Rabs_pos.
  by have := d1 p; have := d1 i; lra.
have ge : 0 <= grow (2 * n.+1 + 1) * eta32 by apply: Rmult_le_pos; [have := grow_ge1 (2 * n.+1 + 1); lra|have := eta32_gt0; lra].
have c1 := Rmult_le_compat_l _ _ _ (err_ge0 (3 * n.+1 + 1)) b1.
rewrite /chol_error -/N; apply: Rplus_le_compat; first lra.
by apply: Rmult_le_compat_l => //; have := d1 i; lra.
Qed.

(*@section C62 (C64 in f32) the Cholesky solver in f32: forward error @*)

(*@doc C62 (C64 in f32): let A meet the hypotheses of chol_complete_f32 (symmetric, positive definite by a margin), with a diagonal of at
  most D, and let V be its (real) inverse, with absolute row sums at most K.  Then new returns a factor, solve returns a
  matrix X for every right-hand side B, and, when X is finite, B is too and X differs from the exact solution V B by at most
  K times chol_error, which is ((1+u)^(3n+1) - 1) W times the sum of the magnitudes in the column of X, W = 2 D, but for
  underflow. *)
Lemma chol_solve_well_conditioned_f32_L : forall g n k (A : 'M[b32]_n.+1) (B : 'M[b32]_(n.+1, k.+1)) D V K,
  (forall i j, finite (A i j)) -> (forall i j, rv (A i j) = rv (A j i)) -> 16 * err n.+2 <= 1 ->
  let t := \rsum_(i < n.+1) rv (A i i) in
  / 2 ^ 100 <= t <= 2 ^ 104 ->
  (forall x : 'I_n.+1 -> R,
     10 * INR n.+1 * err n.+2 * t * (\rsum_(i < n.+1) (x i * x i)) <=
     (\rsum_(i < n.+1) (\rsum_(j < n.+1) (x i * rv (A i j) * x j)))) ->
  (forall i, rv (A i i) <= D) ->
  left_inverse V A -> (forall i, \rsum_(l < n.+1) Rabs (V i l) <= K) ->
  exists (L : 'M[b32]_n.+1) (X : 'M[b32]_(n.+1, k.+1)),
  [/\ chol_new (S:=B32) g (mat_of A) = Ok (Some (mat_of L)),
      chol_solve (S:=B32) (mat_of L) (mat_of B) = Ok (mat_of X) &
      (forall i j, finite (X i j)) -> (forall i j, finite (B i j)) /\ forall i j,
        Rabs (rv (X i j) - \rsum_(l < n.+1) (V i l * rv (B l j))) <=
        K * chol_error n.+1 (chol_bound n.+1 D) (\rsum_(l < n.+1) Rabs (rv (X l j)))].
Proof.
move=> g n k A B D V K FA SA er t ht PD hD hV hK.
have [L [e FL]] := @chol_complete_f32_L g n A FA SA er ht PD.
have [X [eX H]] := @chol_solve_rounding_f32_L g n k A L B e.
exists L, X; split=> // fX; have [fB h] := H FL fX; split=> // i j.
apply: (@forward n k A (fun i j => rv (B i j)) (fun i j => rv (X i j)) V K _ j hV hK) => i'.
apply: Rle_trans (h i' j) _; apply: chol_resid_le; exact: chol_row e FL er hD.
Qed.

(*@example
(** the hypotheses are met by the matrix of chol_complete_example (9 on the diagonal, 3 elsewhere), whose inverse has 2/15 on
    the diagonal and -1/30 elsewhere *)
From Verif Require Import PropFloat32CholFull.
Example chol_solve_well_conditioned_example k (B : 'M[b32]_(3, k.+1)) :
  let V (i j : 'I_3) : R := if i == j then 2 / 15 else - / 30 in
  exists (L : 'M[b32]_3) (X : 'M[b32]_(3, k.+1)),
  [/\ chol_new (S:=B32) (fun=> B754_nan) (mat_of mx933) = Ok (Some (mat_of L)),
      chol_solve (S:=B32) (mat_of L) (mat_of B) = Ok (mat_of X) &
      (forall i j, finite (X i j)) -> (forall i j, finite (B i j)) /\ forall i j,
        Rabs (rv (X i j) - \rsum_(l < 3) (V i l * rv (B l j))) <=
        / 5 * chol_error 3 (chol_bound 3 9) (\rsum_(l < 3) Rabs (rv (X l j)))].
Proof.
move=> V.
have e4 := err4; have e0 := err_ge0 4.
have M i j : rv (mx933 i j) = if i == j then 9 else 3.
  by rewrite mxE /e93; case: (i == j); rewrite ?rv_b32_int9 ?rv_b32_int3.
have F m (hm : (m < 3)%N) l (hl : (l < 3)%N) : (m != l) -> (Ordinal hm == Ordinal hl) = false by rewrite -val_eqE /= => /negPf.
apply: chol_solve_well_conditioned_f32_L.
- by move=> i j; rewrite mxE; case: (i == j).
- by move=> i j; rewrite !mxE eq_sym.
- lra.
- rewrite !rsum3 !M !eqxx; split.
    apply: Rle_trans (_ : 1 <= _); last lra.
    by rewrite -Rinv_1; apply: Rinv_le_contravar; [lra|apply: pow_R1_Rle; lra].
  by apply: Rle_trans (_ : 2 ^ 5 <= _); [rewrite /=; lra|apply: Rle_pow; [lra|lia]].
- move=> x; rewrite !rsum3 !M !eqxx.
  rewrite /ord0 /ord_max !F //; set a := x _; set b := x _; set c := x _.
  have -> : INR 3 = 3 by rewrite /=; ring.
  have sa : 0 <= a * a by apply: Rle_0_sqr.
  have sb : 0 <= b * b by apply: Rle_0_sqr.
  have sc : 0 <= c * c by apply: Rle_0_sqr.
  have s : 0 <= (a + b + c) * (a + b + c) by apply: Rle_0_sqr.
  apply: Rle_trans (_ : 1 * (a * a + b * b + c * c) <= _); last lra.
  by apply: Rmult_le_compat_r; lra.
- by move=> i; rewrite M eqxx; lra.
- move=> i j; rewrite !rsum3 !M /V.
  by case: i => -[|[|[|i]]] hi //; case: j => -[|[|[|j]]] hj //; rewrite -!val_eqE /=; field.
move=> i; rewrite rsum3 /V; case: i => -[|[|[|i]]] hi //; rewrite -!val_eqE /= ?Rabs_Ropp !Rabs_pos_eq; lra.
Qed.
@*)
