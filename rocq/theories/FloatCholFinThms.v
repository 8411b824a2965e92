(** * FloatCholFinThms: the Cholesky solver of a well-conditioned positive definite f64 matrix does not overflow (C67) *)
From Coq Require Import ZArith Reals Lra Psatz.
From Flocq Require Import Core BinarySingleNaN.
From mathcomp Require Import all_ssreflect all_algebra zify.
From mathcomp Require Import fingroup perm.
From Verif Require Import Base Scalar Hoare ModelMatrix ModelLU ModelCholesky CholEval Spec MatrixProofs MatrixProofs2 LUProofs LUEval B64 SpecFloat64 FloatBase FloatLU FloatChol FloatLUThms FloatCholThms FloatCholFullThms SpecFloatPrio FloatPrio FloatPrioThms FloatCholPrioThms FloatCholFin.

Set Implicit Arguments.
Unset Strict Implicit.
Unset Printing Implicit Defensive.
Local Open Scope R_scope.

(*@section C67 well-conditioned positive definite systems are solved without overflow @*)

(*@doc C67: let A meet the hypotheses of chol_complete_f64 (symmetric, positive definite by a margin), with a diagonal of at
  most D, let V be its (real) inverse, with absolute row sums at most K, and let w bound the elements of the factor
  (chol_bound N D <= w^2).  If K times the rounding error of the factor is small and the numbers that bound the intermediate
  results (Y for the forward and Z for the back substitution) stay below 2^1023, then new returns a finite factor, solve
  returns X for every right-hand side B with |B| <= b, X is finite, |X| <= Z, and X differs from the exact solution V B by at
  most K times chol_error: nothing about the result is assumed. *)
Lemma chol_solve_no_overflow_L : forall g n k (A : 'M[b64]_n.+1) (B : 'M[b64]_(n.+1, k.+1)) D V K w b,
  let N := n.+1 in let Y := chol_forward_bound N K w b in let Z := chol_sol_bound N K w Y in
  (forall i j, finite (A i j)) -> (forall i j, rv (A i j) = rv (A j i)) -> 16 * err N.+1 <= 1 ->
  let t := \rsum_(i < N) rv (A i i) in
  / 2 ^ 900 <= t <= 2 ^ 1000 ->
  (forall x : 'I_n.+1 -> R,
     10 * INR N * err N.+1 * t * (\rsum_(i < N) (x i * x i)) <=
     (\rsum_(i < N) (\rsum_(j < N) (x i * rv (A i j) * x j)))) ->
  (forall i, rv (A i i) <= D) -> 0 <= w -> chol_bound N D <= w * w ->
  (forall i j, finite (B i j) /\ Rabs (rv (B i j)) <= b) ->
  left_inverse V A -> (forall i, \rsum_(l < N) Rabs (V i l) <= K) ->
  K * (INR N * (err N * (INR N * (w * w)) + chol_factor_error N w)) <= / 2 ->
  grow N * (b + INR N * (w * Y + eta64)) <= 2 ^ 1023 -> grow N * (Y + INR N * (w * Z + eta64)) <= 2 ^ 1023 -> Z <= 2 ^ 1023 ->
  exists (L : 'M[b64]_n.+1) (X : 'M[b64]_(n.+1, k.+1)),
  [/\ chol_new (S:=B64) g (mat_of A) = Ok (Some (mat_of L)) /\ (forall i j, finite (L i j)),
      chol_solve (S:=B64) (mat_of L) (mat_of B) = Ok (mat_of X),
      forall i j, finite (X i j) /\ Rabs (rv (X i j)) <= Z &
      forall i j, Rabs (rv (X i j) - \rsum_(l < N) (V i l * rv (B l j))) <=
        K * chol_error N (chol_bound N D) (\rsum_(l < N) Rabs (rv (X l j)))].
Proof.
move=> g n k A B D V K w b N Y Z FA SA er t ht PD hD w0 hw hB hV hK hC hB1 hB2 hB3.
have [L [e FL]] := @chol_complete_f64_L g n A FA SA er ht PD.
have rowL := chol_row e FL er hD.
have [X [eX H]] := @chol_solve_rounding_L g n k A L B e.
suff HF : forall i j, finite (X i j) /\ Rabs (rv (X i j)) <= Z.
  exists L, X; split=> //; have [_ h] := H FL (fun i j => proj1 (HF i j)) => i j.
  apply: (@forward n k A (fun i j => rv (B i j)) (fun i j => rv (X i j)) V K _ j hV hK) => i'.
  by apply: Rle_trans (h i' j) _; apply: chol_resid_le.
case: (chol64 g A) => [[f [ef Hf]]|[e' _]]; last by move: e; rewrite e'.
move: e; rewrite ef => h; have eL := mat_of_inj (ok_some_inj h); rewrite -{}eL in FL rowL eX => {h H ef L}.
have FF i p : (i < N)%N -> (p < N)%N -> finite (f i p).
  by move=> hi hk; have := FL (Ordinal hi) (Ordinal hk); rewrite mxE.
have sq i : (i < N)%N -> rsumn N (fun l => rv (f i l) * rv (f i l)) <= w * w.
  move=> hi; have [_] := rowL (Ordinal hi).
  by rewrite (rsum_rsumn (G := fun l => rv (f i l) * rv (f i l))); [move=> h; apply: Rle_trans hw|move=> l; rewrite !mxE].
have fw i p : (i < N)%N -> (p < N)%N -> Rabs (rv (f i p)) <= w.
  move=> hi hp; apply: Rsqr_incr_0_var => //; rewrite /Rsqr; apply: Rle_trans (sq i hi).
  have -> : Rabs (rv (f i p)) * Rabs (rv (f i p)) = rv (f i p) * rv (f i p).
    by rewrite -Rabs_mult Rabs_pos_eq //; apply: Rle_0_sqr.
  rewrite -(rsum_rsumn (F := fun l : 'I_N => rv (f i l) * rv (f i l))) //.
  exact: (@rsum_sq1 N (fun l => rv (f i l)) (Ordinal hp)).
have HL : rep N N (mat_of (mxn N N f)) f.
  by have := mat_of_rep b64_zero (mxn N N f) => -[h1 h2]; split=> //; apply: repr_ext h2 _ => i j hi hj; rewrite (fn_lt _ _ hi hj) mxE.
have [X' [y [z [ez HX Hy Hz]]]] := chol_solve_ev bdiv_tot (ltn0Sn n) (ltn0Sn k) HL (mat_of_rep b64_zero B).
move: eX; rewrite ez => -[eX]; rewrite {}eX in HX.
move=> i j; have := rep_get i j HX; rewrite (rep_get i j (mat_of_rep b64_zero X)) !ltn_ord fnE /= => -[->].
have b0 : 0 <= b by have [_] := hB ord0 ord0; have := Rabs_pos (rv (B ord0 ord0)); lra.
have K0 : 0 <= K by apply: Rle_trans (hK ord0); apply: rsum_ge0 => l; apply: Rabs_pos.
have := @z_cprio N f (fun i => fn b64_zero B i j) (fun i => y i j) (fun i => z i j) (fun i j => rv (fn b64_zero A i j))
  (fun i l => fnR V i l) w b K (chol_factor_error N w) _ _ _ _ _ _ _ _ hC b0 w0 K0 hB1 hB2 hB3 N (leqnn _) i.
apply.
- by move=> i' k' hi hk; split; [apply: FF|apply: fw].
- by move=> k' hk; have := @ch_pos N _ f Hf FF k' hk; lra.
- by move=> i' hi; rewrite (fn_lt _ _ hi (ltn_ord j)); apply: hB.
- by move=> i' hi; apply: Hy.
- by move=> i' hi; apply: Hz.
- move=> i' j' hi hj; have h := ch_back_sym Hf FF hi hj.
  have cut a c (ha : (a < N)%N) (hc : (c < N)%N) : (if (c <= a)%N then rv (f a c) else 0) = rv (f a c).
    by case: leqP => // h'; rewrite (ch_upper0 Hf).
  rewrite (rsumn_ext (g := fun l => rv (f i' l) * rv (f j' l))); last by move=> l hl; rewrite !cut.
  apply: Rle_trans h _; rewrite /chol_factor_error; apply: Rplus_le_compat.
    apply: Rmult_le_compat_l; first exact: err_ge0.
    rewrite -(rsum_rsumn (F := fun l : 'I_N => Rabs (rv (f i' l)) * Rabs (rv (f j' l)))) //.
    apply: adot_le.
      by rewrite (rsum_rsumn (G := fun l => rv (f i' l) * rv (f i' l))) //; apply: sq.
    by rewrite (rsum_rsumn (G := fun l => rv (f j' l) * rv (f j' l))) //; apply: sq.
  apply: Rmult_le_compat_l; first by apply: Rmult_le_pos; [apply: Rle_trans (grow_ge1 _); lra|apply: Rlt_le; exact: eta64_gt0].
  by rewrite -/N; have := Rle_abs (rv (f i' i')); have := Rle_abs (rv (f j' j')); have := fw i' i' hi hi; have := fw j' j' hj hj; lra.
- move=> i' j' hi hj; rewrite -[i']/(val (Ordinal hi)) -[j']/(val (Ordinal hj)).
  rewrite -(rsum_rsumn (F := fun l => V (Ordinal hi) l * rv (A l (Ordinal hj)))); last by move=> l; rewrite fnRE fnE.
  by rewrite hV.
- move=> i' hi; rewrite -[i']/(val (Ordinal hi)).
  by rewrite -(rsum_rsumn (F := fun l => Rabs (V (Ordinal hi) l))); last by move=> l; rewrite fnRE.
by rewrite subnn leq0n ltn_ord.
Qed.

(*@example
(** the hypotheses are met by the matrix of chol_complete_example (9 on the diagonal, 3 elsewhere), with w = 5 and every
    right-hand side up to 1 *)
From Verif Require Import PropFloatCholFull.
Example chol_solve_no_overflow_example k (B : 'M[b64]_(3, k.+1)) : (forall i j, finite (B i j) /\ Rabs (rv (B i j)) <= 1) ->
  let V (i j : 'I_3) : R := if i == j then 2 / 15 else - / 30 in
  let Y := chol_forward_bound 3 (/ 5) 5 1 in let Z := chol_sol_bound 3 (/ 5) 5 Y in
  Z <= 100 /\ exists (L : 'M[b64]_3) (X : 'M[b64]_(3, k.+1)),
  [/\ chol_new (S:=B64) (fun=> B754_nan) (mat_of mx933) = Ok (Some (mat_of L)) /\ (forall i j, finite (L i j)),
      chol_solve (S:=B64) (mat_of L) (mat_of B) = Ok (mat_of X),
      forall i j, finite (X i j) /\ Rabs (rv (X i j)) <= Z &
      forall i j, Rabs (rv (X i j) - \rsum_(l < 3) (V i l * rv (B l j))) <=
        / 5 * chol_error 3 (chol_bound 3 9) (\rsum_(l < 3) Rabs (rv (X l j)))].
Proof.
move=> hB V Y Z.
have e4 := err4; have e0 := err_ge0 4; have g4 := grow_ge1 4; have e30 := err_ge0 3; have g3 := grow_ge1 3.
have gg : grow 3 <= grow 4 by apply: grow_le.
have G4 : grow 4 <= 2 by rewrite /err in e4; lra.
have ue : eta64 <= / 1024.
  by apply: Rle_trans (Rlt_le _ _ u64_lt1); apply: Rinv_le_contravar; [apply: pow_lt; lra|apply: Rle_pow; [lra|lia]].
have ue0 := eta64_gt0.
have N3 : INR 3 = 3 by rewrite /=; ring.
have N5 : INR 5 = 5 by rewrite /=; ring.
have ge0 : 0 <= grow 3 * eta64 by apply: Rmult_le_pos; lra.
have ge : grow 3 * eta64 <= 2 * / 1024 by apply: Rmult_le_compat; lra.
have ge40 : 0 <= grow 4 * eta64 by apply: Rmult_le_pos; lra.
have ge4 : grow 4 * eta64 <= 2 * / 1024 by apply: Rmult_le_compat; lra.
have Y7 : 0 <= Y <= 7 by rewrite /Y /chol_forward_bound N3; lra.
have Z60 : 0 <= Z <= 50 by rewrite /Z /chol_sol_bound N3; lra.
have big (x : R) : x <= 1024 * 1024 -> x <= 2 ^ 1023.
  move=> h; apply: Rle_trans h _; apply: Rle_trans (_ : 2 ^ 20 <= _); first by rewrite /=; lra.
  by apply: Rle_pow; [lra|lia].
have M i j : rv (mx933 i j) = if i == j then 9 else 3.
  by rewrite mxE /e93; case: (i == j); rewrite ?rv_b64_int9 ?rv_b64_int3.
have F m (hm : (m < 3)%N) l (hl : (l < 3)%N) : (m != l) -> (Ordinal hm == Ordinal hl) = false by rewrite -val_eqE /= => /negPf.
split; first lra.
apply: (@chol_solve_no_overflow_L _ _ _ _ _ 9 V (/ 5) 5 1).
- by move=> i j; rewrite mxE; case: (i == j).
- by move=> i j; rewrite !mxE eq_sym.
- lra.
- rewrite !rsum3 !M !eqxx; split.
    apply: Rle_trans (_ : 1 <= _); last lra.
    by rewrite -Rinv_1; apply: Rinv_le_contravar; [lra|apply: pow_R1_Rle; lra].
  by apply: Rle_trans (_ : 2 ^ 5 <= _); [rewrite /=; lra|apply: Rle_pow; [lra|lia]].
- move=> x; rewrite !rsum3 !M !eqxx.
  rewrite /ord0 /ord_max !F //; set a := x _; set b := x _; set c := x _.
  rewrite N3.
  have sa : 0 <= a * a by apply: Rle_0_sqr.
  have sb : 0 <= b * b by apply: Rle_0_sqr.
  have sc : 0 <= c * c by apply: Rle_0_sqr.
  have s : 0 <= (a + b + c) * (a + b + c) by apply: Rle_0_sqr.
  apply: Rle_trans (_ : 1 * (a * a + b * b + c * c) <= _); last lra.
  by apply: Rmult_le_compat_r; lra.
- by move=> i; rewrite M eqxx; lra.
- lra.
- by rewrite /chol_bound N5; lra.
- exact: hB.
- move=> i j; rewrite !rsum3 !M /V.
  by case: i => -[|[|[|i]]] hi //; case: j => -[|[|[|j]]] hj //; rewrite -!val_eqE /=; field.
- by move=> i; rewrite rsum3 /V; case: i => -[|[|[|i]]] hi //; rewrite -!val_eqE /= ?Rabs_Ropp !Rabs_pos_eq; lra.
- rewrite /chol_factor_error N3; have e34 : err 3 <= err 4 by apply: err_le.
  lra.
- rewrite -/Y N3; apply: big.
  by apply: Rle_trans (_ : 2 * (1 + 3 * (5 * 7 + 1)) <= _); [apply: Rmult_le_compat; lra|lra].
- rewrite -/Y -/Z N3; apply: big.
  by apply: Rle_trans (_ : 2 * (7 + 3 * (5 * 50 + 1)) <= _); [apply: Rmult_le_compat; lra|lra].
by apply: big; rewrite -/Y -/Z; lra.
Qed.
@*)
