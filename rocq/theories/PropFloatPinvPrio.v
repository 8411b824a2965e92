(** * pinverse of a well-conditioned matrix in f64 (C72)

    Only property theorems, each closed by a lemma of FloatPinvPrioThms.v, and the
    Examples showing that their hypotheses are met.  Generated from FloatPinvPrioThms.v by
    tools/genprops.py. *)
From Coq Require Import ZArith Reals Lra Psatz Classical.
From Flocq Require Import Core BinarySingleNaN.
From mathcomp Require Import all_ssreflect all_algebra zify.
From mathcomp Require Import fingroup perm.
From Verif Require Import Base Scalar Hoare ModelMatrix ModelLU ModelQR Spec MatrixProofs MatrixProofs2 MatrixThms LUProofs LUEval QREval B64 SpecFloat64 FloatBase FloatThms FloatLU SpecFloatPrio SpecFloatPinv SpecFloatPinvPrio FloatLUThms FloatPrio FloatPrioThms FloatSolveFin FloatSolveFinThms FloatChol FloatCholThms FloatCholFull RealVec QRReal FloatQR FloatQRThms FloatQRPrio FloatQRPrioThms FloatPinvThms.
From Verif Require Import FloatPinvPrioThms.

Set Implicit Arguments.
Unset Strict Implicit.
Unset Printing Implicit Defensive.

Local Open Scope R_scope.

(** ** C72 pinverse of a well-conditioned f64 matrix *)

(** C72: let A be a finite f64 matrix with m + 1 rows and n + 1 <= m + 1 columns, all of norm at most M <= 2^198, let
  sg >= 2^-169 be a lower bound for its singular values, larger than 2 (n + 1) times the rounding error of the QR decomposition,
  and let V be the inverse of A' A over the reals, with absolute row sums at most K, K (n + 1) times the error of the computed
  R' R being at most 1/2.  If K times the rounding errors of the LU factors of R' R is at most 1/8 and four explicit bounds (for the
  elements of the factors, of the computed inverse and of the result) are below 2^1023, then pinverse does not panic, every
  element of its result is finite, the normal equations hold up to pinv_err in every element, and every element is within
  K pinv_err of the exact pseudo-inverse V A'.  Nothing is assumed about the computed result. *)
Theorem pinverse_no_overflow : forall gp g1 g2 g3 g4 g5 g6 g7 g8 m n (A : 'M[b64]_(m.+1, n.+1)) M sg V K, (n <= m)%N ->
  let q := qr_err m.+1 n.+1 M in
  let P := M * M + gram_err m.+1 n.+1 M in
  let W := lu_bound n.+1 P n in
  let Y := lu_bound n.+1 1 n in
  let Z := sol_bound n.+1 (2 * K) W Y in
  let E := pinv_err m.+1 n.+1 M P W Z in
  (forall i j, finite (A i j)) -> 64 * err (m.+1 + 3) <= 1 ->
  (forall j, sqrt (\rsum_(i < m.+1) (rv (A i j) ^ 2)) <= M) -> M <= 2 ^ 198 ->
  (forall x : 'I_n.+1 -> R,
     sg * sqrt (\rsum_(j < n.+1) (x j ^ 2)) <= sqrt (\rsum_(i < m.+1) ((\rsum_(j < n.+1) (rv (A i j) * x j)) ^ 2))) ->
  / 2 ^ 169 <= sg -> 2 * INR n.+1 * q <= sg ->
  (forall i j, (\rsum_(l < n.+1) (V i l * (\rsum_(k < m.+1) (rv (A k l) * rv (A k j))))) = if i == j then 1 else 0) ->
  (forall i, (\rsum_(l < n.+1) Rabs (V i l)) <= K) -> K * (INR n.+1 * gram_err m.+1 n.+1 M) <= / 2 ->
  2 * K * (INR n.+1 * lu_error n.+1 W) <= / 4 ->
  W <= 2 ^ 1023 -> Z <= 2 ^ 1023 -> grow n.+2 * (Y + INR n.+1 * (W * Z + eta64)) <= 2 ^ 1023 ->
  pinv_bound n.+1 M Z <= 2 ^ 1023 ->
  exists X : 'M[b64]_(n.+1, m.+1),
  [/\ pinverse (S:=B64) gp g1 g2 g3 g4 g5 g6 g7 g8 (mat_of A) = Ok (mat_of X),
      forall i j, finite (X i j) /\ Rabs (rv (X i j)) <= pinv_bound n.+1 M Z,
      forall i j, Rabs ((\rsum_(l < n.+1) ((\rsum_(k < m.+1) (rv (A k i) * rv (A k l))) * rv (X l j))) - rv (A j i)) <= E &
      forall i j, Rabs (rv (X i j) - (\rsum_(l < n.+1) (V i l * rv (A j l)))) <= K * E].
Proof. exact: pinverse_no_overflow_L. Qed.
Print Assumptions pinverse_no_overflow.

From Verif Require Import PropFloatQRPrio.
(** the hypotheses are met by the 3 x 2 matrix of qr_no_overflow_hyps, with sg = 1, M = 3, K = 1 and the inverse
    [6 -5; -5 6] / 11 of A' A = [6 5; 5 6] *)
Definition v211 (i j : 'I_2) : R := if i == j then 6 / 11 else - (5 / 11).
Example pinverse_no_overflow_hyps :
  let q := qr_err 3 2 3 in let P := 3 * 3 + gram_err 3 2 3 in
  let W := lu_bound 2 P 1 in let Y := lu_bound 2 1 1 in let Z := sol_bound 2 (2 * 1) W Y in
  [/\ forall i j, (\rsum_(l < 2) (v211 i l * (\rsum_(k < 3) (rv (mx211 k l) * rv (mx211 k j))))) = if i == j then 1 else 0,
      forall i, (\rsum_(l < 2) Rabs (v211 i l)) <= 1,
      2 * INR 2 * q <= 1 /\ 1 * (INR 2 * gram_err 3 2 3) <= / 2,
      2 * 1 * (INR 2 * lu_error 2 W) <= / 4 /\ W <= 2 ^ 1023 &
      [/\ Z <= 2 ^ 1023, grow 3 * (Y + INR 2 * (W * Z + eta64)) <= 2 ^ 1023 & pinv_bound 2 3 Z <= 2 ^ 1023]].
Proof.
move=> q P W Y Z; have e0 := eta64_gt0; have u0 := u64_gt0.
have A i j : rv (mx211 i j) = if i == j :> nat then 2 else 1.
  by rewrite mxE; case: (_ == _); [exact: rv_b64_int2|exact: rv_int1].
have p20 : / 2 ^ 20 <= / 1000000 by apply: Rinv_le_contravar; [lra|rewrite /=; lra].
have uS : u64 <= / 2 ^ 20 by apply: Rinv_le_contravar; [apply: pow_lt; lra|apply: Rle_pow; [lra|lia]].
have ue : eta64 <= / 2 ^ 20 by apply: Rinv_le_contravar; [apply: pow_lt; lra|apply: Rle_pow; [lra|lia]].
have E6 : err 6 <= / 100000.
  have h : (1 + u64) ^ 6 <= (1 + / 1000000) ^ 6 by apply: pow_incr; lra.
  by move: h; rewrite /err /grow; rewrite [X in _ <= X -> _](_ : _ = 1000006000015000020000015000006000001 / 1000000000000000000000000000000000000); [lra|field].
have er k : (k <= 6)%N -> 0 <= err k <= / 100000 by move=> k6; split; [exact: err_ge0|apply: Rle_trans E6; exact: err_le].
have gr k : (k <= 6)%N -> 1 <= grow k <= 1 + / 100000 by move=> /er; rewrite /err; lra.
have ge k : (k <= 6)%N -> 0 <= grow k * eta64 <= / 900000.
  move=> /gr [h1 h2]; split; first by apply: Rmult_le_pos; lra.
  by apply: Rle_trans (_ : (1 + / 100000) * / 1000000 <= _); [apply: Rmult_le_compat; lra|lra].
have I2 : INR 2 = 2 by rewrite /=; ring.
have I3 : INR 3 = 3 by rewrite /=; ring.
have big (x : R) : x <= 8192 -> x <= 2 ^ 1023.
  move=> h; apply: Rle_trans h _; apply: Rle_trans (_ : 2 ^ 13 <= _); first by rewrite /=; lra.
  by apply: Rle_pow; [lra|lia].
have q1 : 0 <= q <= / 500.
  rewrite /q /qr_err I2; set C := _ ^ _.
  have [h1 h2] := er 6%N isT; have C1 : 1 <= C <= 1 + / 1900.
    rewrite /C -[(3 + 3)%N]/6%N; have p : 0 <= 25 * err 6 <= / 4000 by lra.
    have : (25 * err 6) * (25 * err 6) <= / 4000 * / 4000 by apply: Rmult_le_compat; lra.
    by have := Rmult_le_pos _ _ (proj1 p) (proj1 p); rewrite /=; lra.
  have o : / 2 ^ 512 <= / 1000000.
    by apply: Rle_trans p20; apply: Rinv_le_contravar; [apply: pow_lt; lra|apply: Rle_pow; [lra|lia]].
  have o0 : 0 <= / 2 ^ 512 by left; apply: Rinv_0_lt_compat; apply: pow_lt; lra.
  have : C * / 2 ^ 512 <= 2 * / 1000000 by apply: Rmult_le_compat; lra.
  have : 0 <= C * / 2 ^ 512 by apply: Rmult_le_pos; lra.
  by lra.
have g1 : 0 <= gram_err 3 2 3 <= / 50.
  rewrite /gram_err -/q I3; have [h1 h2] := er 3%N isT; have [h3 h4] := ge 3%N isT.
  have a1 : (3 + q) * q <= (3 + / 500) * / 500 by apply: Rmult_le_compat; lra.
  have a2 : (3 + q) * (3 + q) <= (3 + / 500) * (3 + / 500) by apply: Rmult_le_compat; lra.
  have a3 : err 3 * ((3 + q) * (3 + q)) <= / 100000 * ((3 + / 500) * (3 + / 500)).
    by apply: Rmult_le_compat => //; apply: Rmult_le_pos; lra.
  have b1 := Rmult_le_pos (3 + q) q ltac:(lra) ltac:(lra).
  have b2 := Rmult_le_pos _ _ h1 (Rmult_le_pos (3 + q) (3 + q) ltac:(lra) ltac:(lra)).
  by split; lra.
have lb x : 0 <= x -> 0 <= lu_bound 2 x 1 <= 2.001 * (x + / 100000).
  move=> x0; rewrite /lu_bound pow_1 I3; have [h1 h2] := gr 3%N isT.
  have a1 : grow 3 * (1 + grow 3) <= 2.001.
    by apply: Rle_trans (_ : (1 + / 100000) * (2 + / 100000) <= _); [apply: Rmult_le_compat; lra|lra].
  have a0 : 0 <= grow 3 * (1 + grow 3) by apply: Rmult_le_pos; lra.
  by split; [apply: Rmult_le_pos; lra|apply: Rmult_le_compat; lra].
have W1 : 0 <= W <= 19 by have := lb P ltac:(rewrite /P; lra); rewrite -/W /P; lra.
have Y1 : 0 <= Y <= 2.1 by have := lb 1 ltac:(lra); rewrite -/Y; lra.
have Z1 : 0 <= Z <= 18.
  rewrite /Z /sol_bound I2; have [h3 h4] := ge 2%N isT.
  have a1 : grow 2 * eta64 * (2 + W) <= / 900000 * 21 by apply: Rmult_le_compat; lra.
  have a0 : 0 <= grow 2 * eta64 * (2 + W) by apply: Rmult_le_pos; lra.
  by split; lra.
have WZ : 0 <= W * Z <= 19 * 18 by split; [apply: Rmult_le_pos; lra|apply: Rmult_le_compat; lra].
split.
- move=> i j; rewrite rsum_2 !rsum_3 !A /v211.
  by case: i j => -[|[|i]] //= hi [[|[|j]] //= hj]; rewrite /eq_op /= /eq_op /=; field.
- move=> i; rewrite rsum_2 /v211 !(fun_if Rabs) Rabs_Ropp !Rabs_pos_eq; try lra.
  by case: i => -[|[|i]] //= hi; rewrite /eq_op /= /eq_op /=; lra.
- by rewrite I2; split; lra.
- split; last by apply: big; lra.
  rewrite /lu_error I2; have [h1 h2] := er 2%N isT; have [h3 h4] := ge 2%N isT.
  have a1 : err 2 * W <= / 100000 * 19 by apply: Rmult_le_compat; lra.
  have a2 : grow 2 * eta64 * (1 + W) <= / 900000 * 20 by apply: Rmult_le_compat; lra.
  by lra.
split; apply: big; first lra.
- rewrite I2; have [h1 h2] := gr 3%N isT.
  apply: Rle_trans (_ : 2 * (3 + 2 * (19 * 18 + 1)) <= _); last lra.
  by apply: Rmult_le_compat; lra.
rewrite /pinv_bound I2; have [h1 h2] := gr 2%N isT.
apply: Rle_trans (_ : 2 * (2 * (18 * 3) + 1) <= _); last lra.
by apply: Rmult_le_compat; lra.
Qed.
