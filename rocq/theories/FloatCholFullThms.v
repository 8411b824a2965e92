(** * FloatCholFullThms: the f64 Cholesky decomposition of clearly positive definite matrices (C54) *)
From Coq Require Import ZArith Reals Lra Psatz.
From Flocq Require Import Core BinarySingleNaN.
From mathcomp Require Import all_ssreflect all_algebra zify.
From Verif Require Import Base Scalar Hoare ModelMatrix ModelCholesky Spec MatrixProofs MatrixProofs2 LUEval CholEval B64 SpecFloat64 FloatBase FloatLU FloatChol FloatCholFull FloatCholThms.

Set Implicit Arguments.
Unset Strict Implicit.
Unset Printing Implicit Defensive.
Local Open Scope R_scope.

(*@section C54 f64 Cholesky: clearly positive definite matrices are accepted @*)

(*@doc C54: a finite symmetric f64 matrix of size N that is positive definite by the margin 10 N ((1+u)^(N+1) - 1) trace(A)
  (with a trace between 2^-900 and 2^1000) is accepted: new returns Some, and every element of the factor is a finite
  number.  Together with chol_some_f64: the boundary between Some and None is blurred only within this margin. *)
Lemma chol_complete_f64_L : forall g n (A : 'M[b64]_n.+1),
  (forall i j, finite (A i j)) -> (forall i j, rv (A i j) = rv (A j i)) -> 16 * err n.+2 <= 1 ->
  let t := \rsum_(i < n.+1) rv (A i i) in
  / 2 ^ 900 <= t <= 2 ^ 1000 ->
  (forall x : 'I_n.+1 -> R,
     10 * INR n.+1 * err n.+2 * t * (\rsum_(i < n.+1) (x i * x i)) <=
     (\rsum_(i < n.+1) (\rsum_(j < n.+1) (x i * rv (A i j) * x j)))) ->
  exists L : 'M[b64]_n.+1, chol_new (S:=B64) g (mat_of A) = Ok (Some (mat_of L)) /\ forall i j, finite (L i j).
Proof.
move=> g n A FA SA er t [t_lo t_hi] PD.
have Fa i k : (i < n.+1)%N -> (k < n.+1)%N -> finite (fn b64_zero A i k).
  by move=> hi hk; have := fnE b64_zero A (Ordinal hi) (Ordinal hk) => /= ->.
have Sy i k : (i < n.+1)%N -> (k < n.+1)%N -> rv (fn b64_zero A i k) = rv (fn b64_zero A k i).
  move=> hi hk; have := fnE b64_zero A (Ordinal hi) (Ordinal hk) => /= ->.
  by have := fnE b64_zero A (Ordinal hk) (Ordinal hi) => /= ->.
have Ht : t = rsumn n.+1 (fun i => rv (fn b64_zero A i i)) by apply: rsum_rsumn => i; rewrite fnE.
have PD' : forall x : nat -> R, 10 * INR n.+1 * err n.+2 * t * rsumn n.+1 (fun i => x i * x i) <=
   rsumn n.+1 (fun i => rsumn n.+1 (fun i' => x i * rv (fn b64_zero A i i') * x i')).
  move=> x; apply: Rle_trans (PD (fun i => x i)) _; apply: Req_le.
  by apply: rsum_rsumn => i; apply: rsum_rsumn => j; rewrite fnE.
case: (chol64 g A) => [[f [-> Hf]]|[_ h]]; last first.
  by case: (no_fail (ltn0Sn n) Fa Sy Ht t_lo t_hi er PD' h).
exists (mxn n.+1 n.+1 f); split=> // i j; rewrite mxE.
by have [h _] := rows_fin (ltn0Sn n) Fa Sy Ht t_lo t_hi er PD' (leqnn _) Hf (ltn_ord i); apply: h.
Qed.

(*@example
(** a 3 x 3 matrix meets the hypotheses: 9 on the diagonal, 3 elsewhere *)
Definition e93 (b : bool) : b64 := if b then b64_int 9 else b64_int 3.
Definition mx933 : 'M[b64]_3 := (\matrix_(i, j) e93 (i == j))%R.
Lemma rv_b64_int9 : rv (b64_int 9) = 9.
Proof.
rewrite /rv -SF2R_B2SF; have -> : B2SF (b64_int 9) = SpecFloat.S754_finite false 5066549580791808 (-49) by vm_compute.
by rewrite /SF2R /F2R /=; lra.
Qed.
Lemma rv_b64_int3 : rv (b64_int 3) = 3.
Proof.
rewrite /rv -SF2R_B2SF; have -> : B2SF (b64_int 3) = SpecFloat.S754_finite false 6755399441055744 (-51) by vm_compute.
by rewrite /SF2R /F2R /=; lra.
Qed.
Lemma rsum3 (F : 'I_3 -> R) : \rsum_(i < 3) F i = F ord0 + F (Ordinal (isT : (1 < 3)%N)) + F ord_max.
Proof.
rewrite !big_ord_recr big_ord0 /= Rplus_0_l; congr (_ + _ + _); congr F; exact: val_inj.
Qed.
Lemma err4 : err 4 <= / 4000.
Proof.
have := u64_gt0; have : u64 <= / 2 ^ 20.
  by rewrite /u64; apply: Rinv_le_contravar; [apply: pow_lt; lra|apply: Rle_pow; [lra|lia]].
rewrite /err /grow; set v := u64; have -> : 2 ^ 20 = 1048576 by rewrite /=; lra.
move=> h1 h0; have h2 : 0 <= v * v <= v by nra.
have -> : (1 + v) ^ 4 - 1 = 4 * v + 6 * (v * v) + 4 * (v * (v * v)) + (v * v) * (v * v) by rewrite /=; ring.
nra.
Qed.
Example chol_complete_example :
  exists L : 'M[b64]_3, chol_new (S:=B64) (fun=> B754_nan) (mat_of mx933) = Ok (Some (mat_of L)) /\ forall i j, finite (L i j).
Proof.
have e4 := err4; have e0 := err_ge0 4.
have M i j : rv (mx933 i j) = if i == j then 9 else 3.
  by rewrite mxE /e93; case: (i == j); rewrite ?rv_b64_int9 ?rv_b64_int3.
apply: chol_complete_f64.
- by move=> i j; rewrite mxE; case: (i == j).
- by move=> i j; rewrite !mxE eq_sym.
- lra.
- rewrite !rsum3 !M !eqxx; split.
    apply: Rle_trans (_ : 1 <= _); last lra.
    by rewrite -Rinv_1; apply: Rinv_le_contravar; [lra|apply: pow_R1_Rle; lra].
  by apply: Rle_trans (_ : 2 ^ 5 <= _); [rewrite /=; lra|apply: Rle_pow; [lra|lia]].
- move=> x; rewrite !rsum3 !M !eqxx.
  have F m (hm : (m < 3)%N) k (hk : (k < 3)%N) : (m != k) -> (Ordinal hm == Ordinal hk) = false by rewrite -val_eqE /= => /negPf.
  rewrite /ord0 /ord_max !F //; set a := x _; set b := x _; set c := x _.
  have -> : INR 3 = 3 by rewrite /=; ring.
  have sa : 0 <= a * a by apply: Rle_0_sqr.
  have sb : 0 <= b * b by apply: Rle_0_sqr.
  have sc : 0 <= c * c by apply: Rle_0_sqr.
  have s : 0 <= (a + b + c) * (a + b + c) by apply: Rle_0_sqr.
  apply: Rle_trans (_ : 1 * (a * a + b * b + c * c) <= _); last lra.
  by apply: Rmult_le_compat_r; lra.
Qed.
@*)
