(** * QR decomposition of a well-conditioned matrix in f32 (C62)

    Only property theorems, each closed by a lemma of Float32QRPrioThms.v, and the
    Examples showing that their hypotheses are met.  Generated from Float32QRPrioThms.v by
    tools/genprops.py. *)
From Coq Require Import ZArith Reals Lra Psatz.
From Flocq Require Import Core BinarySingleNaN.
From mathcomp Require Import all_ssreflect all_algebra zify.
From Verif Require Import Base Scalar Hoare ModelMatrix ModelQR Spec MatrixProofs MatrixProofs2 LUProofs LUEval QREval B32 SpecFloat32 Float32Base Float32LU Float32Chol Float32CholThms Float32CholFull RealVec32 QRReal32 Float32QR Float32QRThms Float32QRPrio.
From Verif Require Import Float32QRPrioThms.

Set Implicit Arguments.
Unset Strict Implicit.
Unset Printing Implicit Defensive.

Local Open Scope R_scope.

(** ** C62 (C68 in f32) QR decomposition of a well-conditioned matrix in f32: nothing overflows *)

(** C62 (C68 in f32): let A be a finite f32 matrix with at least as many rows as columns, with column norms of at most M <= 2^18, and
  let sg >= 2^-14 be a lower bound for its singular values (sg |x| <= |A x| for every real x), larger than 2 n times the
  rounding error bound e = ((1 + 25 E)^n - 1) M + n (1 + 25 E)^n 2^-64, E = (1+u)^(m+3) - 1.  Then
  QRDecomposition::new, get_r, get_h and get_q overflow nowhere: R, H and Q are finite; the matrix is reported to have full
  rank; every diagonal element of R is between sg / 4 and 4 M in magnitude; the first n columns of Q are orthonormal and
  Q R = A up to the errors of qr_q_rounding. *)
Theorem qr_no_overflow_f32 : forall g m n (A : 'M[b32]_(m.+1, n.+1)) M sg, (n <= m)%N ->
  (forall i j, finite (A i j)) ->
  let E := err (m.+1 + 3) in
  64 * E <= 1 ->
  (forall j, sqrt (\rsum_(i < m.+1) (rv (A i j) ^ 2)) <= M) -> M <= 2 ^ 18 ->
  (forall x : 'I_n.+1 -> R,
     sg * sqrt (\rsum_(j < n.+1) (x j ^ 2)) <= sqrt (\rsum_(i < m.+1) ((\rsum_(j < n.+1) (rv (A i j) * x j)) ^ 2))) ->
  / 2 ^ 14 <= sg ->
  let C := (1 + 25 * E) ^ n.+1 in
  2 * INR n.+1 * ((C - 1) * M + INR n.+1 * (C * / 2 ^ 64)) <= sg ->
  exists (d : qr_decomp B32) (Rm H : 'M[b32]_(m.+1, n.+1)) (Qh : 'M[b32]_(m.+1)),
  [/\ qr_new (S:=B32) g (mat_of A) = Ok d,
      forall g, qr_get_r g d = Ok (mat_of Rm),
      forall g, qr_get_h g d = Ok (mat_of H),
      qr_get_q (S:=B32) d = Ok (mat_of Qh) &
      qr_is_full_rank (S:=B32) d = Ok true] /\
  let delta := (C - 1) + INR n.+1 * (C * / 2 ^ 64) in
  [/\ (forall i j, finite (Rm i j)) /\ (forall i j, finite (H i j)) /\ (forall i j, finite (Qh i j)),
      forall (i : 'I_m.+1) (j : 'I_n.+1), (j < i)%N -> Rm i j = b32_zero,
      forall (i : 'I_m.+1) (j : 'I_n.+1), i = j :> nat -> sg / 4 <= Rabs (rv (Rm i j)) <= 4 * M,
      forall a b : 'I_m.+1, (a <= n)%N -> (b <= n)%N ->
        Rabs ((\rsum_(l < m.+1) (rv (Qh l a) * rv (Qh l b))) - (if a == b then 1 else 0)) <= 2 * delta + delta * delta &
      forall j : 'I_n.+1,
      sqrt (\rsum_(i < m.+1) ((rv (A i j) - (\rsum_(l < m.+1) (rv (Qh i l) * rv (Rm l j)))) ^ 2)) <=
      (C - 1) * M + INR n.+1 * (C * / 2 ^ 64) + delta * (\rsum_(l < m.+1) Rabs (rv (Rm l j)))].
Proof. exact: qr_no_overflow_f32_L. Qed.
Print Assumptions qr_no_overflow_f32.

(** the hypotheses are met by a 3 x 2 matrix with sg = 1 and M = 3 *)
Definition mx211 : 'M[b32]_(3, 2) := mxn 3 2 (fun i j => if i == j then b32_int 2 else b32_int 1).
Lemma rv_b32_int2 : rv (b32_int 2) = 2.
Proof.
rewrite /rv -SF2R_B2SF; have -> : B2SF (b32_int 2) = SpecFloat.S754_finite false 8388608 (-22) by vm_compute.
by rewrite /SF2R /F2R /=; lra.
Qed.
Lemma err6_small : err 6 <= / 8192.
Proof.
have u0 := u32_gt0; have u1 : u32 <= / 2 ^ 20.
  by rewrite /u32; apply: Rinv_le_contravar; [apply: p2_gt0|apply: Rle_pow; [lra|lia]].
have h : (1 + u32) ^ 6 <= (1 + / 2 ^ 20) ^ 6 by apply: pow_incr; lra.
by move: h; rewrite /err /grow /=; lra.
Qed.
Lemma rsum_2 (G : 'I_2 -> R) : \rsum_(i < 2) G i = G ord0 + G ord_max.
Proof. by rewrite !big_ord_recl big_ord0 /= Rplus_0_r; congr (_ + G _); apply: val_inj. Qed.
Lemma rsum_3 (G : 'I_3 -> R) : \rsum_(i < 3) G i = G ord0 + (G (lift ord0 ord0) + G ord_max).
Proof. by rewrite !big_ord_recl big_ord0 /= Rplus_0_r; congr (_ + (_ + G _)); apply: val_inj. Qed.
Example qr_no_overflow_hyps :
  let E := err 6 in let C := (1 + 25 * E) ^ 2 in
  [/\ forall i j, finite (mx211 i j), 64 * E <= 1,
      forall j, sqrt (\rsum_(i < 3) (rv (mx211 i j) ^ 2)) <= 3,
      forall x : 'I_2 -> R,
        1 * sqrt (\rsum_(j < 2) (x j ^ 2)) <= sqrt (\rsum_(i < 3) ((\rsum_(j < 2) (rv (mx211 i j) * x j)) ^ 2)) &
      3 <= 2 ^ 18 /\ / 2 ^ 14 <= 1 /\ 2 * INR 2 * ((C - 1) * 3 + INR 2 * (C * / 2 ^ 64)) <= 1].
Proof.
move=> E C; have e0 : 0 <= E := err_ge0 6; have e1 : E <= / 8192 := err6_small.
have A i j : rv (mx211 i j) = if i == j :> nat then 2 else 1.
  by rewrite mxE; case: (_ == _); [exact: rv_b32_int2|exact: rv_int1].
split.
- by move=> i j; rewrite mxE; case: (_ == _).
- by lra.
- move=> j; rewrite -[X in _ <= X](sqrt_Rsqr 3); last lra.
  apply: sqrt_le_1_alt; rewrite rsum_3 !A /Rsqr.
  by case: j => -[|[|j]] //= _; lra.
- move=> x; rewrite Rmult_1_l; apply: sqrt_le_1_alt; rewrite rsum_3 !rsum_2 !A /=.
  set p := x ord0; set q := x ord_max.
  have := Rle_0_sqr (p + q); rewrite /Rsqr; lra.
have C1 : 1 <= C <= 1 + / 128.
  rewrite /C; have p : 0 <= 25 * E <= / 320 by lra.
  have : (25 * E) * (25 * E) <= / 320 * / 320 by apply: Rmult_le_compat; lra.
  by have := Rmult_le_pos _ _ (proj1 p) (proj1 p); rewrite /=; lra.
split; last split.
- by apply: Rle_trans (_ : 2 ^ 2 <= _); [rewrite /=; lra|apply: Rle_pow; [lra|lia]].
- by rewrite -Rinv_1; apply: Rinv_le_contravar; [lra|apply: pow_R1_Rle; lra].
have o : / 2 ^ 64 <= / 64.
  apply: Rinv_le_contravar; first lra.
  by apply: Rle_trans (_ : 2 ^ 6 <= _); [rewrite /=; lra|apply: Rle_pow; [lra|lia]].
have o0 : 0 <= / 2 ^ 64 by left; apply: Rinv_0_lt_compat; apply: p2_gt0.
have : C * / 2 ^ 64 <= 129 / 128 * / 64 by apply: Rmult_le_compat; lra.
by rewrite [INR 2]/=; lra.
Qed.
