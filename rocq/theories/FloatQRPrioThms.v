(** * FloatQRPrioThms: QR of a well-conditioned matrix in f64: no overflow (C68) *)
From Coq Require Import ZArith Reals Lra Psatz.
From Flocq Require Import Core BinarySingleNaN.
From mathcomp Require Import all_ssreflect all_algebra zify.
From Verif Require Import Base Scalar Hoare ModelMatrix ModelQR Spec MatrixProofs MatrixProofs2 LUProofs LUEval QREval B64 SpecFloat64 FloatBase FloatLU FloatChol FloatCholThms FloatCholFull RealVec QRReal FloatQR FloatQRThms FloatQRPrio.

Set Implicit Arguments.
Unset Strict Implicit.
Unset Printing Implicit Defensive.
Local Open Scope R_scope.

Lemma qr_full_rank64 m n (d : qr_decomp B64) f r : (n <= m)%N -> (0 < m)%N -> (0 < n)%N ->
  rep m n (qr d) f -> repr1 (minn m n) (rdiag d) r ->
  (forall j, (j < n)%N -> s_eqb (s:=B64) (r j) (n_zero B64) = false) -> qr_is_full_rank d = Ok true.
Proof.
move=> nm m0 n0 Hd Hr hz; rewrite /qr_is_full_rank (rep_cols Hd) //; cbn [bind].
have e : minn m n = n by apply/minn_idPr.
suff /wp_ex [c -> ec] : wp (forc 0 n (fun j (_ : unit) =>
         x <-- vget (rdiag d) j ;;
         if s_eqb x (n_zero B64) then Ok (Stop false) else Ok (Next tt)) tt)
   (fun c => (match c with Next _ => true | Stop b => b end) = true) by cbn [bind]; rewrite ec.
apply: (wpe_forc (fun k _ => true) (fun b => b = true)) => //.
by move=> j [] hj _; rewrite (repr1_get Hr) ?e //; cbn [bind]; rewrite hz.
Qed.

(*@section C68 QR decomposition of a well-conditioned matrix in f64: nothing overflows @*)

(*@doc C68: let A be a finite f64 matrix with at least as many rows as columns, with column norms of at most M <= 2^198, and
  let sg >= 2^-169 be a lower bound for its singular values (sg |x| <= |A x| for every real x), larger than 2 n times the
  rounding error bound e = ((1 + 25 E)^n - 1) M + n (1 + 25 E)^n 2^-512, E = (1+u)^(m+3) - 1.  Then
  QRDecomposition::new, get_r, get_h and get_q overflow nowhere: R, H and Q are finite; the matrix is reported to have full
  rank; every diagonal element of R is between sg / 4 and 4 M in magnitude; the first n columns of Q are orthonormal and
  Q R = A up to the errors of qr_q_rounding. *)
Lemma qr_no_overflow_L : forall g m n (A : 'M[b64]_(m.+1, n.+1)) M sg, (n <= m)%N ->
  (forall i j, finite (A i j)) ->
  let E := err (m.+1 + 3) in
  64 * E <= 1 ->
  (forall j, sqrt (\rsum_(i < m.+1) (rv (A i j) ^ 2)) <= M) -> M <= 2 ^ 198 ->
  (forall x : 'I_n.+1 -> R,
     sg * sqrt (\rsum_(j < n.+1) (x j ^ 2)) <= sqrt (\rsum_(i < m.+1) ((\rsum_(j < n.+1) (rv (A i j) * x j)) ^ 2))) ->
  / 2 ^ 169 <= sg ->
  let C := (1 + 25 * E) ^ n.+1 in
  2 * INR n.+1 * ((C - 1) * M + INR n.+1 * (C * / 2 ^ 512)) <= sg ->
  exists (d : qr_decomp B64) (Rm H : 'M[b64]_(m.+1, n.+1)) (Qh : 'M[b64]_(m.+1)),
  [/\ qr_new (S:=B64) g (mat_of A) = Ok d,
      forall g, qr_get_r g d = Ok (mat_of Rm),
      forall g, qr_get_h g d = Ok (mat_of H),
      qr_get_q (S:=B64) d = Ok (mat_of Qh) &
      qr_is_full_rank (S:=B64) d = Ok true] /\
  let delta := (C - 1) + INR n.+1 * (C * / 2 ^ 512) in
  [/\ (forall i j, finite (Rm i j)) /\ (forall i j, finite (H i j)) /\ (forall i j, finite (Qh i j)),
      forall (i : 'I_m.+1) (j : 'I_n.+1), (j < i)%N -> Rm i j = b64_zero,
      forall (i : 'I_m.+1) (j : 'I_n.+1), i = j :> nat -> sg / 4 <= Rabs (rv (Rm i j)) <= 4 * M,
      forall a b : 'I_m.+1, (a <= n)%N -> (b <= n)%N ->
        Rabs ((\rsum_(l < m.+1) (rv (Qh l a) * rv (Qh l b))) - (if a == b then 1 else 0)) <= 2 * delta + delta * delta &
      forall j : 'I_n.+1,
      sqrt (\rsum_(i < m.+1) ((rv (A i j) - (\rsum_(l < m.+1) (rv (Qh i l) * rv (Rm l j)))) ^ 2)) <=
      (C - 1) * M + INR n.+1 * (C * / 2 ^ 512) + delta * (\rsum_(l < m.+1) Rabs (rv (Rm l j)))].
Proof.
move=> g m n A M sg nm FA E E1 HM M2 HS S2 C HC.
have mnE : minn m.+1 n.+1 = n.+1 by apply/minn_idPr.
set a := fn b64_zero A.
have aE (i : 'I_m.+1) (j : 'I_n.+1) : a i j = A i j by exact: fnE.
have HA' i j : (i < m.+1)%N -> (j < n.+1)%N -> finite (a i j).
  by move=> hi hj; have := FA (Ordinal hi) (Ordinal hj); rewrite -aE.
have HM' j : (j < n.+1)%N -> nrm m.+1 (fun i => rv (a i j)) <= M.
  move=> hj; have := HM (Ordinal hj); rewrite /nrm /dotr.
  rewrite (rsum_rsumn (G := fun i => rv (a i j) * rv (a i j))) // => i.
  rewrite -(aE i (Ordinal hj)).
  by rewrite -[nat_of_ord (Ordinal hj)]/j; ring.
have HS' x : sg * nrm n.+1 x <= nrm m.+1 (fun i => rsumn n.+1 (fun j => rv (a i j) * x j)).
  have := HS (fun j => x j); rewrite /nrm /dotr.
  rewrite (rsum_rsumn (G := fun j => x j * x j)); last by move=> j; ring.
  rewrite (rsum_rsumn (F := fun i : 'I_m.+1 => (\rsum_(j < n.+1) (rv (A i j) * x j)) ^ 2)
     (G := fun i => rsumn n.+1 (fun j => rv (a i j) * x j) * rsumn n.+1 (fun j => rv (a i j) * x j))) // => i.
  rewrite (rsum_rsumn (G := fun j => rv (a i j) * x j)); first by ring.
  by move=> j; rewrite aE.
have M4 : 4 * M <= qB.
  have -> : qB = 4 * 2 ^ 198 by rewrite /qB (pow_add 2 2 198) /=; ring.
  lra.
have S4 : 2 * qL <= sg.
  apply: Rle_trans S2; rewrite /qL -(tech_pow_Rmult 2 169); have := p2_gt0 169; set v := 2 ^ 169 => v0.
  by right; field; lra.
have [d [e Hd Hr eR eH]] := qr_new64 g A.
set F := q_seq _ _ _ _ in Hd Hr eR eH; set rd := q_rd _ _ _ _ in Hr eR.
have FF := @q_FF m.+1 n.+1 a M sg nm E1 HA' HM' HS' HC M4 S4.
have FR := @q_FR m.+1 n.+1 a M sg nm E1 HA' HM' HS' HC M4 S4.
have RN := @q_RN m.+1 n.+1 a M sg nm E1 HA' HM' HS' HC M4 S4.
have NZ := @q_nz m.+1 n.+1 a M sg nm E1 HA' HM' HS' HC M4 S4.
have RNG := @q_RNG m.+1 n.+1 a M sg nm E1 HA' HM' HS' HC M4 S4.
have [FG _] := @q_G m.+1 n.+1 a M sg nm E1 HA' HM' HS' HC M4 S4 (ltn0Sn n) n.+1 (leqnn _).
have [d' [Rm [H [Qh [e' eR' eH' eQ' HH]]]]] := qr_q_rounding_L g A.
have ed : d' = d by move: e'; rewrite e; case.
rewrite {}ed in e' eR' eH' eQ'.
have eRm : Rm = mxn m.+1 n.+1 (wfnS (S:=B64) (F (minn m.+1 n.+1)) rd (minn m.+1 n.+1)).
  by apply: mat_of_inj; have := eR' g; rewrite eR; case=> h; congr Mat.
have eHm : H = mxn m.+1 n.+1 (hfnS (S:=B64) (F (minn m.+1 n.+1))).
  by apply: mat_of_inj; have := eH' g; rewrite eH; case=> h; congr Mat.
have eQm : Qh = mxn m.+1 m.+1 (q_gs (S:=B64) bdiv m.+1 n.+1 (F (minn m.+1 n.+1)) rd (minn m.+1 n.+1)).
  have h := qr_get_q_ev bdiv_tot (ltn0Sn m) (ltn0Sn n) Hd Hr.
  have h2 : qr_get_q (S:=B64) d = Ok (mat_of (mxn m.+1 m.+1 (q_gs (S:=B64) bdiv m.+1 n.+1 (F (minn m.+1 n.+1)) rd (minn m.+1 n.+1)))).
    by apply: (wp_mat_of h) => i j; rewrite mxE.
  by apply: mat_of_inj; move: eQ'; rewrite h2; case=> h3; congr Mat.
have fR i j : finite (Rm i j).
  rewrite eRm mxE /wfnS; case: (ltnP j (minn m.+1 n.+1)) => hj; last exact: FF.
  case: ifP => _; first exact: FF.
  by case: ifP => // _; apply: FR.
have fH i j : finite (H i j).
  by rewrite eHm mxE /hfnS; case: ifP => // _; apply: FF.
have fQ i j : finite (Qh i j).
  by rewrite eQm mxE mnE; have := FG i j (ltn_ord i) (ltn_ord j); rewrite mnE.
have dR (i : 'I_m.+1) (j : 'I_n.+1) : i = j :> nat -> sg / 4 <= Rabs (rv (Rm i j)) <= 4 * M.
  move=> ij; rewrite eRm mxE /wfnS ij mnE ltn_ord ltnn eqxx; apply: RN; rewrite mnE; exact: ltn_ord.
have uR (i : 'I_m.+1) (j : 'I_n.+1) : (j < i)%N -> Rm i j = b64_zero.
  move=> ij; rewrite eRm mxE /wfnS mnE ltn_ord; have -> : (i < j)%N = false by lia.
  by have -> : (i == j :> nat) = false by lia.
exists d, Rm, H, Qh; split.
  split=> //; apply: (@qr_full_rank64 m.+1 n.+1 d _ _ nm (ltn0Sn m) (ltn0Sn n) Hd Hr) => // j hj.
  have jm : (j < minn m.+1 n.+1)%N by rewrite mnE.
  have ez : s_eqb (s:=B64) (rd j) (n_zero B64) = Req_bool (rv (rd j)) 0 by exact: (eqb0 (FR j jm)).
  by rewrite ez; case: Req_bool_spec => // z; case: (NZ j jm).
move=> delta.
have [i j ij|_ oQ _ hQ] := HH E1 fR fH fQ.
  right; have [h1 h2] := dR i j ij; have := qn5; have := qn6; have := qL_gt0; lra.
rewrite mnE -/E -/C -/delta in oQ hQ.
split=> //.
move=> j; apply: Rle_trans (hQ j) _; apply: Rplus_le_compat_r; apply: Rplus_le_compat_r.
apply: Rmult_le_compat_l; last exact: HM.
have : 1 <= C by apply: pow_R1_Rle; have := err_ge0 (m.+1 + 3); rewrite -/E; lra.
lra.
Qed.

(*@example
(** the hypotheses are met by a 3 x 2 matrix with sg = 1 and M = 3 *)
Definition mx211 : 'M[b64]_(3, 2) := mxn 3 2 (fun i j => if i == j then b64_int 2 else b64_int 1).
Lemma rv_b64_int2 : rv (b64_int 2) = 2.
Proof.
rewrite /rv -SF2R_B2SF; have -> : B2SF (b64_int 2) = SpecFloat.S754_finite false 4503599627370496 (-51) by vm_compute.
by rewrite /SF2R /F2R /=; lra.
Qed.
Lemma err6_small : err 6 <= / 8192.
Proof.
have u0 := u64_gt0; have u1 : u64 <= / 2 ^ 20.
  by rewrite /u64; apply: Rinv_le_contravar; [apply: p2_gt0|apply: Rle_pow; [lra|lia]].
have h : (1 + u64) ^ 6 <= (1 + / 2 ^ 20) ^ 6 by apply: pow_incr; lra.
by move: h; rewrite /err /grow /=; lra.
Qed.
Lemma rsum_2 (G : 'I_2 -> R) : \rsum_(i < 2) G i = G ord0 + G ord_max.
Proof. by rewrite !big_ord_recl big_ord0 /= Rplus_0_r; congr (_ + G _); apply: val_inj. Qed.
Lemma rsum_3 (G : 'I_3 -> R) : \rsum_(i < 3) G i = G ord0 + (G (lift ord0 ord0) + G ord_max).
Proof. by rewrite !big_ord_recl big_ord0 /= Rplus_0_r; congr (_ + (_ + G _)); apply: val_inj. Qed.
Example qr_no_overflow_hyps :
  let E := err 6 in let C := (1 + 25 * E) ^ 2 in
  [/\ forall i j, finite (mx211 i j), 64 * E <= 1,
      forall j, sqrt (\rsum_(i < 3) (rv (mx211 i j) ^ 2)) <= 3,
      forall x : 'I_2 -> R,
        1 * sqrt (\rsum_(j < 2) (x j ^ 2)) <= sqrt (\rsum_(i < 3) ((\rsum_(j < 2) (rv (mx211 i j) * x j)) ^ 2)) &
      3 <= 2 ^ 198 /\ / 2 ^ 169 <= 1 /\ 2 * INR 2 * ((C - 1) * 3 + INR 2 * (C * / 2 ^ 512)) <= 1].
Proof.
move=> E C; have e0 : 0 <= E := err_ge0 6; have e1 : E <= / 8192 := err6_small.
have A i j : rv (mx211 i j) = if i == j :> nat then 2 else 1.
  by rewrite mxE; case: (_ == _); [exact: rv_b64_int2|exact: rv_int1].
split.
- by move=> i j; rewrite mxE; case: (_ == _).
- by lra.
- move=> j; rewrite -[X in _ <= X](sqrt_Rsqr 3); last lra.
  apply: sqrt_le_1_alt; rewrite rsum_3 !A /Rsqr.
  by case: j => -[|[|j]] //= _; lra.
- move=> x; rewrite Rmult_1_l; apply: sqrt_le_1_alt; rewrite rsum_3 !rsum_2 !A /=.
  set p := x ord0; set q := x ord_max.
  have := Rle_0_sqr (p + q); rewrite /Rsqr; lra.
have C1 : 1 <= C <= 1 + / 128.
  rewrite /C; have p : 0 <= 25 * E <= / 320 by lra.
  have : (25 * E) * (25 * E) <= / 320 * / 320 by apply: Rmult_le_compat; lra.
  by have := Rmult_le_pos _ _ (proj1 p) (proj1 p); rewrite /=; lra.
split; last split.
- by apply: Rle_trans (_ : 2 ^ 2 <= _); [rewrite /=; lra|apply: Rle_pow; [lra|lia]].
- by rewrite -Rinv_1; apply: Rinv_le_contravar; [lra|apply: pow_R1_Rle; lra].
have o : / 2 ^ 512 <= / 64.
  apply: Rinv_le_contravar; first lra.
  by apply: Rle_trans (_ : 2 ^ 6 <= _); [rewrite /=; lra|apply: Rle_pow; [lra|lia]].
have o0 : 0 <= / 2 ^ 512 by left; apply: Rinv_0_lt_compat; apply: p2_gt0.
have : C * / 2 ^ 512 <= 129 / 128 * / 64 by apply: Rmult_le_compat; lra.
by rewrite [INR 2]/=; lra.
Qed.
@*)
