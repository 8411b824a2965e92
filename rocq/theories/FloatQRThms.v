(** * FloatQRThms: QR decomposition in f64 (C58, C59) *)
From Coq Require Import ZArith Reals Lra Psatz.
From Flocq Require Import Core BinarySingleNaN.
From mathcomp Require Import all_ssreflect all_algebra zify.
From Verif Require Import Base Scalar Hoare ModelMatrix ModelQR Spec MatrixProofs MatrixProofs2 LUProofs LUEval QREval B64 SpecFloat64 FloatBase FloatLU FloatChol FloatCholThms FloatCholFull RealVec QRReal FloatQR.

Set Implicit Arguments.
Unset Strict Implicit.
Unset Printing Implicit Defensive.
Local Open Scope R_scope.

(** what qr_new leaves behind *)
Lemma qr_new64 g m n (A : 'M[b64]_(m.+1, n.+1)) :
  let F := q_seq (S:=B64) bdiv bsqrt m.+1 (fn b64_zero A) in
  let rd := q_rd (S:=B64) bdiv bsqrt m.+1 (fn b64_zero A) in
  let mn := minn m.+1 n.+1 in
  exists d : qr_decomp B64,
  [/\ qr_new (S:=B64) g (mat_of A) = Ok d, rep m.+1 n.+1 (qr d) (F mn), repr1 mn (rdiag d) rd,
      forall g, qr_get_r g d = Ok (mat_of (mxn m.+1 n.+1 (wfnS (S:=B64) (F mn) rd mn))) &
      forall g, qr_get_h g d = Ok (mat_of (mxn m.+1 n.+1 (hfnS (S:=B64) (F mn))))].
Proof.
move=> F rd mn.
have /wp_ex [d e [H1 H2]] := qr_new_ev bdiv_tot bsqrt_tot (mat_of_rep b64_zero A) (ltn0Sn m) (ltn0Sn n) g.
exists d; split=> //.
- by move=> g'; apply: wp_mat_of (qr_get_r_ev _ _ H1 H2 g') _ => // i j; rewrite mxE.
- by move=> g'; apply: wp_mat_of (qr_get_h_ev _ _ H1 g') _ => // i j; rewrite mxE.
Qed.

(** the hypotheses of the theorems, in terms of the internal representation *)
Lemma qr_hyps m n (A : 'M[b64]_(m.+1, n.+1)) :
  let F := q_seq (S:=B64) bdiv bsqrt m.+1 (fn b64_zero A) in
  let rd := q_rd (S:=B64) bdiv bsqrt m.+1 (fn b64_zero A) in
  let mn := minn m.+1 n.+1 in
  let Rm := mxn m.+1 n.+1 (wfnS (S:=B64) (F mn) rd mn) in
  let H := mxn m.+1 n.+1 (hfnS (S:=B64) (F mn)) in
  (forall i j, finite (Rm i j)) -> (forall i j, finite (H i j)) ->
  (forall (i : 'I_m.+1) (j : 'I_n.+1), i = j :> nat -> rv (Rm i j) = 0 \/ / 2 ^ 480 <= Rabs (rv (Rm i j)) <= 2 ^ 510) ->
  [/\ forall i j, (i < m.+1)%N -> (j < n.+1)%N -> finite (F mn i j), forall k, (k < mn)%N -> finite (rd k) &
     forall k, (k < mn)%N -> rv (rd k) = 0 \/ / 2 ^ 480 <= Rabs (rv (rd k)) <= 2 ^ 510].
Proof.
move=> F rd mn Rm H FR FH RG.
have FF i j : (i < m.+1)%N -> (j < n.+1)%N -> finite (F mn i j).
  move=> hi hj; case: (leqP j i) => ij.
    by have := FH (Ordinal hi) (Ordinal hj); rewrite mxE /hfnS /= ij.
  by have := FR (Ordinal hi) (Ordinal hj); rewrite mxE /wfnS /= ij; case: ifP.
have rdE k : (k < mn)%N -> exists (i : 'I_m.+1) (j : 'I_n.+1), i = j :> nat /\ Rm i j = rd k.
  move=> hk; have h1 : (k < m.+1)%N by rewrite /mn in hk; lia.
  have h2 : (k < n.+1)%N by rewrite /mn in hk; lia.
  by exists (Ordinal h1), (Ordinal h2); split=> //; rewrite mxE /wfnS /= hk ltnn eqxx.
have FRd k : (k < mn)%N -> finite (rd k) by move=> /rdE [i [j [_ <-]]].
have RNG k : (k < mn)%N -> rv (rd k) = 0 \/ / 2 ^ 480 <= Rabs (rv (rd k)) <= 2 ^ 510.
  by move=> /rdE [i [j [ij <-]]]; apply: RG.
by [].
Qed.
(** the orthogonal matrix of qr_rounding *)
Definition qr_Q m n (A : 'M[b64]_(m.+1, n.+1)) (i j : 'I_m.+1) : R :=
  trf m.+1 (@uq m.+1 n.+1 (fn b64_zero A)) (minn m.+1 n.+1) (unitv j 1) i.
Lemma qr_Q_spec m n (A : 'M[b64]_(m.+1, n.+1)) :
  let F := q_seq (S:=B64) bdiv bsqrt m.+1 (fn b64_zero A) in
  let rd := q_rd (S:=B64) bdiv bsqrt m.+1 (fn b64_zero A) in
  let mn := minn m.+1 n.+1 in
  let E := err (m.+1 + 3) in
  64 * E <= 1 ->
  (forall i j, (i < m.+1)%N -> (j < n.+1)%N -> finite (F mn i j)) -> (forall k, (k < mn)%N -> finite (rd k)) ->
  (forall k, (k < mn)%N -> rv (rd k) = 0 \/ / 2 ^ 480 <= Rabs (rv (rd k)) <= 2 ^ 510) ->
  [/\ forall i j, finite (A i j),
      forall i j, (\rsum_(l < m.+1) (qr_Q A l i * qr_Q A l j)) = if i == j then 1 else 0 &
    forall j : 'I_n.+1,
      sqrt (\rsum_(i < m.+1) ((rv (A i j) - (\rsum_(l < m.+1) (qr_Q A i l * rv (mxn m.+1 n.+1 (wfnS (S:=B64) (F mn) rd mn) l j)))) ^ 2)) <=
      ((1 + 25 * E) ^ mn - 1) * sqrt (\rsum_(i < m.+1) (rv (A i j) ^ 2)) + INR mn * ((1 + 25 * E) ^ mn * / 2 ^ 512)].
Proof.
move=> F rd mn E E1 FF FRd RNG.
have uok := @uq_ok m.+1 n.+1 (fn b64_zero A) E1 FF FRd RNG.
pose uq := @uq m.+1 n.+1 (fn b64_zero A).
split.
- move=> i j; have h : finite (fn b64_zero A i j) by exact: (@seq_fin m.+1 n.+1 (fn b64_zero A) FF 0%N (leq0n _) i j (ltn_ord _) (ltn_ord _)).
  by rewrite fnE in h.
- move=> i j; rewrite /qr_Q (rsum_rsumn (G := fun l => trf m.+1 uq mn (unitv i 1) l * trf m.+1 uq mn (unitv j 1) l)) //.
  rewrite -[rsumn _ _]/(dotr m.+1 _ _) (trf_dot uok) dotr_unitv // Rmult_1_l /unitv.
  by have -> : (i == j :> nat) = (i == j).
move=> j; have := @qr_back m.+1 n.+1 (fn b64_zero A) E1 FF FRd RNG j (ltn_ord j).
rewrite /nrm /dotr -/mn -/uq.
rewrite -(rsum_rsumn (F := fun i : 'I_m.+1 => (rv (A i j) - (\rsum_(l < m.+1) (qr_Q A i l *
   rv (mxn m.+1 n.+1 (wfnS (S:=B64) (F mn) rd mn) l j)))) ^ 2)).
  rewrite -(rsum_rsumn (F := fun i : 'I_m.+1 => rv (A i j) ^ 2)); first by [].
  by move=> i; rewrite fnE; ring.
move=> i; rewrite fnE -tech_pow_Rmult pow_1 /qr_Q.
by rewrite (rsum_rsumn (G := fun l => trf m.+1 uq mn (unitv l 1) i * Wq m.+1 (fn b64_zero A) mn j l)) // => l; rewrite mxE.
Qed.

(*@section C58 QR decomposition in f64 @*)

(*@doc C58: for every f64 matrix (NaN and infinities included) QRDecomposition::new, get_r and get_h succeed, R is upper and H
  lower trapezoidal, and they do not depend on the uninitialised memory.  When R and H are finite, and every diagonal element
  of R is 0 or between 2^-480 and 2^510 in magnitude, then so is A finite, and R is the factor of a nearby matrix: there is an
  exactly orthogonal Q such that column j of A differs from column j of Q R, in the Euclidean norm, by at most
  ((1 + 25 E)^r - 1) times the norm of column j of A plus r (1 + 25 E)^r 2^-512, where E = (1+u)^(m+3) - 1 for m rows and
  r = min(m, n).  (The only condition on the size: 64 E <= 1, that is m <= 2^47.) *)
Lemma qr_rounding_L : forall g m n (A : 'M[b64]_(m.+1, n.+1)),
  exists (d : qr_decomp B64) (Rm H : 'M[b64]_(m.+1, n.+1)),
  [/\ qr_new (S:=B64) g (mat_of A) = Ok d,
      forall g, qr_get_r g d = Ok (mat_of Rm),
      forall g, qr_get_h g d = Ok (mat_of H) &
  [/\ forall (i : 'I_m.+1) (j : 'I_n.+1), (j < i)%N -> Rm i j = b64_zero,
      forall (i : 'I_m.+1) (j : 'I_n.+1), (i < j)%N -> H i j = b64_zero &
  let r := minn m.+1 n.+1 in
  let E := err (m.+1 + 3) in
  64 * E <= 1 ->
  (forall i j, finite (Rm i j)) -> (forall i j, finite (H i j)) ->
  (forall (i : 'I_m.+1) (j : 'I_n.+1), i = j :> nat -> rv (Rm i j) = 0 \/ / 2 ^ 480 <= Rabs (rv (Rm i j)) <= 2 ^ 510) ->
  (forall i j, finite (A i j)) /\
  exists Q : 'I_m.+1 -> 'I_m.+1 -> R,
    (forall i j, (\rsum_(l < m.+1) (Q l i * Q l j)) = if i == j then 1 else 0) /\
    forall j : 'I_n.+1,
      sqrt (\rsum_(i < m.+1) ((rv (A i j) - (\rsum_(l < m.+1) (Q i l * rv (Rm l j)))) ^ 2)) <=
      ((1 + 25 * E) ^ r - 1) * sqrt (\rsum_(i < m.+1) (rv (A i j) ^ 2)) + INR r * ((1 + 25 * E) ^ r * / 2 ^ 512)]].
Proof.
move=> g m n A; have [d [e Hd Hr eR eH]] := qr_new64 g A.
set F := q_seq _ _ _ _ in Hd Hr eR eH; set rd := q_rd _ _ _ _ in Hr eR; set mn := minn _ _ in Hd Hr eR eH.
exists d, (mxn m.+1 n.+1 (wfnS (S:=B64) (F mn) rd mn)), (mxn m.+1 n.+1 (hfnS (S:=B64) (F mn))); split=> //; split.
- move=> i j ij; rewrite mxE /wfnS; have -> : (j < mn)%N by rewrite /mn; have := ltn_ord i; have := ltn_ord j; lia.
  have -> : (i < j)%N = false by lia.
  by have -> : (i == j :> nat) = false by lia.
- by move=> i j ij; rewrite mxE /hfnS leqNgt ij.
move=> r E E1 FR FH RG.
have [FF FRd RNG] := qr_hyps FR FH RG.
have [h1 h2 h3] := qr_Q_spec E1 FF FRd RNG.
by split=> //; exists (qr_Q A).
Qed.

(** ** the range condition cannot be dropped *)
Definition ovf_x : b64 := b64_of 21 507.
Definition ovf_data : seq b64 := [:: ovf_x; b64_zero; ovf_x; b64_int 1].
Definition ovf_mx : 'M[b64]_2 := mxn 2 2 (fun i j => nth b64_zero ovf_data (i * 2 + j)).
Lemma ovf_mat : mat_of ovf_mx = Mat 2 ovf_data.
Proof.
apply/esym/(@rep_mat_of _ 2 2 _ (fun i j => nth b64_zero ovf_data (i * 2 + j))).
  by split=> //; split=> // -[|[|i]] // [|[|j]].
by move=> [[|[|i]] hi] [[|[|j]] hj] //; rewrite mxE.
Qed.
Lemma mat2E (A : 'M[b64]_2) : data (mat_of A) = [:: A ord0 ord0; A ord0 ord_max; A ord_max ord0; A ord_max ord_max].
Proof.
have -> // : mat_of A = Mat 2 [:: A ord0 ord0; A ord0 ord_max; A ord_max ord0; A ord_max ord_max].
apply/esym/(@rep_mat_of _ 2 2 _ (fun i j => nth b64_zero [:: A ord0 ord0; A ord0 ord_max; A ord_max ord0; A ord_max ord_max] (i * 2 + j))).
  by split=> //; split=> // -[|[|i]] // [|[|j]].
by move=> [[|[|i]] hi] [[|[|j]] hj] //=; congr (A _ _); apply: val_inj.
Qed.
Definition ovf_check (g : nat -> B64) : bool :=
  match qr_new (S:=B64) g (Mat 2 ovf_data) with
  | Ok d =>
      match qr_get_r g d, qr_get_h g d with
      | Ok Rm, Ok H =>
          match data Rm with
          | [:: r00; r01; r10; r11] =>
             [&& is_finite r00, Beqb r01 b64_zero, is_finite r01, Beqb r10 b64_zero, is_finite r10, Beqb r11 (Bopp (b64_int 1)), is_finite r11 &
              all (@is_finite b_prec b_emax) (data H)]
          | _ => false
          end
      | _, _ => false
      end
  | _ => false
  end.
Lemma ovf_ok g : ovf_check g.
Proof. by vm_cast_no_check (erefl true). Qed.

Lemma rsum2 (G : 'I_2 -> R) : (\rsum_(i < 2) G i) = G ord0 + G ord_max.
Proof. by rewrite big_ord_recr big_ord1 /=; congr (G _ + G _); apply: val_inj. Qed.
Lemma sqrt_tenth x y : 0 <= x -> 0 <= y -> sqrt x <= / 10 * sqrt y -> x <= / 100 * y.
Proof.
move=> x0 y0 h; have p := sqrt_pos x; have q := sqrt_pos y.
have : sqrt x * sqrt x <= / 10 * sqrt y * (/ 10 * sqrt y) by apply: Rmult_le_compat.
have -> : / 10 * sqrt y * (/ 10 * sqrt y) = / 100 * (sqrt y * sqrt y) by field.
by rewrite !sqrt_sqrt.
Qed.

Lemma ovf_real (x a p r q s : R) : 0 < x ->
  p * p + r * r = 1 -> q * q + s * s = 1 -> p * q + r * s = 0 ->
  (x - p * a) * (x - p * a) + (x - r * a) * (x - r * a) <= / 100 * (x * x + x * x) ->
  q * q + (1 - s) * (1 - s) <= / 100 -> False.
Proof.
move=> x0 o1 o2 o3 h1 h2.
have s1 : 199 / 200 <= s by nra.
have q2 : q * q <= / 100 by have := Rle_0_sqr (1 - s); rewrite /Rsqr; lra.
have rs : (r * s) * (r * s) = (p * p) * (q * q).
  have -> : r * s = - (p * q) by lra.
  by ring.
have pp0 := Rle_0_sqr p; have rr0 := Rle_0_sqr r; rewrite /Rsqr in pp0 rr0.
have b1 : p * p <= 1 by lra.
have c1 : (p * p) * (q * q) <= 1 * / 100 by apply: Rmult_le_compat => //; apply: Rle_0_sqr.
have c2 : (r * r) * (199 / 200 * (199 / 200)) <= (r * r) * (s * s) by apply: Rmult_le_compat_l => //; apply: Rmult_le_compat; lra.
have c3 : r * r <= 2 / 100.
  have : (r * s) * (r * s) = (r * r) * (s * s) by ring.
  lra.
have xx : 0 < x * x by apply: Rmult_lt_0_compat.
have d1 : (x - r * a) * (x - r * a) <= / 50 * (x * x) by have := Rle_0_sqr (x - p * a); rewrite /Rsqr; lra.
have d2 : (x - p * a) * (x - p * a) <= / 50 * (x * x) by have := Rle_0_sqr (x - r * a); rewrite /Rsqr; lra.
have e1 : x - r * a <= / 5 * x by apply: sq_le; [lra|nra].
have e2 : p * a - x <= / 5 * x by apply: sq_le; [lra|nra].
have e3 : x - p * a <= / 5 * x by apply: sq_le; [lra|nra].
have f1 : 4 / 5 * x * (4 / 5 * x) <= (r * a) * (r * a) by apply: Rmult_le_compat; lra.
have f2 : (p * a) * (p * a) <= 6 / 5 * x * (6 / 5 * x) by apply: Rmult_le_compat; lra.
have g1 : (r * a) * (r * a) * (98 / 100) <= (r * a) * (r * a) * (p * p).
  by apply: Rmult_le_compat_l; [apply: Rle_0_sqr|lra].
have g2 : (p * a) * (p * a) * (r * r) <= (p * a) * (p * a) * (2 / 100).
  by apply: Rmult_le_compat_l; [apply: Rle_0_sqr|lra].
have g3 : (p * a) * (p * a) * (r * r) = (r * a) * (r * a) * (p * p) by ring.
have k1 : 4 / 5 * x * (4 / 5 * x) = 16 / 25 * (x * x) by field.
have k2 : 6 / 5 * x * (6 / 5 * x) = 36 / 25 * (x * x) by field.
rewrite k1 in f1; rewrite k2 in f2; lra.
Qed.

(*@doc C58, finding: the upper limit on the diagonal of R cannot be dropped.  For the 2 x 2 matrix with first column (x, x),
  x = 1.3125 * 2^511, and second column (0, 1), the product of the diagonal element and the Householder vector overflows,
  the second column is not transformed, and R (all elements finite) is not the factor of any matrix near A: every
  orthogonal Q misses a column of A by more than 10 percent. *)
Lemma qr_overflow_refuted_L : exists (A Rm H : 'M[b64]_2), forall g, exists d,
  [/\ qr_new (S:=B64) g (mat_of A) = Ok d,
      forall g, qr_get_r g d = Ok (mat_of Rm),
      forall g, qr_get_h g d = Ok (mat_of H) &
  [/\ forall i j, finite (A i j), forall i j, finite (Rm i j), forall i j, finite (H i j) &
  forall Q : 'I_2 -> 'I_2 -> R,
    (forall i j, (\rsum_(l < 2) (Q l i * Q l j)) = if i == j then 1 else 0) ->
    exists j, / 10 * sqrt (\rsum_(i < 2) (rv (A i j) ^ 2)) <
      sqrt (\rsum_(i < 2) ((rv (A i j) - (\rsum_(l < 2) (Q i l * rv (Rm l j)))) ^ 2))]].
Proof.
pose F := q_seq (S:=B64) bdiv bsqrt 2 (fn b64_zero ovf_mx); pose rd := q_rd (S:=B64) bdiv bsqrt 2 (fn b64_zero ovf_mx).
exists ovf_mx, (mxn 2 2 (wfnS (S:=B64) (F 2%N) rd 2)), (mxn 2 2 (hfnS (S:=B64) (F 2%N))) => g.
have [d [e _ _ eR eH]] := qr_new64 g ovf_mx; rewrite minnn in eR eH.
set Rm := mxn _ _ _ in eR *; set H := mxn _ _ _ in eH *.
exists d; split=> //.
have := ovf_ok g; rewrite /ovf_check -ovf_mat e eR eH !mat2E.
move=> /and5P[f00 z01 f01 z10] /and4P[f10 o11 f11] /= /and5P[h00 h01 h10 h11 _].
have o2 (i : 'I_2) : i = ord0 \/ i = ord_max by case: i => -[|[|i]] hi //; [left|right]; apply: val_inj.
have x00 : finite ovf_x by [].
have FA i j : finite (ovf_mx i j).
  by case: (o2 i) => ->; case: (o2 j) => ->; rewrite mxE.
split=> //.
- by move=> i j; case: (o2 i) => ->; case: (o2 j) => ->.
- by move=> i j; case: (o2 i) => ->; case: (o2 j) => ->.
move=> Q oQ.
have r01 : rv (Rm ord0 ord_max) = 0 by move: z01; rewrite eqb0 //; case: Req_bool_spec.
have r10 : rv (Rm ord_max ord0) = 0 by move: z10; rewrite eqb0 //; case: Req_bool_spec.
have r11 : rv (Rm ord_max ord_max) = -1.
  move: o11; rewrite Beqb_correct //; case: Req_bool_spec => //; rewrite -/(rv _) => -> _.
  by rewrite B2R_Bopp -/(rv _) rv_int1.
have xp : 0 < rv ovf_x.
  have : Bltb b64_zero ovf_x by [].
  by rewrite Bltb_correct //; case: Rlt_bool_spec.
have a00 : rv (ovf_mx ord0 ord0) = rv ovf_x by rewrite mxE.
have a10 : rv (ovf_mx ord_max ord0) = rv ovf_x by rewrite mxE.
have a01 : rv (ovf_mx ord0 ord_max) = 0 by rewrite mxE.
have a11 : rv (ovf_mx ord_max ord_max) = 1 by rewrite mxE; exact: rv_int1.
set L := fun j : 'I_2 => / 10 * sqrt (\rsum_(i < 2) (rv (ovf_mx i j) ^ 2)).
set G := fun j : 'I_2 => sqrt (\rsum_(i < 2) ((rv (ovf_mx i j) - (\rsum_(l < 2) (Q i l * rv (Rm l j)))) ^ 2)).
case: (Rlt_dec (L ord0) (G ord0)) => [h|/Rnot_lt_le n0]; first by exists ord0.
case: (Rlt_dec (L ord_max) (G ord_max)) => [h|/Rnot_lt_le n1]; first by exists ord_max.
exfalso; move: n0 n1; rewrite /L /G !rsum2 a00 a10 a01 a11 r01 r10 r11.
move=> /sqrt_tenth h0 /sqrt_tenth h1.
have := oQ ord0 ord0; have := oQ ord_max ord_max; have := oQ ord0 ord_max; rewrite !rsum2 !eqxx.
have -> : (ord0 == ord_max :> 'I_2) = false by [].
move=> e1 e2 e3.
apply: (@ovf_real (rv ovf_x) (rv (Rm ord0 ord0)) (Q ord0 ord0) (Q ord_max ord0) (- Q ord0 ord_max) (- Q ord_max ord_max)); try lra.
  have := h0 _ _; set X := rv ovf_x; set Y := rv _; nra.
Qed.

(*@section C59 get_q of the QR decomposition in f64 @*)

(** ** get_q *)
Lemma nrm_comb (m p : nat) (M : nat -> nat -> R) (v : nat -> R) dl : (forall l, (l < p)%N -> nrm m (fun i => M i l) <= dl \/ v l = 0) ->
  nrm m (fun i => rsumn p (fun l => M i l * v l)) <= dl * rsumn p (fun l => Rabs (v l)).
Proof.
elim: p => [|p IH] h.
  by rewrite nrm_z; [rewrite rsumn0; lra|move=> i _; rewrite rsumn0].
have h1 := IH (fun l hl => h l (ltnW hl)).
rewrite (@nrm_ext m _ (fun i => rsumn p (fun l => M i l * v l) + v p * M i p)); last by move=> i _; rewrite rsumnS; ring.
apply: Rle_trans (nrm_tri _ _ _) _; rewrite nrm_scal rsumnS Rmult_plus_distr_l.
have h2 : Rabs (v p) * nrm m (fun i => M i p) <= dl * Rabs (v p).
  case: (h p (ltnSn p)) => [hp|->]; last by rewrite Rabs_R0; lra.
  by rewrite [dl * _]Rmult_comm; apply: Rmult_le_compat_l => //; apply: Rabs_pos.
lra.
Qed.
Lemma near_orth m (x y x' y' : nat -> R) dl : nrm m x = 1 -> nrm m y = 1 ->
  nrm m (fun i => x' i - x i) <= dl -> nrm m (fun i => y' i - y i) <= dl ->
  Rabs (dotr m x' y' - dotr m x y) <= 2 * dl + dl * dl.
Proof.
move=> nx ny hx hy; have px := nrm_ge0 m (fun i => x' i - x i); have py := nrm_ge0 m (fun i => y' i - y i).
have -> : dotr m x' y' - dotr m x y = dotr m (fun i => x' i - x i) y + dotr m x (fun i => y' i - y i) + dotr m (fun i => x' i - x i) (fun i => y' i - y i).
  rewrite !dotrBl !dotrBr; ring.
apply: Rle_trans (Rabs_triang _ _) _.
have h1 := nrm_cs m (fun i => x' i - x i) y; rewrite ny Rmult_1_r in h1.
have h2 := nrm_cs m x (fun i => y' i - y i); rewrite nx Rmult_1_l in h2.
have h3 := nrm_cs m (fun i => x' i - x i) (fun i => y' i - y i).
have h4 := Rabs_triang (dotr m (fun i => x' i - x i) y) (dotr m x (fun i => y' i - y i)).
have h5 : nrm m (fun i => x' i - x i) * nrm m (fun i => y' i - y i) <= dl * dl by apply: Rmult_le_compat.
lra.
Qed.

(*@doc C59: get_q never fails on what QRDecomposition::new produced from an f64 matrix.  When R, H and Q are finite and every
  diagonal element of R is between 2^-480 and 2^510 in magnitude, or 0 with the diagonal element of H also 0, then, with
  E = (1+u)^(m+3) - 1, r = min(m, n) and delta = (1 + 25 E)^r - 1 + r (1 + 25 E)^r 2^-512: the first r columns of Q are within
  delta of orthonormal vectors (inner products off by at most 2 delta + delta^2), and column j of A differs from column j of
  Q R by at most the bound of qr_rounding plus delta times the sum of the magnitudes of column j of R. *)
Lemma qr_q_rounding_L : forall g m n (A : 'M[b64]_(m.+1, n.+1)),
  exists (d : qr_decomp B64) (Rm H : 'M[b64]_(m.+1, n.+1)) (Qh : 'M[b64]_(m.+1)),
  [/\ qr_new (S:=B64) g (mat_of A) = Ok d,
      forall g, qr_get_r g d = Ok (mat_of Rm),
      forall g, qr_get_h g d = Ok (mat_of H),
      qr_get_q (S:=B64) d = Ok (mat_of Qh) &
  let r := minn m.+1 n.+1 in
  let E := err (m.+1 + 3) in
  let delta := ((1 + 25 * E) ^ r - 1) + INR r * ((1 + 25 * E) ^ r * / 2 ^ 512) in
  64 * E <= 1 ->
  (forall i j, finite (Rm i j)) -> (forall i j, finite (H i j)) -> (forall i j, finite (Qh i j)) ->
  (forall (i : 'I_m.+1) (j : 'I_n.+1), i = j :> nat ->
     (rv (Rm i j) = 0 /\ rv (H i j) = 0) \/ / 2 ^ 480 <= Rabs (rv (Rm i j)) <= 2 ^ 510) ->
  [/\ forall i j, finite (A i j),
      forall a b : 'I_m.+1, (a < r)%N -> (b < r)%N ->
        Rabs ((\rsum_(l < m.+1) (rv (Qh l a) * rv (Qh l b))) - (if a == b then 1 else 0)) <= 2 * delta + delta * delta,
      exists Q : 'I_m.+1 -> 'I_m.+1 -> R,
        (forall i j, (\rsum_(l < m.+1) (Q l i * Q l j)) = if i == j then 1 else 0) /\
        forall c : 'I_m.+1, (c < r)%N -> sqrt (\rsum_(i < m.+1) ((rv (Qh i c) - Q i c) ^ 2)) <= delta &
      forall j : 'I_n.+1,
      sqrt (\rsum_(i < m.+1) ((rv (A i j) - (\rsum_(l < m.+1) (rv (Qh i l) * rv (Rm l j)))) ^ 2)) <=
      ((1 + 25 * E) ^ r - 1) * sqrt (\rsum_(i < m.+1) (rv (A i j) ^ 2)) + INR r * ((1 + 25 * E) ^ r * / 2 ^ 512)
        + delta * (\rsum_(l < m.+1) Rabs (rv (Rm l j)))]].
Proof.
move=> g m n A; have [d [e Hd Hr eR eH]] := qr_new64 g A.
set F := q_seq _ _ _ _ in Hd Hr eR eH; set rd := q_rd _ _ _ _ in Hr eR; set mn := minn _ _ in Hd Hr eR eH.
pose G := q_gs (S:=B64) bdiv m.+1 n.+1 (F mn) rd mn.
have eQ : qr_get_q (S:=B64) d = Ok (mat_of (mxn m.+1 m.+1 G)).
  have h := qr_get_q_ev bdiv_tot (ltn0Sn m) (ltn0Sn n) Hd Hr.
  by apply: (wp_mat_of h) => i j; rewrite mxE.
exists d, (mxn m.+1 n.+1 (wfnS (S:=B64) (F mn) rd mn)), (mxn m.+1 n.+1 (hfnS (S:=B64) (F mn))), (mxn m.+1 m.+1 G); split=> //.
move=> r E delta E1 FR FH FQ RG.
have RG' (i : 'I_m.+1) (j : 'I_n.+1) : i = j :> nat -> rv (mxn m.+1 n.+1 (wfnS (S:=B64) (F mn) rd mn) i j) = 0 \/
  / 2 ^ 480 <= Rabs (rv (mxn m.+1 n.+1 (wfnS (S:=B64) (F mn) rd mn) i j)) <= 2 ^ 510.
  by move=> /RG [[h _]|h]; [left|right].
have [FF FRd RNG] := qr_hyps FR FH RG'.
have [FA oQ hQ] := qr_Q_spec E1 FF FRd RNG.
have FG i j : (i < m.+1)%N -> (j < m.+1)%N -> finite (G i j).
  by move=> hi hj; have := FQ (Ordinal hi) (Ordinal hj); rewrite mxE.
have ZH k : (k < mn)%N -> rv (rd k) = 0 -> rv (F mn k k) = 0.
  move=> hk z; have h1 : (k < m.+1)%N by rewrite /mn in hk; lia.
  have h2 : (k < n.+1)%N by rewrite /mn in hk; lia.
  have := RG (Ordinal h1) (Ordinal h2) erefl; rewrite !mxE /wfnS /hfnS /= hk ltnn eqxx leqnn z Rabs_R0.
  case=> [[] //|[h _]]; exfalso; have : 0 < / 2 ^ 480 by apply: Rinv_0_lt_compat; apply: pow_lt; lra.
  lra.
pose uq := @uq m.+1 n.+1 (fn b64_zero A).
have uok := @uq_ok m.+1 n.+1 (fn b64_zero A) E1 FF FRd RNG.
have err_c c : (c < mn)%N -> nrm m.+1 (fun i => rv (G i c) - trf m.+1 uq mn (unitv c 1) i) <= delta.
  exact: (@get_q_err m.+1 n.+1 (fn b64_zero A) E1 FF FRd RNG FG ZH c).
have nt c : (c < m.+1)%N -> nrm m.+1 (trf m.+1 uq mn (unitv c 1)) = 1.
  by move=> hc; rewrite /nrm (trf_dot uok) dotr_unitv // /unitv eqxx Rmult_1_l sqrt_1.
split=> //.
- move=> a b ha hb.
  rewrite -oQ (rsum_rsumn (G := fun l => rv (G l a) * rv (G l b))); last by move=> l; rewrite !mxE.
  rewrite (rsum_rsumn (G := fun l => trf m.+1 uq mn (unitv a 1) l * trf m.+1 uq mn (unitv b 1) l)) //.
  have := @near_orth m.+1 _ _ (fun i => rv (G i a)) (fun i => rv (G i b)) delta (nt a (ltn_ord a)) (nt b (ltn_ord b)).
  by apply; apply: err_c.
- exists (qr_Q A); split=> // c hc.
  have := err_c c hc; rewrite /nrm /dotr.
  by rewrite -(rsum_rsumn (F := fun i : 'I_m.+1 => (rv (mxn m.+1 m.+1 G i c) - qr_Q A i c) ^ 2)) // => i; rewrite mxE /qr_Q; rewrite -/uq -/mn; ring.
move=> j; have hj := hQ j.
pose Rf l := rv (wfnS (S:=B64) (F mn) rd mn l j).
have e1 (Qf : nat -> nat -> R) (QQ : 'I_m.+1 -> 'I_m.+1 -> R) : (forall i l : 'I_m.+1, QQ i l = Qf i l) ->
  sqrt (\rsum_(i < m.+1) ((rv (A i j) - (\rsum_(l < m.+1) (QQ i l * rv (mxn m.+1 n.+1 (wfnS (S:=B64) (F mn) rd mn) l j)))) ^ 2)) =
  nrm m.+1 (fun i => rv (fn b64_zero A i j) - rsumn m.+1 (fun l => Qf i l * Rf l)).
  move=> h; rewrite /nrm /dotr; congr sqrt; apply: rsum_rsumn => i; rewrite fnE -tech_pow_Rmult pow_1.
  by rewrite (rsum_rsumn (G := fun l => Qf i l * Rf l)) // => l; rewrite h mxE.
rewrite (e1 (fun i l => trf m.+1 uq mn (unitv l 1) i)) // in hj.
rewrite (e1 (fun i l => rv (G i l))); last by move=> i l; rewrite mxE.
rewrite (rsum_rsumn (F := fun l : 'I_m.+1 => Rabs (rv (mxn m.+1 n.+1 (wfnS (S:=B64) (F mn) rd mn) l j))) (G := fun l => Rabs (Rf l))); last by move=> l; rewrite mxE.
apply: Rle_trans (@nrm_tri3 m.+1 _ _ (fun i => rsumn m.+1 (fun l => trf m.+1 uq mn (unitv l 1) i * Rf l))) _.
apply: Rplus_le_compat; first exact: hj.
rewrite (@nrm_ext m.+1 _ (fun i => rsumn m.+1 (fun l => (trf m.+1 uq mn (unitv l 1) i - rv (G i l)) * Rf l))); last first.
  by move=> i _; rewrite -rsumn_sub; apply: rsumn_ext => l _; ring.
apply: (@nrm_comb m.+1 m.+1 (fun i l => trf m.+1 uq mn (unitv l 1) i - rv (G i l)) Rf) => l hl.
case: (ltnP l mn) => lm.
  left; have := err_c l lm; rewrite (@nrm_ext m.+1 (fun i => trf _ _ _ _ _ - _) (fun i => - 1 * (rv (G i l) - trf m.+1 uq mn (unitv l 1) i))).
    by rewrite nrm_scal Rabs_Ropp Rabs_R1 Rmult_1_l.
  by move=> i _; ring.
right; rewrite /Rf /wfnS; have jn := ltn_ord j; have -> : (j < mn)%N by rewrite /mn in lm *; lia.
have -> : (l < j)%N = false by rewrite /mn in lm; lia.
by have -> : (l == j :> nat) = false by rewrite /mn in lm; lia.
Qed.

Definition tiny_mx : 'M[b64]_1 := mxn 1 1 (fun _ _ => b64_of 1 (-600)).
Lemma mat1E (A : 'M[b64]_1) : mat_of A = Mat 1 [:: A ord0 ord0].
Proof.
apply/esym/(@rep_mat_of _ 1 1 _ (fun i j => A ord0 ord0)).
  by split=> //; split=> // -[|i] // [|j].
by move=> i j; rewrite !ord1.
Qed.
Definition tiny_check (g : nat -> B64) : bool :=
  match qr_new (S:=B64) g (Mat 1 [:: b64_of 1 (-600)]) with
  | Ok d =>
      match qr_get_r g d, qr_get_h g d, qr_get_q d with
      | Ok Rm, Ok H, Ok Q => [&& all (@is_finite b_prec b_emax) (data Rm), all (@is_finite b_prec b_emax) (data H) &
           ~~ all (@is_finite b_prec b_emax) (data Q)]
      | _, _, _ => false
      end
  | _ => false
  end.
Lemma tiny_ok g : tiny_check g.
Proof. by vm_cast_no_check (erefl true). Qed.
(*@doc C59, finding: get_q looks at the wrong number to see whether a column was skipped (the diagonal of H, not of R), so the
  condition on zero diagonals cannot be dropped: for the 1 x 1 matrix [2^-600] the square underflows, the diagonal of R is 0,
  R and H are finite, and get_q divides by zero: its only element is not finite. *)
Lemma qr_get_q_underflow_refuted_L : exists A : 'M[b64]_1, finite (A ord0 ord0) /\ rv (A ord0 ord0) <> 0 /\
  forall g, exists d (Rm H Qh : 'M[b64]_1),
  [/\ qr_new (S:=B64) g (mat_of A) = Ok d,
      forall g, qr_get_r g d = Ok (mat_of Rm), forall g, qr_get_h g d = Ok (mat_of H), qr_get_q (S:=B64) d = Ok (mat_of Qh) &
      [/\ finite (Rm ord0 ord0), finite (H ord0 ord0) & ~ finite (Qh ord0 ord0)]].
Proof.
exists tiny_mx; rewrite mxE; split=> //; split.
  have : Bltb b64_zero (b64_of 1 (-600)) by [].
  by rewrite Bltb_correct //; case: Rlt_bool_spec => // h _ z; move: h; rewrite -![B2R _]/(rv _) z /= => /Rlt_irrefl.
move=> g; have [d [Rm [H [Qh [e eR eH eQ _]]]]] := qr_q_rounding_L g tiny_mx.
exists d, Rm, H, Qh; split=> //.
have := tiny_ok g; rewrite /tiny_check.
have -> : Mat 1 [:: b64_of 1 (-600)] = mat_of tiny_mx by rewrite mat1E mxE.
rewrite e eR eH eQ !mat1E [data _]/= [data _]/= [data _]/=.
by move=> /and3P[/andP[h1 _] /andP[h2 _]] /=; rewrite andbT => /negP h3.
Qed.

(*@example
(** the hypotheses are met by a 3 x 2 matrix with rounding: R and H are finite, the diagonal of R is in range *)
Lemma err_6 : 64 * err 6 <= 1.
Proof.
have u0 := u64_gt0; have u1 := u64_lt1; rewrite /err /grow.
have h : (1 + u64) ^ 6 <= (1 + / 1024) ^ 6 by apply: pow_incr; lra.
by move: h; rewrite /=; lra.
Qed.
Definition mx32 : mat b64 := Mat 3 [seq b64_int (Z.of_nat k) | k <- [:: 1; 2; 3; 4; 5; 7]%N].
Definition diag_in (x : b64) : bool := Bleb (b64_of 1 (-480)) (Babs x) && Bleb (Babs x) (b64_of 1 510).
Example qr_rounding_example :
  let g : nat -> B64 := fun=> B754_nan in
  match qr_new (S:=B64) g mx32 with
  | Ok d =>
      match qr_get_r g d, qr_get_h g d, qr_get_q d with
      | Ok Rm, Ok H, Ok Q => [&& all (@is_finite b_prec b_emax) (data Rm), all (@is_finite b_prec b_emax) (data H),
                       all (@is_finite b_prec b_emax) (data Q) & all diag_in (rdiag d)]
      | _, _, _ => false
      end
  | _ => false
  end.
Proof. by vm_cast_no_check (erefl true). Qed.
@*)
