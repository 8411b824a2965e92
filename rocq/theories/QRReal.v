(** * QRReal: the effect of rounding on one Householder step, over the reals *)
From Coq Require Import ZArith Reals Lra Psatz.
From mathcomp Require Import all_ssreflect zify.
From Verif Require Import SpecFloat64 FloatBase FloatLU FloatCholThms FloatCholFull RealVec.

Set Implicit Arguments.
Unset Strict Implicit.
Unset Printing Implicit Defensive.
Local Open Scope R_scope.

Section HH.
Variables (m k : nat) (x : nat -> R) (a dl E : R).
Hypothesis km : (k < m)%N.
Hypothesis E0 : 0 <= E.
Hypothesis E1 : 64 * E <= 1.
Hypothesis a0 : a <> 0.
Hypothesis sg : x k * a <= 0.
Hypothesis hd : Rabs dl <= E.
Local Notation nrm := (nrm m).
Local Notation dotr := (dotr m).
Hypothesis hN : Rabs (a * a - dotr x x) <= 3 * E * (a * a).

Variable uh : nat -> R.
Hypothesis uhk : uh k = (x k - a) * (1 + dl).
Hypothesis uho : forall i, (i < m)%N -> i != k -> uh i = x i.
Let A := Rabs a.
Let T := Rabs (x k).
Let N := dotr x x.
Let M := dotr uh uh.
Let B := - a * uh k.

Lemma A0 : 0 < A. Proof. exact: Rabs_pos_lt. Qed.
Lemma T0 : 0 <= T. Proof. exact: Rabs_pos. Qed.
Lemma AA : a * a = A * A. Proof. by rewrite /A -Rabs_mult Rabs_pos_eq //; apply: Rle_0_sqr. Qed.
Lemma TT : x k * x k = T * T. Proof. by rewrite /T -Rabs_mult Rabs_pos_eq //; apply: Rle_0_sqr. Qed.
Lemma ta : x k * a = - (T * A).
Proof. by rewrite /T /A -Rabs_mult Rabs_left1 //; ring. Qed.
Lemma AA0 : 0 < A * A. Proof. by apply: Rmult_lt_0_compat; apply: A0. Qed.

Lemma hD : - (3 * E * (A * A)) <= N - A * A <= 3 * E * (A * A).
Proof. by have := Rabs_bound hN; rewrite -/N AA; lra. Qed.

Lemma T_le : T <= 11 / 10 * A.
Proof.
have pA := A0; apply: sq_le; first lra.
have : T * T <= N by rewrite -TT; apply: (@rsumn_term m (fun i => x i * x i)) => // l _; apply: Rle_0_sqr.
have := hD; have pAA := AA0.
have : 3 * E * (A * A) <= 3 / 64 * (A * A) by apply: Rmult_le_compat_r; lra.
lra.
Qed.

Lemma M_eq : M = uh k * uh k - x k * x k + N.
Proof.
suff : M - N = uh k * uh k - x k * x k by lra.
rewrite /M /N /RealVec.dotr -rsumn_sub (@rsumn_one m (fun i => uh i * uh i - x i * x i) k km) //.
by move=> i hi ni; rewrite uho //; ring.
Qed.
Lemma ux_eq : dotr uh x = uh k * x k - x k * x k + N.
Proof.
suff : dotr uh x - N = uh k * x k - x k * x k by lra.
rewrite /N /RealVec.dotr -rsumn_sub (@rsumn_one m (fun i => uh i * x i - x i * x i) k km) //.
by move=> i hi ni; rewrite uho //; ring.
Qed.

Lemma B_eq : B = A * (T + A) * (1 + dl).
Proof.
rewrite /B uhk.
have -> : - a * ((x k - a) * (1 + dl)) = (- (x k * a) + a * a) * (1 + dl) by ring.
by rewrite ta AA; ring.
Qed.
Lemma uu_eq : (x k - a) * (x k - a) = (T + A) * (T + A).
Proof.
have -> : (x k - a) * (x k - a) = x k * x k - 2 * (x k * a) + a * a by ring.
by rewrite ta AA TT; ring.
Qed.

Lemma dl_b : - E <= dl <= E. Proof. exact: Rabs_bound hd. Qed.

Lemma B_lo : 63 / 64 * (A * (T + A)) <= B.
Proof.
rewrite B_eq; have := dl_b => d; have pA := A0; have pT := T0.
have : 0 <= A * (T + A) by apply: Rmult_le_pos; lra.
move=> p; rewrite Rmult_comm; apply: Rmult_le_compat_l; lra.
Qed.
Lemma AT_lo : A * A <= A * (T + A).
Proof. by have pA := A0; have pT := T0; apply: Rmult_le_compat_l; lra. Qed.
Lemma AT_hi : A * (T + A) <= 21 / 10 * (A * A).
Proof.
have pA := A0; have := T_le => h.
have -> : 21 / 10 * (A * A) = A * (11 / 10 * A + A) by field.
by apply: Rmult_le_compat_l; lra.
Qed.
Lemma B_hi : B <= 65 / 64 * (A * (T + A)).
Proof.
rewrite B_eq; have := dl_b => d; have pA := A0; have pT := T0.
have p : 0 <= A * (T + A) by apply: Rmult_le_pos; lra.
rewrite [_ * (1 + dl)]Rmult_comm; apply: Rmult_le_compat_r; lra.
Qed.
Lemma B_gt0 : 0 < B.
Proof. by have := B_lo; have := AT_lo; have := AA0; lra. Qed.

Lemma MB : Rabs (M - 2 * B) <= 6 * E * B.
Proof.
have pA := A0; have pT := T0; have pAA := AA0; have [d1 d2] := dl_b; have [D1 D2] := hD.
have ht := T_le; have al := AT_lo; have ah := AT_hi; have bl := B_lo.
have EB : 6 * E * (63 / 64 * (A * (T + A))) <= 6 * E * B by apply: Rmult_le_compat_l; lra.
have -> : M - 2 * B = (N - A * A) + (2 * dl * ((T + A) * T) + dl * dl * ((T + A) * (T + A))).
  rewrite M_eq B_eq uhk TT.
  have -> : (x k - a) * (1 + dl) * ((x k - a) * (1 + dl)) = ((x k - a) * (x k - a)) * ((1 + dl) * (1 + dl)) by ring.
  by rewrite uu_eq; ring.
have p1 : 0 <= (T + A) * T by apply: Rmult_le_pos; lra.
have q1 : (T + A) * T <= 11 / 10 * (A * (T + A)).
  have -> : 11 / 10 * (A * (T + A)) = (T + A) * (11 / 10 * A) by field.
  by apply: Rmult_le_compat_l; lra.
have q2 : (T + A) * (T + A) <= 21 / 10 * (A * (T + A)).
  have -> : 21 / 10 * (A * (T + A)) = (21 / 10 * A) * (T + A) by field.
  by apply: Rmult_le_compat_r; lra.
have p2 : 0 <= (T + A) * (T + A) by apply: Rmult_le_pos; lra.
have p3 : 0 <= A * (T + A) by lra.
have dd : 0 <= dl * dl <= E / 64.
  split; first exact: Rle_0_sqr.
  have h : dl * dl <= E * E.
    have -> : dl * dl = Rabs dl * Rabs dl by rewrite -Rabs_mult Rabs_pos_eq //; apply: Rle_0_sqr.
    by apply: Rmult_le_compat => //; apply: Rabs_pos.
  have : E * E <= E * / 64 by apply: Rmult_le_compat_l; lra.
  lra.
set G := A * (T + A) in al ah bl EB q1 q2 p3 *.
have r1 : Rabs (2 * dl * ((T + A) * T)) <= 2 * E * (11 / 10 * G).
  apply: abs_mul_le; last by rewrite Rabs_pos_eq.
  by rewrite Rabs_mult (Rabs_pos_eq 2); lra.
have r2 : Rabs (dl * dl * ((T + A) * (T + A))) <= E / 64 * (21 / 10 * G).
  apply: abs_mul_le; first by rewrite Rabs_pos_eq; lra.
  by rewrite Rabs_pos_eq.
have r3 : Rabs (N - A * A) <= 3 * E * G.
  apply: Rabs_le; have : 3 * E * (A * A) <= 3 * E * G by apply: Rmult_le_compat_l; lra.
  by lra.
apply: Rle_trans (Rabs_triang _ _) _; have := Rabs_triang (2 * dl * ((T + A) * T)) (dl * dl * ((T + A) * (T + A))).
have EG : 0 <= E * G by apply: Rmult_le_pos.
have e1 : 2 * E * (11 / 10 * G) = 22 / 10 * (E * G) by field.
have e2 : E / 64 * (21 / 10 * G) = 21 / 640 * (E * G) by field.
have e3 : 3 * E * G = 3 * (E * G) by ring.
have e4 : 6 * E * (63 / 64 * G) = 378 / 64 * (E * G) by field.
rewrite e1 in r1; rewrite e2 in r2; rewrite e3 in r3; rewrite e4 in EB; lra.
Qed.

Lemma M_lo : A * A <= M.
Proof.
have := Rabs_bound MB; have := B_lo; have := AT_lo; have := AA0; have b := B_gt0.
have : 6 * E * B <= 6 / 64 * B by apply: Rmult_le_compat_r; lra.
lra.
Qed.
Lemma M_hi : M <= 5 * (A * A).
Proof.
have := Rabs_bound MB; have := B_hi; have := AT_hi; have := AA0; have b := B_gt0.
have : 6 * E * B <= 6 / 64 * B by apply: Rmult_le_compat_r; lra.
lra.
Qed.
Lemma B_M : B <= 53 / 100 * M.
Proof.
have := Rabs_bound MB; have b := B_gt0.
have : 6 * E * B <= 6 / 64 * B by apply: Rmult_le_compat_r; lra.
lra.
Qed.
Lemma M_gt0 : 0 < M. Proof. by have := M_lo; have := AA0; lra. Qed.
Lemma r_gt0 : 0 < nrm uh. Proof. exact: sqrt_lt_R0 M_gt0. Qed.
Lemma r_sq : nrm uh * nrm uh = M. Proof. exact: nrm_sq. Qed.
Lemma r_lo : A <= nrm uh.
Proof. by apply: sq_le; [exact: nrm_ge0|rewrite r_sq; exact: M_lo]. Qed.
Lemma r_hi : nrm uh <= 5 / 2 * A.
Proof.
have := A0 => pA; apply: sq_le; first lra.
by rewrite r_sq; have := M_hi; have := AA0; lra.
Qed.
Lemma A_nx : A <= 11 / 10 * nrm x.
Proof.
have p := nrm_ge0 m x; apply: sq_le; first lra.
have -> : 11 / 10 * nrm x * (11 / 10 * nrm x) = 121 / 100 * (nrm x * nrm x) by field.
rewrite nrm_sq -/N; have := hD; have pAA := AA0.
have : 3 * E * (A * A) <= 3 / 64 * (A * A) by apply: Rmult_le_compat_r; lra.
lra.
Qed.

(** the pivot column *)
Lemma hh_pivot : nrm (fun i => house m uh x i - unitv k a i) <= 12 * E * nrm x.
Proof.
have pA := A0; have pT := T0; have pAA := AA0; have [d1 d2] := dl_b; have [D1 D2] := hD.
have ht := T_le; have rp := r_gt0; have Mp := M_gt0.
pose rho := (2 * dotr uh x - M) / M.
have hr : (forall i, (i < m)%N -> house m uh x i - unitv k a i = unitv k (- dl * (x k - a)) i - rho * uh i).
  move=> i hi; rewrite /house -/M /unitv /rho.
  have -> : 2 * dotr uh x / M = 1 + (2 * dotr uh x - M) / M by field; lra.
  by case: (altP (i =P k)) => [->|ni]; [rewrite uhk; ring|rewrite uho //; ring].
rewrite (nrm_ext (v' := fun i => unitv k (- dl * (x k - a)) i - rho * uh i)); last exact: hr.
apply: Rle_trans (nrm_sub _ _ _) _; rewrite nrm_scal nrm_unitv //.
have xa : Rabs (x k - a) <= 21 / 10 * A.
  apply: sq_le; first lra.
  rewrite -Rabs_mult Rabs_pos_eq; last exact: Rle_0_sqr.
  by rewrite uu_eq; apply: Rmult_le_compat; lra.
have h1 : Rabs (- dl * (x k - a)) <= E * (21 / 10 * A).
  by apply: abs_mul_le => //; rewrite Rabs_Ropp.
have h2 : Rabs (2 * dotr uh x - M) <= 8 * E * (A * A).
  have -> : 2 * dotr uh x - M = (N - A * A) + (2 * (a * (dl * (x k - a))) - (dl * (x k - a)) * (dl * (x k - a))).
    by rewrite ux_eq M_eq uhk -AA; ring.
  have h3 : Rabs (dl * (x k - a)) <= E * (21 / 10 * A) by apply: abs_mul_le.
  have h4 : Rabs (a * (dl * (x k - a))) <= A * (E * (21 / 10 * A)) by apply: abs_mul_le => //; apply: Rle_refl.
  have h5 : Rabs (dl * (x k - a) * (dl * (x k - a))) <= E * (21 / 10 * A) * (/ 64 * (21 / 10 * A)).
    apply: abs_mul_le => //; apply: Rle_trans h3 _; apply: Rmult_le_compat_r; lra.
  apply: Rle_trans (Rabs_triang _ _) _.
  have h6 : Rabs (N - A * A) <= 3 * E * (A * A) by apply: Rabs_le; lra.
  have h7 := Rabs_triang (2 * (a * (dl * (x k - a)))) (- (dl * (x k - a) * (dl * (x k - a)))).
  rewrite Rabs_Ropp Rabs_mult (Rabs_pos_eq 2) in h7; last lra.
  have e1 : A * (E * (21 / 10 * A)) = 21 / 10 * (E * (A * A)) by field.
  have e2 : E * (21 / 10 * A) * (/ 64 * (21 / 10 * A)) = 441 / 6400 * (E * (A * A)) by field.
  have e3 : 3 * E * (A * A) = 3 * (E * (A * A)) by ring.
  have e4 : 8 * E * (A * A) = 8 * (E * (A * A)) by ring.
  have p : 0 <= E * (A * A) by apply: Rmult_le_pos; lra.
  rewrite e1 in h4; rewrite e2 in h5; rewrite e3 in h6; rewrite e4; rewrite /Rminus in h4 h5 h6 h7 *; lra.
have h3 : Rabs rho * nrm uh <= 8 * E * A.
  have -> : Rabs rho * nrm uh = Rabs (2 * dotr uh x - M) / nrm uh.
    rewrite /rho /Rdiv Rabs_mult Rabs_inv (Rabs_pos_eq M); last lra.
    by rewrite -r_sq; field; lra.
  apply: (Rmult_le_reg_r (nrm uh)) => //.
  have -> : Rabs (2 * dotr uh x - M) / nrm uh * nrm uh = Rabs (2 * dotr uh x - M) by field; lra.
  apply: Rle_trans h2 _; have -> : 8 * E * (A * A) = 8 * E * A * A by ring.
  apply: Rmult_le_compat_l; last exact: r_lo.
  by apply: Rmult_le_pos; lra.
have ax : E * A <= E * (11 / 10 * nrm x) by apply: Rmult_le_compat_l => //; apply: A_nx.
have e1 : E * (21 / 10 * A) = 21 / 10 * (E * A) by field.
have e2 : 8 * E * A = 8 * (E * A) by ring.
have e3 : E * (11 / 10 * nrm x) = 11 / 10 * (E * nrm x) by field.
have e4 : 12 * E * nrm x = 12 * (E * nrm x) by ring.
have p : 0 <= E * nrm x by apply: Rmult_le_pos => //; apply: nrm_ge0.
rewrite e1 in h1; rewrite e2 in h3; rewrite e3 in ax; rewrite e4; lra.
Qed.

(** the other columns *)
Variables (y y' : nat -> R) (s b f w0 eta : R).
Hypothesis w00 : 0 <= w0.
Hypothesis et0 : 0 <= eta.
Hypothesis hs : Rabs (s - dotr uh y) <= E * (nrm uh * nrm y) + w0.
Hypothesis hb : Rabs (b - a * uh k) <= 2 * E * B.
Hypothesis hf : Rabs (s - f * b) <= E * Rabs (f * b) + eta * Rabs b.
Hypothesis hy : forall i, (i < m)%N -> Rabs (y' i - (y i + f * uh i)) <= E * Rabs (y i) + 3 * E * (Rabs f * Rabs (uh i)) + 2 * eta.

Lemma hh_col : nrm (fun i => y' i - house m uh y i) <= 25 * E * nrm y + (3 * eta * nrm uh + 3 * w0 / nrm uh + 2 * (INR m * eta)).
Proof.
have Mp := M_gt0; have rp := r_gt0; have Bp := B_gt0; have bm := B_M.
have hs' := hs.
set r := nrm uh in rp hs' *; set Y := nrm y in hs' *; set sg' := dotr uh y in hs' *.
have Y0 : 0 <= Y by apply: nrm_ge0.
have rr : r * r = M by apply: r_sq.
have rY : 0 <= r * Y by apply: Rmult_le_pos; lra.
have sY : Rabs sg' <= r * Y by apply: nrm_cs.
have f0 := Rabs_pos f.
have bB : Rabs (b + B) <= 2 * E * B by have -> : b + B = b - a * uh k by [rewrite /B; ring]; exact: hb.
have Bb : B * E <= B * / 64 by apply: Rmult_le_compat_l; lra.
have ab : Rabs b <= 11 / 10 * B.
  apply: Rabs_le; have := Rabs_bound bB; have -> : 2 * E * B = 2 * (B * E) by ring.
  by lra.
have ab0 := Rabs_pos b.
set q := Rabs f * B; set Q := Rabs f * M.
have q0 : 0 <= q by apply: Rmult_le_pos; lra.
have qQ : q <= 53 / 100 * Q.
  have -> : 53 / 100 * Q = Rabs f * (53 / 100 * M) by rewrite /Q; ring.
  by apply: Rmult_le_compat_l.
have EQ : 0 <= E * q by apply: Rmult_le_pos.
(* |f B + sigma| *)
have h1 : Rabs (f * B + sg') <= 31 / 10 * (E * q) + 11 / 10 * (eta * B) + E * (r * Y) + w0.
  have -> : f * B + sg' = f * (b + B) + ((s - f * b) + (- (s - sg'))) by ring.
  apply: Rle_trans (Rabs_triang _ _) _.
  have t1 := Rabs_triang (s - f * b) (- (s - sg')); rewrite Rabs_Ropp in t1.
  have t2 : Rabs (f * (b + B)) <= Rabs f * (2 * E * B) by apply: abs_mul_le => //; apply: Rle_refl.
  have t3 : E * Rabs (f * b) <= E * (Rabs f * (11 / 10 * B)).
    by apply: Rmult_le_compat_l => //; apply: abs_mul_le => //; apply: Rle_refl.
  have t4 : eta * Rabs b <= eta * (11 / 10 * B) by apply: Rmult_le_compat_l.
  have e1 : Rabs f * (2 * E * B) = 2 * (E * q) by rewrite /q; ring.
  have e2 : E * (Rabs f * (11 / 10 * B)) = 11 / 10 * (E * q) by rewrite /q; field.
  have e3 : eta * (11 / 10 * B) = 11 / 10 * (eta * B) by field.
  rewrite e1 in t2; rewrite e2 in t3; rewrite e3 in t4; lra.
set w1 := 22 / 10 * (eta * B) + 2 * w0.
have eB : 0 <= eta * B by apply: Rmult_le_pos; lra.
have w10 : 0 <= w1 by rewrite /w1; lra.
have h2 : Rabs (f * M + 2 * sg') <= 65 / 10 * (E * Q) + 2 * (E * (r * Y)) + w1.
  have -> : f * M + 2 * sg' = f * (M - 2 * B) + 2 * (f * B + sg') by ring.
  apply: Rle_trans (Rabs_triang _ _) _; rewrite (Rabs_mult 2) (Rabs_pos_eq 2); last lra.
  have t2 : Rabs (f * (M - 2 * B)) <= Rabs f * (6 * E * B) by apply: abs_mul_le; [exact: Rle_refl|exact: MB].
  have e1 : Rabs f * (6 * E * B) = 6 * (E * q) by rewrite /q; ring.
  have t3 : E * q <= E * (53 / 100 * Q) by apply: Rmult_le_compat_l.
  have e3 : E * (53 / 100 * Q) = 53 / 100 * (E * Q) by field.
  rewrite e1 in t2; rewrite e3 in t3; rewrite /w1; lra.
have Q0 : 0 <= Q by apply: Rmult_le_pos; lra.
have EQ' : E * Q <= / 64 * Q by apply: Rmult_le_compat_r; lra.
have ErY : E * (r * Y) <= / 64 * (r * Y) by apply: Rmult_le_compat_r; lra.
have Ew : E * w1 <= / 64 * w1 by apply: Rmult_le_compat_r; lra.
have h3 : Q <= 23 / 10 * (r * Y) + 12 / 10 * w1.
  have : Q <= 2 * Rabs sg' + Rabs (f * M + 2 * sg').
    have -> : Q = Rabs (f * M) by rewrite Rabs_mult (Rabs_pos_eq M) //; lra.
    have -> : f * M = (f * M + 2 * sg') + - (2 * sg') by ring.
    apply: Rle_trans (Rabs_triang _ _) _; rewrite Rabs_Ropp (Rabs_mult 2) (Rabs_pos_eq 2); last lra.
    by have -> : f * M + 2 * sg' + - (2 * sg') + 2 * sg' = f * M + 2 * sg' by [ring]; lra.
  lra.
have h4 : Rabs (f * M + 2 * sg') <= 17 * (E * (r * Y)) + 12 / 10 * w1.
  have : E * Q <= E * (23 / 10 * (r * Y) + 12 / 10 * w1) by apply: Rmult_le_compat_l.
  have -> : E * (23 / 10 * (r * Y) + 12 / 10 * w1) = 23 / 10 * (E * (r * Y)) + 12 / 10 * (E * w1) by field.
  have : 0 <= E * (r * Y) by apply: Rmult_le_pos.
  lra.
(* divide by r *)
have h5 : Rabs (f + 2 * sg' / M) * r <= 17 * (E * Y) + 12 / 10 * (w1 / r).
  have -> : Rabs (f + 2 * sg' / M) * r = Rabs (f * M + 2 * sg') / r.
    have -> : f * M + 2 * sg' = (f + 2 * sg' / M) * M by field; lra.
    by rewrite Rabs_mult (Rabs_pos_eq M); [rewrite -rr; field; lra|lra].
  apply: (Rmult_le_reg_r r) => //.
  have -> : Rabs (f * M + 2 * sg') / r * r = Rabs (f * M + 2 * sg') by field; lra.
  have -> : (17 * (E * Y) + 12 / 10 * (w1 / r)) * r = 17 * (E * (r * Y)) + 12 / 10 * w1 by field; lra.
  exact: h4.
have h6 : Rabs f * r <= 23 / 10 * Y + 12 / 10 * (w1 / r).
  apply: (Rmult_le_reg_r r) => //.
  have -> : Rabs f * r * r = Q by rewrite /Q -rr; ring.
  have -> : (23 / 10 * Y + 12 / 10 * (w1 / r)) * r = 23 / 10 * (r * Y) + 12 / 10 * w1 by field; lra.
  exact: h3.
apply: Rle_trans (@nrm_tri3 m _ _ (fun i => y i + f * uh i)) _.
have h7 : nrm (fun i => y i + f * uh i - house m uh y i) <= 17 * (E * Y) + 12 / 10 * (w1 / r).
  rewrite (nrm_ext (v' := fun i => (f + 2 * sg' / M) * uh i)); last by move=> i _; rewrite /house -/M -/sg'; ring.
  by rewrite nrm_scal.
have h8 : nrm (fun i => y' i - (y i + f * uh i)) <= E * Y + 3 * E * (Rabs f * r) + INR m * (2 * eta).
  apply: Rle_trans (@nrm_mono m _ (fun i => (E * Rabs (y i) + (3 * E * Rabs f) * Rabs (uh i)) + 2 * eta) _) _.
    by move=> i hi; have := hy hi; lra.
  apply: Rle_trans (nrm_tri _ _ _) _.
  have t1 := @nrm_cst m (2 * eta).
  have t2 := nrm_tri m (fun i => E * Rabs (y i)) (fun i => 3 * E * Rabs f * Rabs (uh i)).
  rewrite !nrm_scal !nrm_abs -/r -/Y in t2.
  have a1 : Rabs E = E by rewrite Rabs_pos_eq.
  have a2 : Rabs (3 * E * Rabs f) = 3 * E * Rabs f by rewrite Rabs_pos_eq //; apply: Rmult_le_pos => //; lra.
  rewrite a1 a2 in t2; lra.
have w1r : 0 <= w1 / r by apply: Rmult_le_pos => //; left; apply: Rinv_0_lt_compat.
have h9 : 3 * E * (Rabs f * r) <= 69 / 10 * (E * Y) + 36 / 640 * (w1 / r).
  have t : 3 * E * (Rabs f * r) <= 3 * E * (23 / 10 * Y + 12 / 10 * (w1 / r)) by apply: Rmult_le_compat_l; lra.
  have t2 : E * (w1 / r) <= / 64 * (w1 / r) by apply: Rmult_le_compat_r; lra.
  lra.
have h10 : w1 / r <= 12 / 10 * (eta * r) + 2 * (w0 / r).
  have -> : w1 / r = 22 / 10 * (eta * (B / r)) + 2 * (w0 / r) by rewrite /w1; field; lra.
  have : eta * (B / r) <= eta * (53 / 100 * r).
    apply: Rmult_le_compat_l => //; apply: (Rmult_le_reg_r r) => //.
    have -> : B / r * r = B by field; lra.
    by have -> : 53 / 100 * r * r = 53 / 100 * M by [rewrite -rr; field].
  have : 0 <= eta * r by apply: Rmult_le_pos; lra.
  lra.
have er : 0 <= eta * r by apply: Rmult_le_pos; lra.
have wr : 0 <= w0 / r by apply: Rmult_le_pos => //; left; apply: Rinv_0_lt_compat.
have -> : 3 * w0 / r = 3 * (w0 / r) by field; lra.
have EY : 0 <= E * Y by apply: Rmult_le_pos.
lra.
Qed.
End HH.
