(** * FloatQR: rounding analysis of qr.rs (new, get_r, get_h) in f64 *)
From Coq Require Import ZArith Reals Lra Psatz.
From Flocq Require Import Core BinarySingleNaN.
From mathcomp Require Import all_ssreflect zify.
From Verif Require Import Base Scalar B64 SpecFloat64 LUEval QREval FloatBase FloatLU FloatChol FloatCholThms FloatCholFull RealVec QRReal.

Set Implicit Arguments.
Unset Strict Implicit.
Unset Printing Implicit Defensive.
Local Open Scope R_scope.

(** ** powers of two *)
Lemma p2_gt0 k : 0 < 2 ^ k. Proof. by apply: pow_lt; lra. Qed.
Lemma eta_pow (j k l : nat) : (j + k + l <= 1075)%N -> eta64 * 2 ^ j * 2 ^ k <= / 2 ^ l.
Proof.
move=> h; rewrite /eta64 !pow_bpow -!bpow_opp -!bpow_plus; apply: bpow_le; lia.
Qed.
Lemma eta_u : eta64 * 2 ^ 50 <= u64 * (/ 2 ^ 480 * / 2 ^ 480).
Proof. by rewrite /eta64 /u64 !pow_bpow -!bpow_opp -!bpow_plus; apply: bpow_le; lia. Qed.
Definition om64 : R := / 2 ^ 512.
Lemma om_gt0 : 0 < om64. Proof. by apply: Rinv_0_lt_compat; apply: p2_gt0. Qed.
Lemma eta_om2 : eta64 * 2 ^ 50 <= om64 * om64.
Proof. by rewrite /eta64 /om64 !pow_bpow -!bpow_opp -!bpow_plus; apply: bpow_le; lia. Qed.
Lemma eta_om j k : (j + k <= 553)%N -> eta64 * 2 ^ j * 2 ^ k <= om64 / 1024.
Proof.
move=> h; have -> : om64 / 1024 = / 2 ^ 522.
  have -> : 1024 = 2 ^ 10 by rewrite /=; lra.
  by rewrite /om64 /Rdiv !pow_bpow -!bpow_opp -bpow_plus.
by apply: eta_pow; lia.
Qed.
Lemma big_p : 3 * (2 ^ 510 * 2 ^ 510) <= big64.
Proof.
apply: (@Rle_trans _ (2 ^ 2 * (2 ^ 510 * 2 ^ 510))).
  apply: Rmult_le_compat_r; last by lra.
  by apply: Rmult_le_pos; left; apply: p2_gt0.
by rewrite /big64 !pow_bpow -!bpow_plus; apply: bpow_le; lia.
Qed.

Section Step.
Variables m n k : nat.
Hypothesis km : (k < m)%N.
Hypothesis kn : (k < n)%N.
Variable f : nat -> nat -> b64.
Let E := err (m + 3).
Hypothesis E1 : 64 * E <= 1.
Let qa := q_a (S:=B64) bsqrt m k f.
Let qu := q_u (S:=B64) bsqrt m k f.
Let qs := q_step (S:=B64) bdiv bsqrt m k f.
Let a := rv qa.
Hypothesis fa : finite qa.
Hypothesis ra : a = 0 \/ / 2 ^ 480 <= Rabs a <= 2 ^ 510.
Hypothesis ff : forall i j, (i < m)%N -> (j < n)%N -> finite (f i j).
Hypothesis fs : forall i j, (i < m)%N -> (j < n)%N -> finite (qs i j).

Lemma E_ge0 : 0 <= E. Proof. exact: err_ge0. Qed.
Lemma u_E : u64 <= E. Proof. by rewrite -err1; apply: err_le; lia. Qed.
Lemma m_le : INR m <= 2 ^ 47.
Proof.
have h : INR (m + 3) * u64 <= / 64 by apply: Rle_trans (bern _) _; rewrite -/E; lra.
have : INR m <= INR (m + 3) by apply: le_INR; lia.
have -> : 2 ^ 47 = / 64 / u64.
  have -> : u64 = / (64 * 2 ^ 47) by rewrite /u64 (pow_add 2 6 47); congr (/ (_ * _)); rewrite /=; lra.
  by have := p2_gt0 47; set v := 2 ^ 47 => v0; field; lra.
have u0 := u64_gt0 => h2.
apply: (Rmult_le_reg_r u64) => //; have -> : / 64 / u64 * u64 = / 64 by field; lra.
apply: Rle_trans h; apply: Rmult_le_compat_r => //; lra.
Qed.
Lemma grow_le2 j : (j <= m + 3)%N -> grow j <= 65 / 64.
Proof. by move=> h; apply: Rle_trans (grow_le h) _; have : err (m + 3) <= / 64 by [rewrite -/E; lra]; rewrite /err; lra. Qed.
Lemma w_le l j : (l <= m)%N -> (j <= m + 3)%N -> INR l * (grow j * eta64) <= eta64 * 2 ^ 48.
Proof.
move=> hl hj; have e0 := eta64_gt0; have g := grow_le2 hj; have g1 := grow_ge1 j.
have h : INR l <= 2 ^ 47 by apply: Rle_trans m_le; apply: le_INR; lia.
have -> : eta64 * 2 ^ 48 = 2 ^ 47 * (2 * eta64) by rewrite (pow_add 2 47 1); ring.
apply: Rmult_le_compat => //; first exact: pos_INR.
  by apply: Rmult_le_pos; lra.
by apply: Rmult_le_compat_r; lra.
Qed.

Lemma sh_sum (G : nat -> R) : rsumn (m - k) (fun i => G (k + i)%N) = rsumn m (fun i => if (k <= i < m)%N then G i else 0).
Proof.
rewrite (@rsumn_split m (fun i => if (k <= i < m)%N then G i else 0) k); last lia.
rewrite [rsumn k _]rsumn_z; last by move=> i hi; have -> : (k <= i < m)%N = false by lia.
by rewrite Rplus_0_l; apply: rsumn_ext => i hi; have -> : (k <= k + i < m)%N by lia.
Qed.

Definition xr (i : nat) : R := if (k <= i < m)%N then rv (f i k) else 0.
Lemma xr_dot : rsumn (m - k) (fun i => rv (f (k + i)%N k) * rv (f (k + i)%N k)) = dotr m xr xr.
Proof.
rewrite (sh_sum (fun i => rv (f i k) * rv (f i k))); apply: rsumn_ext => i hi; rewrite /xr; case: ifP => // _; ring.
Qed.

Lemma a_norm : Rabs (a * a - dotr m xr xr) <= E * dotr m xr xr + eta64 * 2 ^ 48.
Proof.
have [r [fr sr]] : exists r, r = Bsqrt mode_NE (dot64 b64_zero (m - k) (fun i => f (k + i)%N k) (fun i => f (k + i)%N k)) /\
   (qa = r \/ qa = Bopp r).
  by eexists; split; [reflexivity|rewrite /qa /q_a; case: s_ltb; [right|left]].
have Fr : finite r by case: sr => e; move: fa; rewrite e // /finite is_finite_Bopp.
have ar : a * a = rv r * rv r by rewrite /a; case: sr => -> //; rewrite /rv B2R_Bopp; ring.
have := @norm64_err (m - k) (fun i => f (k + i)%N k); rewrite -fr => /(_ Fr) [_ _].
rewrite ar xr_dot => h; apply: Rle_trans h _; apply: Rplus_le_compat; last by apply: w_le; lia.
by apply: Rmult_le_compat_r; [apply: dotr_ge0|apply: err_le; lia].
Qed.

Lemma fkk : finite (f k k). Proof. exact: ff. Qed.
Lemma a_sign : xr k * a <= 0.
Proof.
have hx : xr k = rv (f k k) by rewrite /xr leqnn km.
have pr : 0 <= rv (bsqrt (qdot (S:=B64) m k (fun i => f i k) (fun i => f i k))).
  have : finite (bsqrt (qdot (S:=B64) m k (fun i => f i k) (fun i => f i k))).
    by move: fa; rewrite /qa /q_a; case: s_ltb; rewrite // /finite is_finite_Bopp.
  by move=> /sqrt_sq_err [].
rewrite hx /a /qa /q_a.
have -> : s_ltb (s:=B64) (n_zero B64) (f k k) = Rlt_bool 0 (rv (f k k)).
  exact: (Bltb_correct b_prec b_emax b64_zero (f k k) erefl fkk).
case: Rlt_bool_spec => h; last by nra.
set r := bsqrt _ in pr *.
have -> : rv (n_neg (n:=B64) r) = - rv r by exact: (B2R_Bopp b_prec b_emax r).
by nra.
Qed.

(** the reflection vector *)
Definition ug (i : nat) : R := if Beqb qa b64_zero then 0 else if (k <= i < m)%N then rv (qu i) else 0.
Lemma eqa0 : Beqb qa b64_zero = true <-> a = 0.
Proof. by rewrite eqb0 // -/a; case: Req_bool_spec => h; split. Qed.

Lemma ug_low i : (i < k)%N -> ug i = 0.
Proof. by move=> h; rewrite /ug; case: ifP => // _; rewrite leqNgt h. Qed.

(** zero pivot *)
Lemma zero_pivot : a = 0 -> nrm m xr <= om64.
Proof.
move=> z; have o0 := om_gt0; apply: sq_le; first lra.
rewrite nrm_sq; have := Rabs_bound a_norm; rewrite z Rmult_0_l => h.
have p := dotr_ge0 m xr.
have : E * dotr m xr xr <= / 64 * dotr m xr xr by apply: Rmult_le_compat_r; lra.
have : eta64 * 2 ^ 50 = 4 * (eta64 * 2 ^ 48) by rewrite (pow_add 2 2 48) /=; ring.
have : 0 <= eta64 * 2 ^ 48 by apply: Rmult_le_pos; [left; apply: eta64_gt0|left; apply: p2_gt0].
by have := eta_om2; lra.
Qed.

Section Nonzero.
Hypothesis az : a <> 0.
Lemma a_rng : / 2 ^ 480 <= Rabs a <= 2 ^ 510. Proof. by case: ra. Qed.
Lemma aa : a * a = Rabs a * Rabs a. Proof. by rewrite -Rabs_mult Rabs_pos_eq //; apply: Rle_0_sqr. Qed.
Lemma eta_aa : eta64 * 2 ^ 50 <= u64 * (a * a).
Proof.
have [h _] := a_rng; apply: Rle_trans eta_u _; apply: Rmult_le_compat_l; first by left; apply: u64_gt0.
have p : 0 < / 2 ^ 480 by apply: Rinv_0_lt_compat; apply: p2_gt0.
by rewrite aa; apply: Rmult_le_compat; lra.
Qed.
Lemma eta48 : eta64 * 2 ^ 48 <= E * (a * a).
Proof.
have : eta64 * 2 ^ 50 = 4 * (eta64 * 2 ^ 48) by rewrite (pow_add 2 2 48) /=; ring.
have : 0 <= eta64 * 2 ^ 48 by apply: Rmult_le_pos; [left; apply: eta64_gt0|left; apply: p2_gt0].
have : u64 * (a * a) <= E * (a * a) by apply: Rmult_le_compat_r; [apply: Rle_0_sqr|apply: u_E].
by have := eta_aa; lra.
Qed.

Lemma hN : Rabs (a * a - dotr m xr xr) <= 3 * E * (a * a).
Proof.
have h := a_norm; have e := eta48; have p := dotr_ge0 m xr; have q : 0 <= a * a by apply: Rle_0_sqr.
have [b1 b2] := Rabs_bound h.
have i1 : E * dotr m xr xr <= / 64 * dotr m xr xr by apply: Rmult_le_compat_r; lra.
have i2 : E * (a * a) <= / 64 * (a * a) by apply: Rmult_le_compat_r; lra.
have : dotr m xr xr <= 11 / 10 * (a * a) by lra.
have E0 := E_ge0 => i3; have : E * dotr m xr xr <= E * (11 / 10 * (a * a)) by apply: Rmult_le_compat_l.
have : 0 <= E * (a * a) by apply: Rmult_le_pos.
lra.
Qed.

Lemma qaN : Beqb qa b64_zero = false.
Proof. by apply/negbTE/negP => /eqa0. Qed.
Lemma ugE i : (k <= i < m)%N -> ug i = rv (qu i).
Proof. by move=> h; rewrite /ug qaN h. Qed.
Lemma fqu i : (k <= i < m)%N -> finite (qu i).
Proof.
move=> h; have := @fs i k; rewrite /qs /q_step -/qa -/qu.
rewrite [s_eqb _ _]qaN eqxx => H; apply: H => //; lia.
Qed.
Lemma ug_k : exists dl, Rabs dl <= E /\ ug k = (xr k - a) * (1 + dl).
Proof.
have hk : (k <= k < m)%N by rewrite leqnn.
have F := fqu hk; have := F; rewrite ugE // /qu /q_u eqxx => /sub_finite [_ _ ->].
have [[d [hd e]] _] := rnd_add (fmt_rv (f k k)) (generic_format_opp _ _ _ (fmt_rv qa)).
exists d; split; first by apply: Rle_trans hd u_E.
by rewrite -/qa /xr hk; apply: e.
Qed.
Lemma ug_o i : (i < m)%N -> i != k -> ug i = xr i.
Proof.
move=> hi ni; rewrite /xr; case: (boolP (k <= i < m)%N) => h; last by rewrite /ug qaN (negPf h).
by rewrite ugE // /qu /q_u (negPf ni).
Qed.

Lemma ug_pos : 0 < dotr m ug ug.
Proof. by have [dl [hd e]] := ug_k; apply: (M_gt0 km E_ge0 E1 az a_sign hd hN e ug_o). Qed.

Lemma quk_nz : rv (qu k) <> 0.
Proof.
have hk : (k <= k < m)%N by rewrite leqnn.
have [dl [hd e]] := ug_k; have := B_gt0 E1 az a_sign hd e.
by rewrite (ugE hk) => h z; rewrite z Rmult_0_r in h; lra.
Qed.

Lemma pivot_err : nrm m (fun i => house m ug xr i - unitv k a i) <= 12 * E * nrm m xr.
Proof. by have [dl [hd e]] := ug_k; apply: (hh_pivot km E_ge0 E1 az a_sign hd hN e ug_o). Qed.

Lemma abs_rng : Rabs a * Rabs a <= 2 ^ 510 * 2 ^ 510.
Proof. by have [_ h] := a_rng; apply: Rmult_le_compat => //; apply: Rabs_pos. Qed.

(** a column y that the step transforms into y', floats *)
Section Col.
Variables yv yw : nat -> b64.
Let b := Bmult mode_NE qa (qu k).
Let s := qdot (S:=B64) m k qu yv.
Let fac := bdiv s b.
Hypothesis yw_hi : forall i, (k <= i < m)%N -> yw i = Bplus mode_NE (yv i) (Bmult mode_NE fac (qu i)).
Hypothesis yw_lo : forall i, (i < k)%N -> yw i = yv i.
Hypothesis yw_fin : forall i, (i < m)%N -> finite (yw i).

Lemma ffac : finite fac.
Proof.
have hk : (k <= k < m)%N by rewrite leqnn.
have := yw_fin km; rewrite yw_hi // => /add_finite [_ F _]; have := F => /mul_finite [] //.
Qed.
Lemma b_err : finite b /\ Rabs (rv b - a * ug k) <= 2 * E * (- a * ug k).
Proof.
have hk : (k <= k < m)%N by rewrite leqnn.
have [dl [hd e]] := ug_k.
have bl := B_lo E1 az a_sign hd e.
have al := AT_lo k xr az.
have bh := B_hi E1 az a_sign hd e.
have ah := AT_hi km E1 az hN.
have ab := abs_rng; have bp := B_gt0 E1 az a_sign hd e.
have aug : Rabs (a * ug k) = - a * ug k.
  by rewrite Rabs_left1; lra.
have Fb : finite b.
  apply: mul_ok64 => //; first exact: fqu.
  rewrite -(ugE hk) -/a aug; apply: Rle_trans big_p; lra.
split=> //; have := Fb => /mul_finite [_ _ ->]; rewrite -(ugE hk) -/a.
have [d [et [hd2 het ->]]] := rnd_mul (a * ug k).
have -> : a * ug k * (1 + d) + et - a * ug k = a * ug k * d + et by ring.
apply: Rle_trans (Rabs_triang _ _) _.
have h1 : Rabs (a * ug k * d) <= (- a * ug k) * u64 by apply: abs_mul_le => //; rewrite aug; apply: Rle_refl.
have h2 : (- a * ug k) * u64 <= (- a * ug k) * E by apply: Rmult_le_compat_l; [lra|apply: u_E].
have h3 : eta64 <= E * (- a * ug k).
  have q1 : E * (a * a) <= E * (2 * (- a * ug k)).
    apply: Rmult_le_compat_l; first exact: E_ge0.
    by rewrite aa; have := AA0 az; lra.
  have q2 := eta48; have q3 : eta64 * 2 ^ 2 <= eta64 * 2 ^ 48.
    by apply: Rmult_le_compat_l; [left; apply: eta64_gt0|apply: Rle_pow; [lra|apply/leP]].
  by rewrite /= in q3; have := eta64_gt0; lra.
lra.
Qed.

Lemma col_err : nrm m (fun i => rv (yw i) - house m ug (fun i => rv (yv i)) i) <= 25 * E * nrm m (fun i => rv (yv i)) + om64.
Proof.
have hk : (k <= k < m)%N by rewrite leqnn.
have [dl [hd e]] := ug_k.
have [Fb hb] := b_err; have Ff := ffac.
have e0 := eta64_gt0; have uE := u_E; have E0 := E_ge0; have u0 := u64_gt0.
have [Fs b0 hf] := div_back Fb Ff.
have [fk hs] := dot64_err Fs.
set y := fun i => rv (yv i).
have hs' : Rabs (rv s - dotr m ug y) <= E * (nrm m ug * nrm m y) + eta64 * 2 ^ 48.
  have -> : dotr m ug y = rsumn (m - k) (fun i => rv (qu (k + i)%N) * rv (yv (k + i)%N)).
    rewrite (sh_sum (fun i => rv (qu i) * rv (yv i))); apply: rsumn_ext => i hi.
    by rewrite /ug qaN; case: ifP => // _; ring.
  apply: Rle_trans hs _; apply: Rplus_le_compat; last by apply: w_le; lia.
  have c := nrm_cs_abs m ug y.
  apply: Rle_trans (Rmult_le_compat_l _ _ _ E0 c).
  rewrite (sh_sum (fun i => Rabs (rv (qu i)) * Rabs (rv (yv i)))).
  have -> : rsumn m (fun i => if (k <= i < m)%N then Rabs (rv (qu i)) * Rabs (rv (yv i)) else 0) = rsumn m (fun i => Rabs (ug i) * Rabs (y i)).
    by apply: rsumn_ext => i hi; rewrite /ug qaN; case: ifP => // _; rewrite Rabs_R0; ring.
  apply: Rmult_le_compat_r; last by apply: err_le; lia.
  by apply: rsumn_ge0 => i _; apply: Rmult_le_pos; apply: Rabs_pos.
have hf' : Rabs (rv s - rv fac * rv b) <= E * Rabs (rv fac * rv b) + eta64 * Rabs (rv b).
  apply: Rle_trans hf _; apply: Rplus_le_compat_r; apply: Rmult_le_compat_r => //; exact: Rabs_pos.
have hy i : (i < m)%N -> Rabs (rv (yw i) - (y i + rv fac * ug i)) <=
   E * Rabs (y i) + 3 * E * (Rabs (rv fac) * Rabs (ug i)) + 2 * eta64.
  move=> hi; have y0 := Rabs_pos (y i); have f0 := Rabs_pos (rv fac); have g0 := Rabs_pos (ug i).
  have p1 : 0 <= E * Rabs (y i) by apply: Rmult_le_pos.
  have p2 : 0 <= Rabs (rv fac) * Rabs (ug i) by apply: Rmult_le_pos.
  have p3 : 0 <= E * (Rabs (rv fac) * Rabs (ug i)) by apply: Rmult_le_pos.
  case: (leqP k i) => ki; last first.
    have -> : rv (yw i) - (y i + rv fac * ug i) = 0 by rewrite yw_lo // ug_low // /y; ring.
    by rewrite Rabs_R0; lra.
  have hi' : (k <= i < m)%N by rewrite ki.
  have := yw_fin hi; rewrite yw_hi // => /add_finite [_ Fp ->].
  have := Fp => /mul_finite [_ _ ep].
  have [[d2 [hd2 ->]] _] := rnd_add (fmt_rv (yv i)) (fmt_rv (Bmult mode_NE fac (qu i))).
  rewrite ep -(ugE hi'); have [d [et [hd3 het ->]]] := rnd_mul (rv fac * ug i).
  rewrite -/(y i).
  have -> : (y i + (rv fac * ug i * (1 + d) + et)) * (1 + d2) - (y i + rv fac * ug i) =
     (rv fac * ug i) * d + (et + d2 * ((y i + rv fac * ug i) + (rv fac * ug i * d + et))) by ring.
  have t1 : Rabs (rv fac * ug i * d) <= (Rabs (rv fac) * Rabs (ug i)) * u64.
    by apply: abs_mul_le => //; rewrite Rabs_mult; apply: Rle_refl.
  have t2 := Rabs_triang (rv fac * ug i * d) et.
  have t3 := Rabs_triang (y i) (rv fac * ug i); rewrite Rabs_mult in t3.
  have t4 := Rabs_triang (y i + rv fac * ug i) (rv fac * ug i * d + et).
  set G := Rabs (rv fac) * Rabs (ug i) in p2 p3 t1 t3 *.
  have ul := u64_lt1.
  have Gu : G * u64 <= G * / 1024 by apply: Rmult_le_compat_l; lra.
  have t5 : Rabs (d2 * ((y i + rv fac * ug i) + (rv fac * ug i * d + et))) <= u64 * (Rabs (y i) + 11 / 10 * G + eta64).
    apply: abs_mul_le => //; lra.
  have t6 := Rabs_triang (rv fac * ug i * d) (et + d2 * (y i + rv fac * ug i + (rv fac * ug i * d + et))).
  have t7 := Rabs_triang et (d2 * (y i + rv fac * ug i + (rv fac * ug i * d + et))).
  have v1 : u64 * Rabs (y i) <= E * Rabs (y i) by apply: Rmult_le_compat_r.
  have v2 : u64 * G <= E * G by apply: Rmult_le_compat_r.
  have v3 : u64 * eta64 <= / 1024 * eta64 by apply: Rmult_le_compat_r; lra.
  have v4 : u64 * (Rabs (y i) + 11 / 10 * G + eta64) = u64 * Rabs (y i) + 11 / 10 * (u64 * G) + u64 * eta64 by field.
  have v5 : G * u64 = u64 * G by ring.
  rewrite v4 in t5; rewrite v5 in t1; lra.
have w48 : 0 <= eta64 * 2 ^ 48 by apply: Rmult_le_pos; [lra|left; apply: p2_gt0].
have := @hh_col m k xr a dl E km E0 E1 az a_sign hd hN ug e ug_o y (fun i => rv (yw i)) (rv s) (rv b) (rv fac) (eta64 * 2 ^ 48) eta64
  w48 (Rlt_le _ _ e0) hs' hb hf' hy.
have rh := r_hi km E0 E1 az a_sign hd hN e ug_o.
have rl := r_lo km E0 E1 az a_sign hd hN e ug_o.
have [a1 a2] := a_rng; have p480 : 0 < / 2 ^ 480 by apply: Rinv_0_lt_compat; apply: p2_gt0.
move=> h; apply: Rle_trans h _; apply: Rplus_le_compat_l.
have g1 : eta64 * nrm m ug <= 5 / 2 * (eta64 * 2 ^ 510).
  have -> : 5 / 2 * (eta64 * 2 ^ 510) = eta64 * (5 / 2 * 2 ^ 510) by field.
  by apply: Rmult_le_compat_l; lra.
have g2 : eta64 * 2 ^ 48 / nrm m ug <= eta64 * 2 ^ 48 * 2 ^ 480.
  apply: Rmult_le_compat_l => //; rewrite -(Rinv_inv (2 ^ 480)).
  by apply: Rinv_le_contravar => //; lra.
have g3 : INR m * eta64 <= eta64 * 2 ^ 47.
  by rewrite Rmult_comm; apply: Rmult_le_compat_l; [lra|apply: m_le].
have o0 := om_gt0.
have z1 : eta64 * 2 ^ 510 * 2 ^ 0 <= om64 / 1024 by apply: eta_om.
have z2 : eta64 * 2 ^ 48 * 2 ^ 480 <= om64 / 1024 by apply: eta_om.
have z3 : eta64 * 2 ^ 47 * 2 ^ 0 <= om64 / 1024 by apply: eta_om.
rewrite pow_O Rmult_1_r in z1; rewrite pow_O Rmult_1_r in z3.
have -> : 3 * (eta64 * 2 ^ 48) / nrm m ug = 3 * (eta64 * 2 ^ 48 / nrm m ug) by field; lra.
have -> : 3 * eta64 * nrm m ug = 3 * (eta64 * nrm m ug) by ring.
lra.
Qed.
End Col.

(** a column to the right of the pivot *)
Lemma col_err_qs j : (j < n)%N -> (k < j)%N ->
  nrm m (fun i => rv (qs i j) - house m ug (fun i => rv (f i j)) i) <= 25 * E * nrm m (fun i => rv (f i j)) + om64.
Proof.
move=> jn kj; apply: (@col_err (fun i => f i j) (fun i => qs i j)) => i h.
- rewrite /qs /q_step -/qa [s_eqb _ _]qaN; have -> : (j == k) = false by lia.
  by have -> : (k < j)%N && (k <= i)%N by lia.
- rewrite /qs /q_step -/qa [s_eqb _ _]qaN; have -> : (j == k) = false by lia.
  by have -> : (k < j)%N && (k <= i)%N = false by lia.
- exact: fs.
Qed.
End Nonzero.
End Step.

(** finiteness is inherited by the input of a step *)
Lemma step_down m n k f : (k < m)%N -> (k < n)%N ->
  (forall i j, (i < m)%N -> (j < n)%N -> finite (q_step (S:=B64) bdiv bsqrt m k f i j)) ->
  forall i j, (i < m)%N -> (j < n)%N -> finite (f i j).
Proof.
move=> km kn fs i j hi hj; have := fs i j hi hj; rewrite /q_step.
case: ifP => // _; case: (altP (j =P k)) => [->|nj].
  rewrite /q_u; case: (altP (i =P k)) => [->|//].
  by move=> /sub_finite [].
by case: ifP => // _ /add_finite [].
Qed.

(** ** composition of the reflections *)
Section Compose.
Variables (m : nat) (u : nat -> nat -> R).
Hypothesis hu : forall k, dotr m (u k) (u k) = 0 -> forall i, u k i = 0.
Fixpoint trf (k : nat) (v : nat -> R) : nat -> R := if k is k'.+1 then trf k' (house m (u k') v) else v.

Lemma trf_ext k v w : (forall i, (i < m)%N -> v i = w i) -> forall i, (i < m)%N -> trf k v i = trf k w i.
Proof.
elim: k v w => [|k IH] v w h i hi; first exact: h.
by apply: IH => // l hl; apply: house_ext.
Qed.
Lemma trf_dot k v w : dotr m (trf k v) (trf k w) = dotr m v w.
Proof. by elim: k v w => [|k IH] v w //=; rewrite IH house_dot //; apply: hu. Qed.
Lemma trf_nrm k v : nrm m (trf k v) = nrm m v.
Proof. by rewrite /nrm trf_dot. Qed.
Lemma trf_lin k v w c i : (i < m)%N -> trf k (fun l => v l + c * w l) i = trf k v i + c * trf k w i.
Proof.
elim: k v w i => [|k IH] v w i hi //=.
rewrite -IH //; apply: trf_ext => // l _; exact: house_lin.
Qed.
Lemma trf_sub k v w i : (i < m)%N -> trf k (fun l => v l - w l) i = trf k v i - trf k w i.
Proof.
move=> hi; rewrite (@trf_ext k _ (fun l => v l + -1 * w l)) //; last by move=> l _; ring.
by rewrite trf_lin //; ring.
Qed.
Lemma trf_z k v i : (i < m)%N -> (forall l, (l < m)%N -> v l = 0) -> trf k v i = 0.
Proof.
move=> hi z; rewrite (@trf_ext k v (fun l => v l - v l)) //; last by move=> l hl; rewrite z //; ring.
by rewrite trf_sub //; ring.
Qed.
Lemma trf_mat k v i : (i < m)%N -> trf k v i = rsumn m (fun l => trf k (unitv l 1) i * v l).
Proof.
move=> hi.
suff H p : (p <= m)%N -> trf k (fun l => if (l < p)%N then v l else 0) i = rsumn p (fun l => trf k (unitv l 1) i * v l).
  by rewrite -H //; apply: trf_ext => // l ->.
elim: p => [|p IH] hp; first by rewrite rsumn0 trf_z.
rewrite rsumnS -IH; last exact: ltnW.
rewrite Rmult_comm -trf_lin //; apply: trf_ext => // l hl.
rewrite /unitv ltnS leq_eqVlt; case: (altP (l =P p)) => [->|nl] /=; first by rewrite ltnn; ring.
by case: (l < p)%N; ring.
Qed.

(** the error of a sequence of perturbed reflections *)
Variables (W : nat -> nat -> R) (r : nat) (c om : R).
Hypothesis c0 : 0 <= c.
Hypothesis om0 : 0 <= om.
Hypothesis HW : forall k, (k < r)%N -> nrm m (fun i => W k.+1 i - house m (u k) (W k) i) <= c * nrm m (W k) + om.

Lemma W_norm k : (k <= r)%N -> nrm m (W k) <= (1 + c) ^ k * (nrm m (W 0%N) + INR k * om).
Proof.
elim: k => [|k IH] hk; first by rewrite /=; lra.
have h := IH (ltnW hk); have h1 := HW hk.
have h2 := nrm_le_add m (W k.+1) (house m (u k) (W k)); rewrite (house_nrm _ (@hu k)) in h2.
have p : 1 <= (1 + c) ^ k by apply: pow_R1_Rle; lra.
rewrite S_INR -tech_pow_Rmult; have n0 := nrm_ge0 m (W 0%N).
have h3 : (1 + c) * nrm m (W k) <= (1 + c) * ((1 + c) ^ k * (nrm m (W 0%N) + INR k * om)).
  by apply: Rmult_le_compat_l => //; lra.
have h4 : om <= (1 + c) * (1 + c) ^ k * om.
  rewrite -{1}[om]Rmult_1_l; apply: Rmult_le_compat_r => //.
  by have : 1 * 1 <= (1 + c) * (1 + c) ^ k by [apply: Rmult_le_compat; lra]; lra.
have -> : (1 + c) * (1 + c) ^ k * (nrm m (W 0%N) + (INR k + 1) * om) =
  (1 + c) * ((1 + c) ^ k * (nrm m (W 0%N) + INR k * om)) + (1 + c) * (1 + c) ^ k * om by ring.
lra.
Qed.

Lemma W_err k : (k <= r)%N -> nrm m (fun i => W 0%N i - trf k (W k) i) <=
  ((1 + c) ^ k - 1) * nrm m (W 0%N) + INR k * ((1 + c) ^ k * om).
Proof.
elim: k => [|k IH] hk.
  by rewrite (@nrm_z m) => [|i _]; rewrite /=; lra.
have h := IH (ltnW hk); have h1 := HW hk; have wn := W_norm (ltnW hk).
apply: Rle_trans (@nrm_tri3 m _ _ (trf k (W k))) _.
have -> : nrm m (fun i => trf k (W k) i - trf k.+1 (W k.+1) i) = nrm m (fun i => W k.+1 i - house m (u k) (W k) i).
  rewrite (@nrm_ext m _ (trf k (fun i => W k i - house m (u k) (W k.+1) i))); last by move=> i hi; rewrite trf_sub.
  rewrite trf_nrm (@nrm_ext m _ (fun i => -1 * house m (u k) (fun i => W k.+1 i - house m (u k) (W k) i) i)).
    by rewrite nrm_scal (house_nrm _ (@hu k)) Rabs_left1; lra.
  by move=> i hi; rewrite house_sub (house_inv _ _ (@hu k)); ring.
have p : 1 <= (1 + c) ^ k by apply: pow_R1_Rle; lra.
rewrite S_INR -tech_pow_Rmult; have n0 := nrm_ge0 m (W 0%N).
have h3 : c * nrm m (W k) <= c * ((1 + c) ^ k * (nrm m (W 0%N) + INR k * om)) by apply: Rmult_le_compat_l.
set P := (1 + c) ^ k in p h h3 *; set w0 := nrm m (W 0%N) in n0 h h3 *; set K := INR k in h h3 *.
have h4 : om <= (1 + c) * P * om.
  rewrite -{1}[om]Rmult_1_l; apply: Rmult_le_compat_r => //.
  by have : 1 * 1 <= (1 + c) * P by [apply: Rmult_le_compat; lra]; lra.
have -> : ((1 + c) * P - 1) * w0 + (K + 1) * ((1 + c) * P * om) =
  ((P - 1) * w0 + K * (P * om)) + c * (P * (w0 + K * om)) + (1 + c) * P * om by ring.
lra.
Qed.
End Compose.

(** the first r steps; m rows, n columns *)
Section Prefix.
Variables (m n r : nat) (a : nat -> nat -> b64).
Hypothesis rm : (r <= m)%N.
Hypothesis rn : (r <= n)%N.
Let F := q_seq (S:=B64) bdiv bsqrt m a.
Let rd := q_rd (S:=B64) bdiv bsqrt m a.
Let E := err (m + 3).
Hypothesis E1 : 64 * E <= 1.
Hypothesis FF : forall i j, (i < m)%N -> (j < n)%N -> finite (F r i j).
Hypothesis FR : forall k, (k < r)%N -> finite (rd k).
Hypothesis RNG : forall k, (k < r)%N -> rv (rd k) = 0 \/ / 2 ^ 480 <= Rabs (rv (rd k)) <= 2 ^ 510.

Lemma seq_fin_r k : (k <= r)%N -> forall i j, (i < m)%N -> (j < n)%N -> finite (F k i j).
Proof.
move=> hk; have -> : k = (r - (r - k))%N by lia.
elim: (r - k)%N => [|d IH]; first by rewrite subn0; apply: FF.
case: (ltnP d r) => hd; last first.
  by have -> : (r - d.+1 = r - d)%N by lia.
have e : (r - d = (r - d.+1).+1)%N by lia.
move: IH; rewrite e => IH; apply: (@step_down m n (r - d.+1)); [lia|lia|exact: IH].
Qed.

Definition Wq (k j i : nat) : R := rv (wfnS (S:=B64) (F k) rd k i j).
Definition uq_r (k : nat) : nat -> R := if (k < r)%N then ug m k (F k) else fun _ => 0.

Lemma uq_ok_r k : dotr m (uq_r k) (uq_r k) = 0 -> forall i, uq_r k i = 0.
Proof.
rewrite /uq_r; case: (ltnP k r) => hk // z i.
have km : (k < m)%N by lia. have kn : (k < n)%N by lia.
case: (Req_dec (rv (rd k)) 0) => [e|ne].
  by rewrite /ug; have -> : Beqb (q_a (S:=B64) bsqrt m k (F k)) b64_zero by apply/(eqa0 (FR hk)).
have := @ug_pos m n k km kn (F k) E1 (FR hk) (RNG hk) (seq_fin_r (ltnW (leq_trans hk (leqnn _)))) (@seq_fin_r k.+1 hk) ne.
by move=> h; move: (h); rewrite z => /Rlt_irrefl.
Qed.

Lemma W_step_r k j : (k < r)%N -> (j < n)%N ->
  nrm m (fun i => Wq k.+1 j i - house m (uq_r k) (Wq k j) i) <= 25 * E * nrm m (Wq k j) + om64.
Proof.
move=> hk hj; have km : (k < m)%N by lia.
have kn : (k < n)%N by lia.
have E0 : 0 <= E by apply: err_ge0.
have o0 := om_gt0.
have ff := @seq_fin_r k (ltnW hk); have fs := @seq_fin_r k.+1 hk.
have pos : 0 <= 25 * E * nrm m (Wq k j) + om64.
  by have : 0 <= 25 * E * nrm m (Wq k j) by [apply: Rmult_le_pos; [lra|apply: nrm_ge0]]; lra.
have -> : uq_r k = ug m k (F k) by rewrite /uq_r hk.
case: (ltngtP j k) => jk.
- (* finished columns *)
  rewrite nrm_z // => i hi.
  have d0 : dotr m (ug m k (F k)) (Wq k j) = 0.
    apply: rsumn_z => l hl; case: (ltnP l k) => lk; first by rewrite ug_low // Rmult_0_l.
    have -> : Wq k j l = 0; last by rewrite Rmult_0_r.
    rewrite /Wq /wfnS jk; have -> : (l < j)%N = false by lia.
    by have -> : (l == j) = false by lia.
  rewrite /house d0 Rmult_0_r /Rdiv !Rmult_0_l Rminus_0_r.
  suff -> : Wq k.+1 j i = Wq k j i by ring.
  rewrite /Wq /wfnS jk; have -> : (j < k.+1)%N by lia.
  case: ifP => // _; rewrite /F /= /q_step; case: ifP => // _.
  have -> : (j == k) = false by lia.
  by have -> : (k < j)%N && (k <= i)%N = false by lia.
- (* columns to the right *)
  have WE i : (i < m)%N -> Wq k j i = rv (F k i j).
    by move=> hi; rewrite /Wq /wfnS; have -> : (j < k)%N = false by lia.
  have WE' i : (i < m)%N -> Wq k.+1 j i = rv (q_step (S:=B64) bdiv bsqrt m k (F k) i j).
    by move=> hi; rewrite /Wq /wfnS; have -> : (j < k.+1)%N = false by lia.
  case: (Req_dec (rv (rd k)) 0) => [e|ne].
    have z : Beqb (q_a (S:=B64) bsqrt m k (F k)) b64_zero by apply/(eqa0 (FR hk)).
    rewrite nrm_z // => i hi; rewrite house_z; last by move=> l; rewrite /ug z.
    rewrite WE // WE' // /q_step [s_eqb _ _]z; ring.
  rewrite (@nrm_ext m _ (fun i => rv (q_step (S:=B64) bdiv bsqrt m k (F k) i j) - house m (ug m k (F k)) (fun i => rv (F k i j)) i)).
    rewrite (@nrm_ext m (Wq k j) (fun i => rv (F k i j))) //.
    exact: (@col_err_qs m n k km kn (F k) E1 (FR hk) (RNG hk) ff fs ne j hj jk).
  move=> i hi; rewrite WE' //; congr (_ - _); apply: house_ext => // l hl; exact: WE.
- (* the pivot column *)
  subst j.
  have WE i : (i < m)%N -> Wq k k i = rv (F k i k).
    by move=> hi; rewrite /Wq /wfnS ltnn.
  have Wlow i : (i < k)%N -> Wq k.+1 k i = rv (F k i k).
    move=> hi; rewrite /Wq /wfnS ltnSn hi /F /= /q_step; case: ifP => // _.
    by rewrite eqxx /q_u; have -> : (i == k) = false by lia.
  have Whi i : (k <= i)%N -> Wq k.+1 k i = unitv k (rv (rd k)) i.
    move=> hi; by rewrite /Wq /wfnS ltnSn ltnNge hi /= /unitv; case: eqP.
  have nx : nrm m (xr m k (F k)) <= nrm m (Wq k k).
    apply: sqrt_le_1_alt; apply: rsumn_le => i hi; rewrite /xr WE //.
    by case: ifP => _; [lra|rewrite Rmult_0_l; apply: Rle_0_sqr].
  case: (Req_dec (rv (rd k)) 0) => [e|ne].
    have z : Beqb (q_a (S:=B64) bsqrt m k (F k)) b64_zero by apply/(eqa0 (FR hk)).
    rewrite (@nrm_ext m _ (fun i => -1 * xr m k (F k) i)).
      rewrite nrm_scal Rabs_left1; last lra.
      have := @zero_pivot m n k km kn (F k) E1 (FR hk) e.
      have : 0 <= 25 * E * nrm m (Wq k k) by apply: Rmult_le_pos; [lra|apply: nrm_ge0].
      lra.
    move=> i hi; rewrite house_z; last by move=> l; rewrite /ug z.
    rewrite WE // /xr hi andbT; case: (leqP k i) => ki; last by rewrite Wlow //; ring.
    by rewrite Whi // e /unitv; case: eqP => _; ring.
  rewrite (@nrm_ext m _ (fun i => -1 * (house m (ug m k (F k)) (xr m k (F k)) i - unitv k (rv (rd k)) i))).
    rewrite nrm_scal Rabs_left1; last lra.
    have h2 : nrm m (fun i => house m (ug m k (F k)) (xr m k (F k)) i - unitv k (rv (rd k)) i) <= 12 * E * nrm m (xr m k (F k)).
      exact: (@pivot_err m n k km kn (F k) E1 (FR hk) (RNG hk) ff fs ne).
    have h : 12 * E * nrm m (xr m k (F k)) <= 25 * E * nrm m (Wq k k).
      by apply: Rmult_le_compat => //; [lra|exact: nrm_ge0|lra].
    lra.
  move=> i hi.
  have hd : dotr m (ug m k (F k)) (Wq k k) = dotr m (ug m k (F k)) (xr m k (F k)).
    apply: rsumn_ext => l hl; rewrite WE // /xr hl andbT.
    by case: (leqP k l) => // lk; rewrite ug_low //; ring.
  rewrite /house hd WE // /xr hi andbT.
  case: (leqP k i) => ki; first by rewrite Whi //; ring.
  by rewrite Wlow // ug_low // /unitv; have -> : (i == k) = false by [lia]; ring.
Qed.

Lemma qr_back_r j : (j < n)%N ->
  nrm m (fun i => rv (a i j) - rsumn m (fun l => trf m uq_r r (unitv l 1) i * Wq r j l)) <=
    ((1 + 25 * E) ^ r - 1) * nrm m (fun i => rv (a i j)) + INR r * ((1 + 25 * E) ^ r * om64).
Proof.
move=> hj; have E0 : 0 <= E by apply: err_ge0.
have := @W_err m uq_r uq_ok_r (fun k => Wq k j) r (25 * E) om64 _ (Rlt_le _ _ om_gt0) (fun k hk => W_step_r hk hj) r (leqnn _).
have c0 : 0 <= 25 * E by lra.
move=> /(_ c0) h.
rewrite (@nrm_ext m _ (fun i => Wq 0%N j i - trf m uq_r r (Wq r j) i)); first exact: h.
by move=> i hi; rewrite (@trf_mat m uq_r) //.
Qed.
End Prefix.

Section Seq.
Variables (m n : nat) (a : nat -> nat -> b64).
Local Notation mn := (minn m n).
Let F := q_seq (S:=B64) bdiv bsqrt m a.
Let rd := q_rd (S:=B64) bdiv bsqrt m a.
Let E := err (m + 3).
Hypothesis E1 : 64 * E <= 1.
Hypothesis FF : forall i j, (i < m)%N -> (j < n)%N -> finite (F mn i j).
Hypothesis FR : forall k, (k < mn)%N -> finite (rd k).
Hypothesis RNG : forall k, (k < mn)%N -> rv (rd k) = 0 \/ / 2 ^ 480 <= Rabs (rv (rd k)) <= 2 ^ 510.

Lemma seq_fin k : (k <= mn)%N -> forall i j, (i < m)%N -> (j < n)%N -> finite (F k i j).
Proof. by move=> h; apply: (@seq_fin_r m n mn a (geq_minl m n) (geq_minr m n) FF). Qed.
Definition uq : nat -> nat -> R := @uq_r m mn a.
Lemma uq_ok k : dotr m (uq k) (uq k) = 0 -> forall i, uq k i = 0.
Proof. exact: (@uq_ok_r m n mn a (geq_minl m n) (geq_minr m n) E1 FF FR RNG). Qed.
Lemma W_step k j : (k < mn)%N -> (j < n)%N ->
  nrm m (fun i => Wq m a k.+1 j i - house m (uq k) (Wq m a k j) i) <= 25 * E * nrm m (Wq m a k j) + om64.
Proof. exact: (@W_step_r m n mn a (geq_minl m n) (geq_minr m n) E1 FF FR RNG). Qed.
Lemma qr_back j : (j < n)%N ->
  nrm m (fun i => rv (a i j) - rsumn m (fun l => trf m uq mn (unitv l 1) i * Wq m a mn j l)) <=
    ((1 + 25 * E) ^ mn - 1) * nrm m (fun i => rv (a i j)) + INR mn * ((1 + 25 * E) ^ mn * om64).
Proof. exact: (@qr_back_r m n mn a (geq_minl m n) (geq_minr m n) E1 FF FR RNG). Qed.

(** ** get_q *)
Lemma q_col_const t k i : (k < t)%N -> (t <= mn)%N -> F t i k = F k.+1 i k.
Proof.
elim: t => [//|t IH]; rewrite ltnS leq_eqVlt => /orP[/eqP -> //|kt] ht.
rewrite -IH //; last exact: ltnW.
rewrite {1}/F /= /q_step; case: ifP => // _; have -> : (k == t) = false by lia.
by have -> : (t < k)%N && (t <= i)%N = false by lia.
Qed.
Lemma q_col k i : (k < mn)%N -> rv (rd k) <> 0 -> F mn i k = q_u (S:=B64) bsqrt m k (F k) i.
Proof.
move=> hk ne; rewrite q_col_const // {1}/F /= /q_step.
have -> : s_eqb (s:=B64) (q_a (S:=B64) bsqrt m k (F k)) (n_zero B64) = false.
  by apply/negbTE/negP => /(eqa0 (FR hk)).
by rewrite eqxx.
Qed.
Lemma q_col_nz k : (k < mn)%N -> rv (rd k) <> 0 -> s_eqb (s:=B64) (F mn k k) (n_zero B64) = false.
Proof.
move=> hk ne; have km : (k < m)%N by lia.
have kn : (k < n)%N by lia.
have Fk := FF km kn; apply/negbTE/negP.
have e : s_eqb (s:=B64) (F mn k k) (n_zero B64) = Req_bool (rv (F mn k k)) 0 by exact: (eqb0 Fk).
rewrite e; case: Req_bool_spec => // z _.
have := @quk_nz m n k km kn (F k) E1 (FR hk) (@seq_fin k (ltnW hk)) (@seq_fin k.+1 hk) ne.
by rewrite -(q_col k hk ne).
Qed.

(** the order of evaluation of get_q on the columns *)
Let G := q_gs (S:=B64) bdiv m n (F mn) rd.
Hypothesis FG : forall i j, (i < m)%N -> (j < m)%N -> finite (G mn i j).
Hypothesis ZH : forall k, (k < mn)%N -> rv (rd k) = 0 -> rv (F mn k k) = 0.

Lemma GS t : G t.+1 = q_back (S:=B64) bdiv m (F mn) rd (mn - t.+1) (G t). Proof. by []. Qed.
Lemma back_zero k h : (k < mn)%N -> rv (rd k) = 0 -> forall i j, q_back (S:=B64) bdiv m (F mn) rd k h i j = h i j.
Proof.
move=> hk z i j; rewrite /q_back.
have km : (k < m)%N by lia.
have kn : (k < n)%N by lia.
have -> // : s_eqb (s:=B64) (F mn k k) (n_zero B64).
have e : s_eqb (s:=B64) (F mn k k) (n_zero B64) = Req_bool (rv (F mn k k)) 0 by exact: (eqb0 (FF km kn)).
by rewrite e ZH //; case: Req_bool_spec.
Qed.
Lemma back_lo k h i j : ((i < k) || (j < k))%N -> q_back (S:=B64) bdiv m (F mn) rd k h i j = h i j.
Proof.
move=> hh; rewrite /q_back; case: ifP => // _; have -> // : (k <= j)%N && (k <= i)%N = false.
by apply/negbTE; rewrite negb_and -!ltnNge orbC.
Qed.
Lemma back_hi k h i j : (k < mn)%N -> rv (rd k) <> 0 -> (k <= i)%N -> (k <= j)%N ->
  q_back (S:=B64) bdiv m (F mn) rd k h i j =
  Bplus mode_NE (h i j) (Bmult mode_NE (bdiv (qdot (S:=B64) m k (q_u (S:=B64) bsqrt m k (F k)) (fun l => h l j))
    (Bmult mode_NE (q_a (S:=B64) bsqrt m k (F k)) (q_u (S:=B64) bsqrt m k (F k) k))) (q_u (S:=B64) bsqrt m k (F k) i)).
Proof.
move=> hk ne hi hj; rewrite /q_back (q_col_nz hk ne).
have -> : (k <= j)%N && (k <= i)%N by rewrite hj hi.
rewrite (q_col i hk ne) (q_col k hk ne).
rewrite (@qdot_ext B64 m k (fun l => F mn l k) (fun l => h l j) (q_u (S:=B64) bsqrt m k (F k)) (fun l => h l j)) //.
by move=> l _; apply: q_col.
Qed.

Lemma G_fin t : (t <= mn)%N -> forall i j, (i < m)%N -> (j < m)%N -> finite (G t i j).
Proof.
move=> ht; have -> : t = (mn - (mn - t))%N by lia.
elim: (mn - t)%N => [|d IH]; first by rewrite subn0; apply: FG.
case: (ltnP d mn) => hd; last first.
  by have -> : (mn - d.+1 = mn - d)%N by lia.
have e : (mn - d = (mn - d.+1).+1)%N by lia.
move: IH; rewrite e => IH i j hi hj; have := IH i j hi hj; rewrite GS /q_back.
by case: ifP => // _; case: ifP => // _ /add_finite [].
Qed.

(** column c is a unit vector until its own reflection *)
Lemma G_unit t c i : (t <= mn)%N -> (c < mn - t)%N -> G t i c = if (i == c) && (i < mn)%N then b64_int 1 else b64_zero.
Proof.
elim: t => [//|t IH] ht hc; rewrite GS back_lo; first by apply: IH; lia.
by apply/orP; right.
Qed.

Definition Yq (c t i : nat) : R := rv (G t i c).
Lemma Y_step c t : (t < mn)%N -> (c < mn)%N ->
  nrm m (fun i => Yq c t.+1 i - house m (uq (mn - t.+1)) (Yq c t) i) <= 25 * E * nrm m (Yq c t) + om64.
Proof.
move=> ht hc; set k := (mn - t.+1)%N.
have hk : (k < mn)%N by rewrite /k; lia.
have km : (k < m)%N by lia.
have kn : (k < n)%N by lia.
have cm : (c < m)%N by lia.
have E0 : 0 <= E by apply: err_ge0.
have o0 := om_gt0.
have pos : 0 <= 25 * E * nrm m (Yq c t) + om64.
  by have : 0 <= 25 * E * nrm m (Yq c t) by [apply: Rmult_le_pos; [lra|apply: nrm_ge0]]; lra.
have -> : uq k = ug m k (F k) by rewrite /uq /uq_r hk.
case: (Req_dec (rv (rd k)) 0) => [e|ne].
  have z : Beqb (q_a (S:=B64) bsqrt m k (F k)) b64_zero by apply/(eqa0 (FR hk)).
  rewrite nrm_z // => i hi; rewrite house_z; last by move=> l; rewrite /ug z.
  by rewrite /Yq GS back_zero //; ring.
case: (ltnP c k) => ck; last first.
  apply: (@col_err m n k km kn (F k) E1 (FR hk) (RNG hk) (@seq_fin k (ltnW hk)) (@seq_fin k.+1 hk) ne (fun i => G t i c) (fun i => G t.+1 i c)).
  - by move=> i hi; rewrite GS back_hi //; lia.
  - by move=> i hi; rewrite GS back_lo // hi.
  - by move=> i hi; apply: G_fin.
rewrite nrm_z // => i hi.
have d0 : dotr m (ug m k (F k)) (Yq c t) = 0.
  apply: rsumn_z => l hl; case: (ltnP l k) => lk; first by rewrite ug_low // Rmult_0_l.
  have -> : Yq c t l = 0; last by rewrite Rmult_0_r.
  rewrite /Yq G_unit //; [|lia|rewrite /k in ck; lia].
  by have -> : (l == c) = false by lia.
rewrite /house d0 Rmult_0_r /Rdiv !Rmult_0_l Rminus_0_r.
suff -> : Yq c t.+1 i = Yq c t i by ring.
by rewrite /Yq GS back_lo // -/k ck orbT.
Qed.

Lemma Y0 c i : (c < mn)%N -> Yq c 0 i = unitv c 1 i.
Proof.
move=> hc; rewrite /Yq /G /= /unitv; case: (altP (i =P c)) => [->|_]; first by rewrite hc; exact: rv_int1.
by [].
Qed.

Lemma Y_norm c t : (c < mn)%N -> (t <= mn)%N -> nrm m (Yq c t) <= (1 + 25 * E) ^ t * (1 + INR t * om64).
Proof.
move=> hc; have E0 : 0 <= E by apply: err_ge0.
have cm : (c < m)%N by lia.
elim: t => [|t IH] ht.
  rewrite (@nrm_ext m _ (unitv c 1)); last by move=> i _; apply: Y0.
  by rewrite nrm_unitv // Rabs_R1 /=; lra.
have h := IH (ltnW ht); have h1 := Y_step ht hc; have o0 := om_gt0.
have h2 := nrm_le_add m (Yq c t.+1) (house m (uq (mn - t.+1)) (Yq c t)); rewrite (house_nrm _ (@uq_ok (mn - t.+1))) in h2.
have p : 1 <= (1 + 25 * E) ^ t by apply: pow_R1_Rle; lra.
rewrite S_INR -tech_pow_Rmult.
set C := 1 + 25 * E in h p *; have C1 : 1 <= C by rewrite /C; lra.
have h3 : C * nrm m (Yq c t) <= C * (C ^ t * (1 + INR t * om64)) by apply: Rmult_le_compat_l => //; lra.
have h4 : om64 <= C * C ^ t * om64.
  rewrite -{1}[om64]Rmult_1_l; apply: Rmult_le_compat_r; first lra.
  by have : 1 * 1 <= C * C ^ t by [apply: Rmult_le_compat; lra]; lra.
have -> : C * C ^ t * (1 + (INR t + 1) * om64) = C * (C ^ t * (1 + INR t * om64)) + C * C ^ t * om64 by ring.
have : C * nrm m (Yq c t) = nrm m (Yq c t) + 25 * E * nrm m (Yq c t) by rewrite /C; ring.
lra.
Qed.

Fixpoint zt (t : nat) (v : nat -> R) : nat -> R := if t is t'.+1 then house m (uq (mn - t)) (zt t' v) else v.
Lemma zt_trf t v : (t <= mn)%N -> trf m uq (mn - t) (zt t v) = trf m uq mn v.
Proof.
elim: t => [|t IH] ht; first by rewrite subn0.
rewrite -IH; last exact: ltnW.
by have -> : (mn - t = (mn - t.+1).+1)%N by lia.
Qed.

Lemma Y_err c t : (c < mn)%N -> (t <= mn)%N ->
  nrm m (fun i => Yq c t i - zt t (unitv c 1) i) <= ((1 + 25 * E) ^ t - 1) + INR t * ((1 + 25 * E) ^ t * om64).
Proof.
move=> hc; have E0 : 0 <= E by apply: err_ge0.
elim: t => [|t IH] ht.
  by rewrite nrm_z; [rewrite /=; lra|move=> i _; rewrite Y0 //=; ring].
have h := IH (ltnW ht); have h1 := Y_step ht hc; have o0 := om_gt0; have wn := Y_norm hc (ltnW ht).
apply: Rle_trans (@nrm_tri3 m _ _ (house m (uq (mn - t.+1)) (Yq c t))) _.
have -> : nrm m (fun i => house m (uq (mn - t.+1)) (Yq c t) i - zt t.+1 (unitv c 1) i) = nrm m (fun i => Yq c t i - zt t (unitv c 1) i).
  rewrite -(house_nrm (fun i => Yq c t i - zt t (unitv c 1) i) (@uq_ok (mn - t.+1))).
  by apply: nrm_ext => i hi; rewrite house_sub.
have p : 1 <= (1 + 25 * E) ^ t by apply: pow_R1_Rle; lra.
rewrite S_INR -tech_pow_Rmult.
have h3 : 25 * E * nrm m (Yq c t) <= 25 * E * ((1 + 25 * E) ^ t * (1 + INR t * om64)) by apply: Rmult_le_compat_l => //; lra.
set P := (1 + 25 * E) ^ t in p h h3 *; set K := INR t in h h3 *.
have h4 : om64 <= (1 + 25 * E) * P * om64.
  rewrite -{1}[om64]Rmult_1_l; apply: Rmult_le_compat_r; first lra.
  by have : 1 * 1 <= (1 + 25 * E) * P by [apply: Rmult_le_compat; lra]; lra.
have -> : (1 + 25 * E) * P - 1 + (K + 1) * ((1 + 25 * E) * P * om64) =
  (P - 1 + K * (P * om64)) + 25 * E * (P * (1 + K * om64)) + (1 + 25 * E) * P * om64 by ring.
lra.
Qed.

Lemma get_q_err c : (c < mn)%N ->
  nrm m (fun i => rv (G mn i c) - trf m uq mn (unitv c 1) i) <= ((1 + 25 * E) ^ mn - 1) + INR mn * ((1 + 25 * E) ^ mn * om64).
Proof.
move=> hc; have := Y_err hc (leqnn mn).
rewrite (@nrm_ext m _ (fun i => rv (G mn i c) - trf m uq mn (unitv c 1) i)) // => i hi.
by rewrite /Yq -(@zt_trf mn) // subnn.
Qed.
End Seq.
