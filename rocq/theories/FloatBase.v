(** * FloatBase: rounding errors of the f64 operations and of sums of products *)
From Coq Require Import ZArith Reals Lra Psatz.
From Flocq Require Import Core BinarySingleNaN Plus_error Relative Div_sqrt_error.
From mathcomp Require Import all_ssreflect.
From Verif Require Import B64 SpecFloat64.

Set Implicit Arguments.
Unset Strict Implicit.
Unset Printing Implicit Defensive.
Local Open Scope R_scope.

(** ** constants *)
Lemma pow_bpow k : (2 ^ k = bpow radix2 (Z.of_nat k))%R.
Proof. by rewrite -IZR_Zpower ?(pow_IZR 2 k) //; apply: Zle_0_nat. Qed.

Lemma half_bpow : / 2 = bpow radix2 (-1).
Proof. by rewrite /= -?[Z.pow_pos 2 1]/2%Z. Qed.

Lemma u64_u : u64 = u_ro radix2 b_prec.
Proof. by rewrite /u64 /u_ro pow_bpow -bpow_opp half_bpow -bpow_plus. Qed.
Lemma eta64_e : eta64 = / 2 * bpow radix2 (SpecFloat.emin b_prec b_emax).
Proof. by rewrite /eta64 pow_bpow -bpow_opp half_bpow -bpow_plus. Qed.
Lemma u64_gt0 : 0 < u64.
Proof. by rewrite /u64 pow_bpow; apply: Rinv_0_lt_compat; apply: bpow_gt_0. Qed.
Lemma eta64_gt0 : 0 < eta64.
Proof. by rewrite /eta64 pow_bpow; apply: Rinv_0_lt_compat; apply: bpow_gt_0. Qed.
Lemma u64_lt1 : u64 < / 1024.
Proof.
rewrite /u64 pow_bpow -bpow_opp; have -> : / 1024 = bpow radix2 (-10) by [].
exact: bpow_lt.
Qed.
#[global] Hint Resolve u64_gt0 eta64_gt0 u64_lt1 : core.

Lemma u_div : u64 / (1 + u64) <= u64.
Proof.
have u0 := u64_gt0; apply: (Rmult_le_reg_r (1 + u64)); first lra.
by rewrite /Rdiv Rmult_assoc Rinv_l; last lra; nra.
Qed.

(** ** single operations *)
Local Notation emin := (SpecFloat.emin b_prec b_emax).
Local Notation fmt := (generic_format radix2 (FLT_exp emin b_prec)).
Local Notation rnd := (round radix2 (FLT_exp emin b_prec) ZnearestE).

Lemma fmt_rv (x : b64) : fmt (rv x).
Proof. exact: generic_format_B2R. Qed.

(** a rounded sum: x + y = r (1 + d') and r = (x + y)(1 + d) *)
Lemma rnd_add x y : fmt x -> fmt y ->
  (exists d, Rabs d <= u64 /\ rnd (x + y) = (x + y) * (1 + d)) /\
  (exists d, Rabs d <= u64 /\ x + y = rnd (x + y) * (1 + d)).
Proof.
move=> fx fy; split.
  have [d [hd E]] := @FLT_plus_error_N_ex radix2 emin b_prec b_prec_gt0 (fun x => negb (Z.even x)) x y fx fy.
  by exists d; split=> //; apply: Rle_trans hd _; rewrite -u64_u; apply: u_div.
have [d [hd E]] := @FLT_plus_error_N_round_ex radix2 emin b_prec b_prec_gt0 (fun x => negb (Z.even x)) x y fx fy.
by exists d; split=> //; rewrite u64_u.
Qed.

(** any rounding: relative error unless the result is subnormal, absolute error eta otherwise *)
Lemma rnd_any x :
  (exists d, Rabs d <= u64 /\ rnd x = x * (1 + d)) /\ (exists d, Rabs d <= u64 /\ x = rnd x * (1 + d)) \/
  Rabs (rnd x - x) <= eta64.
Proof.
have [d [e [hd [he [de E]]]]] := @relative_error_N_FLT'_ex radix2 emin b_prec b_prec_gt0 (fun x => negb (Z.even x)) x.
case: (Rmult_integral _ _ de) => z; [right|left].
  by rewrite E z eta64_e; have -> : x * (1 + 0) + e - x = e by ring.
rewrite z Rplus_0_r in E; split.
  by exists d; split=> //; apply: Rle_trans hd _; rewrite -u64_u; apply: u_div.
rewrite u64_u; apply: relative_error_N_round_ex_derive; first by [].
by exists d.
Qed.

Lemma rnd_sqrt x : fmt x ->
  (exists d, Rabs d <= u64 /\ rnd (sqrt x) = sqrt x * (1 + d)) /\
  (exists d, Rabs d <= u64 /\ sqrt x = rnd (sqrt x) * (1 + d)).
Proof.
move=> fx; have u0 := u64_gt0.
have hs : sqrt (1 + 2 * u64) <= 1 + u64.
  rewrite -[X in _ <= X]sqrt_square; last lra.
  by apply: sqrt_le_1_alt; nra.
have hs1 : 1 <= sqrt (1 + 2 * u64) by rewrite -{1}sqrt_1; apply: sqrt_le_1_alt; lra.
have hm : (emin <= 2 * (1 - b_prec))%Z by [].
have hp : (1 < b_prec)%Z by [].
split.
  have [d [hd E]] := @sqrt_error_N_FLT_ex radix2 b_prec b_prec_gt0 (fun x => negb (Z.even x)) hp emin hm x fx.
  exists d; split=> //; apply: Rle_trans hd _; rewrite -u64_u.
  have : / (1 + u64) <= / sqrt (1 + 2 * u64) by apply: Rinv_le_contravar; lra.
  have := u_div; have -> : u64 / (1 + u64) = 1 - / (1 + u64) by field; lra.
  by rewrite /Rdiv Rmult_1_l; lra.
have [d [hd E]] := @sqrt_error_N_FLT_round_ex radix2 b_prec b_prec_gt0 (fun x => negb (Z.even x)) hp emin hm x fx.
by exists d; split=> //; rewrite -u64_u in hd; lra.
Qed.

(** ** operations on f64 whose result is finite *)
Lemma add_finite (x y : b64) : finite (Bplus mode_NE x y) ->
  [/\ finite x, finite y & rv (Bplus mode_NE x y) = rnd (rv x + rv y)].
Proof.
move=> h.
have [fx fy] : finite x /\ finite y.
  by rewrite /finite; move: h; rewrite /finite; case: x => [a|a||a ma ea Ha]; case: y => [b|b||b mb eb Hb] //=; case: a; case: b.
split=> //.
have := Bplus_correct b_prec b_emax b_prec_gt0 b_prec_lt mode_NE x y fx fy.
by case: Rlt_bool => [[E _]|[E _]] //; move: h E; rewrite /finite; case: (Bplus _ _ _).
Qed.

Lemma sub_finite (x y : b64) : finite (Bminus mode_NE x y) ->
  [/\ finite x, finite y & rv (Bminus mode_NE x y) = rnd (rv x - rv y)].
Proof.
move=> h.
have [fx fy] : finite x /\ finite y.
  rewrite /finite; move: h; rewrite /finite.
  by case: x => [a|a||a ma ea Ha]; case: y => [b|b||b mb eb Hb] //=; case: a; case: b.
split=> //.
have := Bminus_correct b_prec b_emax b_prec_gt0 b_prec_lt mode_NE x y fx fy.
by case: Rlt_bool => [[E _]|[E _]] //; move: h E; rewrite /finite; case: (Bminus _ _ _).
Qed.

Lemma mul_finite (x y : b64) : finite (Bmult mode_NE x y) ->
  [/\ finite x, finite y & rv (Bmult mode_NE x y) = rnd (rv x * rv y)].
Proof.
move=> h; have := Bmult_correct b_prec b_emax b_prec_gt0 b_prec_lt mode_NE x y.
case: Rlt_bool => [[E [F _]]|E].
  by rewrite /finite in h; rewrite h in F; case/esym/andP: F.
by move: h E; rewrite /finite; case: (Bmult _ _ _).
Qed.

Lemma div_finite (x y : b64) : finite y -> finite (Bdiv mode_NE x y) ->
  [/\ finite x, rv y <> 0 & rv (Bdiv mode_NE x y) = rnd (rv x / rv y)].
Proof.
move=> fy h; have y0 : rv y <> 0.
  move: fy h; rewrite /finite /rv; case: y => [b|b||b mb eb Hb] //=.
    by case: x.
  move=> _ _; case: b {Hb} => /=; [have := F2R_lt_0 radix2 (Float radix2 (Zneg mb) eb) erefl | have := F2R_gt_0 radix2 (Float radix2 (Zpos mb) eb) erefl]; lra.
have := Bdiv_correct b_prec b_emax b_prec_gt0 b_prec_lt mode_NE x y y0.
case: Rlt_bool => [[E [F _]]|E].
  by rewrite /finite in h *; rewrite h in F.
by move: h E; rewrite /finite; case: (Bdiv _ _ _).
Qed.

Lemma sqrt_finite (x : b64) : finite (Bsqrt mode_NE x) ->
  [/\ finite x, 0 <= rv x & rv (Bsqrt mode_NE x) = rnd (sqrt (rv x))].
Proof.
move=> h; have [E [F _]] := Bsqrt_correct b_prec b_emax b_prec_gt0 b_prec_lt mode_NE x.
rewrite /finite in h *; rewrite h in F; split=> //; first by case: x F {E h} => [a|a||a ma ea Ha] //; case: a.
case: x F {E h} => [a|a||a ma ea Ha] //=; first by move=> _; apply: Rle_refl.
by case: a Ha => // Ha _; apply: F2R_ge_0.
Qed.

(** ** sums of real numbers *)
Lemma Rplus_assoc' : associative Rplus. Proof. by move=> x y z; rewrite Rplus_assoc. Qed.
Canonical Rplus_law := Monoid.Law Rplus_assoc' Rplus_0_l Rplus_0_r.
Canonical Rplus_comlaw := Monoid.ComLaw Rplus_comm.

Lemma rsum_le n (f g : 'I_n -> R) : (forall i, f i <= g i) -> \rsum_(i < n) f i <= \rsum_(i < n) g i.
Proof.
by move=> h; elim/big_ind2: _ => [|a b c d p q|i _]; [lra|lra|exact: h].
Qed.
Lemma rsum_ge0 n (f : 'I_n -> R) : (forall i, 0 <= f i) -> 0 <= \rsum_(i < n) f i.
Proof. by move=> h; elim/big_ind: _ => [|a b p q|i _]; [lra|lra|exact: h]. Qed.
Lemma rsum_abs n (f : 'I_n -> R) : Rabs (\rsum_(i < n) f i) <= \rsum_(i < n) Rabs (f i).
Proof.
elim/big_ind2: _ => [|a b c d p q|i _]; first by rewrite Rabs_R0; lra.
  by apply: Rle_trans (Rabs_triang _ _) _; lra.
exact: Rle_refl.
Qed.
Lemma rsum_ext n (f g : 'I_n -> R) : (forall i, f i = g i) -> \rsum_(i < n) f i = \rsum_(i < n) g i.
Proof. by move=> h; apply: eq_bigr. Qed.

(** ** the growth factors *)
Lemma grow_ge1 k : 1 <= grow k.
Proof. by apply: pow_R1_Rle; have := u64_gt0; lra. Qed.
Lemma growS k : grow k.+1 = (1 + u64) * grow k. Proof. by []. Qed.
Lemma grow_le j k : (j <= k)%N -> grow j <= grow k.
Proof. by move=> h; apply: Rle_pow; [have := u64_gt0; lra|apply/leP]. Qed.
Lemma grow_add j k : grow (j + k) = grow j * grow k. Proof. exact: pow_add. Qed.
Lemma err_ge0 k : 0 <= err k. Proof. by have := grow_ge1 k; rewrite /err; lra. Qed.
Lemma err_le j k : (j <= k)%N -> err j <= err k.
Proof. by move=> /grow_le; rewrite /err; lra. Qed.
Lemma err0 : err 0 = 0. Proof. by rewrite /err /grow /=; ring. Qed.
Lemma err1 : err 1 = u64. Proof. by rewrite /err /grow /=; ring. Qed.

(** ** a running sum of products, as the code forms it: s = 0; s += a_k * b_k *)
Definition dot64 (s0 : b64) (n : nat) (a b : nat -> b64) : b64 :=
  foldl (fun s k => Bplus mode_NE s (Bmult mode_NE (a k) (b k))) s0 (iota 0 n).
Definition rsumn (n : nat) (f : nat -> R) : R := \rsum_(k < n) f k.

Lemma dot64S s0 n a b : dot64 s0 n.+1 a b = Bplus mode_NE (dot64 s0 n a b) (Bmult mode_NE (a n) (b n)).
Proof. by rewrite /dot64 -addn1 iotaD foldl_cat. Qed.
Lemma rsumnS n f : rsumn n.+1 f = rsumn n f + f n.
Proof. by rewrite /rsumn big_ord_recr. Qed.
Lemma rsumn0 f : rsumn 0 f = 0. Proof. by rewrite /rsumn big_ord0. Qed.
Lemma rsumn_ge0 n f : (forall k, (k < n)%N -> 0 <= f k) -> 0 <= rsumn n f.
Proof. by move=> h; apply: rsum_ge0 => i; apply: h. Qed.
Lemma rsumn_le n f g : (forall k, (k < n)%N -> f k <= g k) -> rsumn n f <= rsumn n g.
Proof. by move=> h; apply: rsum_le => i; apply: h. Qed.
Lemma rsumn_ext n f g : (forall k, (k < n)%N -> f k = g k) -> rsumn n f = rsumn n g.
Proof. by move=> h; apply: rsum_ext => i; apply: h. Qed.

Lemma Rabs_bound x y : Rabs x <= y -> - y <= x <= y. Proof. exact: Rabs_le_inv. Qed.

(** the product: relative error u plus absolute error eta *)
Lemma rnd_mul x : exists d e, [/\ Rabs d <= u64, Rabs e <= eta64 & rnd x = x * (1 + d) + e].
Proof.
case: (rnd_any x) => [[[d [hd E]] _]|h].
  by exists d, 0; split=> //; [rewrite Rabs_R0; have := eta64_gt0; lra|rewrite E; ring].
exists 0, (rnd x - x); split=> //; first by rewrite Rabs_R0; have := u64_gt0; lra.
by ring.
Qed.

Lemma rnd_id x : fmt x -> rnd x = x.
Proof. by move=> h; apply: round_generic. Qed.

Lemma abs_mul_le a b c d : Rabs a <= c -> Rabs b <= d -> Rabs (a * b) <= c * d.
Proof. by move=> h1 h2; rewrite Rabs_mult; apply: Rmult_le_compat => //; apply: Rabs_pos. Qed.

(** generic step: t = (s + p)(1 + d), p = x(1 + d') + e *)
Lemma sum_step n (s p t x e d d' S A : R) :
  (0 < n)%N -> 0 <= A -> Rabs S <= A -> Rabs d <= u64 -> Rabs d' <= u64 -> Rabs e <= eta64 ->
  Rabs (s - S) <= err n * A + INR n * (grow n * eta64) ->
  p = x * (1 + d') + e -> t = (s + p) * (1 + d) ->
  Rabs (t - (S + x)) <= err n.+1 * (A + Rabs x) + INR n.+1 * (grow n.+1 * eta64).
Proof.
move=> n0 A0 SA hd hd' he hs Ep Et.
have u0 := u64_gt0; have e0 := eta64_gt0; have g1 := grow_ge1 n.
have -> : t - (S + x) = (s - S) * (1 + d) + S * d + x * (d + d' + d * d') + e * (1 + d) by rewrite Et Ep; ring.
have h1d : Rabs (1 + d) <= 1 + u64 by apply: Rle_trans (Rabs_triang _ _) _; rewrite Rabs_R1; lra.
have t1 := abs_mul_le hs h1d.
have t2 := abs_mul_le SA hd.
have hdd : Rabs (d + d' + d * d') <= 2 * u64 + u64 * u64.
  apply: Rle_trans (Rabs_triang _ _) _; have := abs_mul_le hd hd'.
  by have := Rabs_triang d d'; lra.
have t3 := abs_mul_le (Rle_refl (Rabs x)) hdd.
have t4 := abs_mul_le he h1d.
have T : Rabs ((s - S) * (1 + d) + S * d + x * (d + d' + d * d') + e * (1 + d)) <=
   (err n * A + INR n * (grow n * eta64)) * (1 + u64) + A * u64 + Rabs x * (2 * u64 + u64 * u64) + eta64 * (1 + u64).
  apply: Rle_trans (Rabs_triang _ _) _; apply: Rplus_le_compat => //.
  apply: Rle_trans (Rabs_triang _ _) _; apply: Rplus_le_compat => //.
  by apply: Rle_trans (Rabs_triang _ _) _; apply: Rplus_le_compat.
apply: Rle_trans T _; rewrite S_INR /err growS.
have e2 : 2 * u64 + u64 * u64 <= (1 + u64) * grow n - 1.
  have := grow_le n0; rewrite {1}/grow /= => h; nra.
have x0 := Rabs_pos x.
have := Rmult_le_compat_l _ _ _ x0 e2.
have gg : eta64 <= grow n * eta64 by nra.
nra.
Qed.

(** the dot product of n pairs *)
Lemma dot64_err n a b : finite (dot64 b64_zero n a b) ->
  (forall k, (k < n)%N -> finite (a k) /\ finite (b k)) /\
  Rabs (rv (dot64 b64_zero n a b) - rsumn n (fun k => rv (a k) * rv (b k))) <=
    err n * rsumn n (fun k => Rabs (rv (a k)) * Rabs (rv (b k))) + INR n * (grow n * eta64).
Proof.
elim: n => [|n IH].
  by move=> _; split=> //; rewrite !rsumn0 /dot64 /= /rv /= Rminus_0_r Rabs_R0 err0; lra.
rewrite dot64S => /add_finite [fs fp E]; have [fk {}IH] := IH fs.
have [fa fb Ep] := mul_finite fp.
split=> [k|].
  by rewrite ltnS leq_eqVlt => /orP[/eqP->|/fk].
rewrite !rsumnS E.
have [d' [e [hd' he Ee]]] := rnd_mul (rv (a n) * rv (b n)).
rewrite Ee in Ep.
case: n fs fp fk IH fa fb Ep {Ee E} => [|n] fs fp fk IH fa fb Ep.
  have -> : rv (dot64 b64_zero 0 a b) = 0 by [].
  rewrite Rplus_0_l rnd_id; last exact: fmt_rv.
  rewrite !rsumn0 !Rplus_0_l Ep err1 /grow /= -Rabs_mult.
  have -> : rv (a 0%N) * rv (b 0%N) * (1 + d') + e - rv (a 0%N) * rv (b 0%N) = rv (a 0%N) * rv (b 0%N) * d' + e by ring.
  apply: Rle_trans (Rabs_triang _ _) _; have := abs_mul_le (Rle_refl (Rabs (rv (a 0%N) * rv (b 0%N)))) hd'.
  by have := eta64_gt0; have := u64_gt0; nra.
have [[d [hd Ed]] _] := rnd_add (fmt_rv (dot64 b64_zero n.+1 a b)) (fmt_rv (Bmult mode_NE (a n.+1) (b n.+1))).
rewrite -Rabs_mult; apply: (sum_step _ _ _ hd hd' he IH Ep Ed) => //.
  by apply: rsumn_ge0 => k _; apply: Rmult_le_pos; apply: Rabs_pos.
apply: Rle_trans (rsum_abs _) _; apply: rsum_le => i.
by rewrite Rabs_mult; apply: Rle_refl.
Qed.

(** y = c - s: the error is relative to the result *)
Lemma sub_back (c s : b64) : let y := Bminus mode_NE c s in finite y ->
  [/\ finite c, finite s & Rabs (rv c - rv s - rv y) <= u64 * Rabs (rv y)].
Proof.
move=> y /sub_finite [fc fs E]; split=> //.
have [_ [d [hd Ed]]] := rnd_add (fmt_rv c) (generic_format_opp _ _ _ (fmt_rv s)).
have -> : rv c - rv s - rv y = rv y * d.
  by rewrite /y E; rewrite -[rv c - rv s]/(rv c + - rv s); rewrite {1}Ed; ring.
by have := abs_mul_le (Rle_refl (Rabs (rv y))) hd; lra.
Qed.

(** z = y / d: y = z d up to a relative error u or an absolute error eta |d| *)
Lemma div_back (y d : b64) : let z := Bdiv mode_NE y d in finite d -> finite z ->
  [/\ finite y, rv d <> 0 & Rabs (rv y - rv z * rv d) <= u64 * Rabs (rv z * rv d) + eta64 * Rabs (rv d)].
Proof.
move=> z fd /(div_finite fd) [fy d0 E]; split=> //.
have p1 := Rabs_pos (rv d); have p2 := Rabs_pos (rv z * rv d); have u0 := u64_gt0; have e0 := eta64_gt0.
case: (rnd_any (rv y / rv d)) => [[_ [e [he Ee]]]|h].
  have -> : rv y - rv z * rv d = rv z * rv d * e.
    have {1}-> : rv y = rv y / rv d * rv d by field.
    by rewrite /z E {1}Ee; ring.
  by have := abs_mul_le (Rle_refl (Rabs (rv z * rv d))) he; nra.
have -> : rv y - rv z * rv d = - ((rv z - rv y / rv d) * rv d) by field.
rewrite Rabs_Ropp; have := abs_mul_le h (Rle_refl (Rabs (rv d))).
have := Rmult_le_pos _ _ (Rlt_le _ _ u0) p2.
by rewrite /z E; lra.
Qed.

(** ** sufficient conditions for finite results *)
Definition big64 : R := 2 ^ 1023.

Lemma rnd_lt x : Rabs x <= big64 -> Rlt_bool (Rabs (rnd x)) (bpow radix2 b_emax) = true.
Proof.
move=> h; apply: Rlt_bool_true; apply: (@Rle_lt_trans _ (bpow radix2 1023)); last exact: bpow_lt.
rewrite /big64 pow_bpow in h.
by apply: abs_round_le_generic => //; apply: generic_format_bpow.
Qed.

Lemma add_ok (x y : b64) : finite x -> finite y -> Rabs (rv x + rv y) <= big64 -> finite (Bplus mode_NE x y).
Proof.
move=> fx fy h; have := Bplus_correct b_prec b_emax b_prec_gt0 b_prec_lt mode_NE x y fx fy.
by have -> := rnd_lt h; case=> _ [].
Qed.
Lemma sub_ok (x y : b64) : finite x -> finite y -> Rabs (rv x - rv y) <= big64 -> finite (Bminus mode_NE x y).
Proof.
move=> fx fy h; have := Bminus_correct b_prec b_emax b_prec_gt0 b_prec_lt mode_NE x y fx fy.
by have -> := rnd_lt h; case=> _ [].
Qed.
Lemma mul_ok64 (x y : b64) : finite x -> finite y -> Rabs (rv x * rv y) <= big64 -> finite (Bmult mode_NE x y).
Proof.
move=> fx fy h; have := Bmult_correct b_prec b_emax b_prec_gt0 b_prec_lt mode_NE x y.
have -> := rnd_lt h; case=> _ []; rewrite /finite => -> _.
by rewrite /finite in fx fy; rewrite fx fy.
Qed.
Lemma div_ok (x y : b64) : finite x -> rv y <> 0 -> Rabs (rv x / rv y) <= big64 -> finite (Bdiv mode_NE x y).
Proof.
move=> fx y0 h; have := Bdiv_correct b_prec b_emax b_prec_gt0 b_prec_lt mode_NE x y y0.
by have -> := rnd_lt h; case=> _ []; rewrite /finite => -> _.
Qed.
Lemma sqrt_ok (x : b64) : finite x -> 0 <= rv x -> finite (Bsqrt mode_NE x).
Proof.
move=> fx x0; have [_ [F _]] := Bsqrt_correct b_prec b_emax b_prec_gt0 b_prec_lt mode_NE x.
rewrite /finite F; case: x fx x0 {F} => [s|s||s m e B] //= _; case: s B => //= B.
by have := F2R_lt_0 radix2 (Float radix2 (Zneg m) e) erefl; rewrite /rv /=; lra.
Qed.

Lemma abs_rnd_le x : Rabs (rnd x) <= (1 + u64) * Rabs x + eta64.
Proof.
have [d [e [hd he ->]]] := rnd_mul x.
apply: Rle_trans (Rabs_triang _ _) _; apply: Rplus_le_compat => //.
rewrite Rmult_comm; apply: abs_mul_le; last exact: Rle_refl.
by apply: Rle_trans (Rabs_triang _ _) _; rewrite Rabs_R1; lra.
Qed.

Lemma dot64_ok n a b : (forall k, (k < n)%N -> finite (a k) /\ finite (b k)) ->
  grow n * (rsumn n (fun k => Rabs (rv (a k)) * Rabs (rv (b k))) + INR n * eta64) <= big64 ->
  finite (dot64 b64_zero n a b).
Proof.
elim: n => [|n IH] // fk; rewrite rsumnS S_INR growS dot64S => hb.
have [fa fb] := fk n (ltnSn n).
set s := rsumn n _ in hb IH *; set x := Rabs (rv (a n)) * Rabs (rv (b n)) in hb.
have s0 : 0 <= s by apply: rsumn_ge0 => k _; apply: Rmult_le_pos; apply: Rabs_pos.
have x0 : 0 <= x by apply: Rmult_le_pos; apply: Rabs_pos.
have u0 := u64_gt0; have e0 := eta64_gt0; have g1 := grow_ge1 n; have n0 := pos_INR n.
have se : 0 <= s + INR n * eta64 by nra.
have ge : grow n * (s + INR n * eta64) + (1 + u64) * x + eta64 <= (1 + u64) * grow n * (s + x + (INR n + 1) * eta64).
  have h1 : 0 <= u64 * (grow n * (s + INR n * eta64)) by apply: Rmult_le_pos; [lra|apply: Rmult_le_pos; lra].
  have h2 : (1 + u64) * x <= grow n * ((1 + u64) * x) by rewrite -{1}[_ * x]Rmult_1_l; apply: Rmult_le_compat_r => //; apply: Rmult_le_pos; lra.
  have h3 : eta64 <= grow n * eta64 by rewrite -{1}[eta64]Rmult_1_l; apply: Rmult_le_compat_r => //; lra.
  have h4 : 0 <= u64 * (grow n * eta64) by apply: Rmult_le_pos; [lra|lra].
  lra.
have gs : 0 <= grow n * (s + INR n * eta64) by nra.
have fs : finite (dot64 b64_zero n a b).
  apply: IH => [k hk|]; first by apply: fk; apply: ltnW.
  have h1 : 0 <= (1 + u64) * x by apply: Rmult_le_pos; lra.
  lra.
have fp : finite (Bmult mode_NE (a n) (b n)).
  apply: mul_ok64 => //; rewrite Rabs_mult; fold x.
  have h1 : 0 <= u64 * x by apply: Rmult_le_pos; lra.
  lra.
apply: add_ok => //; apply: Rle_trans (Rabs_triang _ _) _.
have [_ _ ->] := mul_finite fp; have := abs_rnd_le (rv (a n) * rv (b n)); rewrite Rabs_mult -/x => hp.
have [_ hs] := dot64_err fs; rewrite -/s in hs.
have hS : Rabs (rsumn n (fun k => rv (a k) * rv (b k))) <= s.
  by apply: Rle_trans (rsum_abs _) _; apply: rsum_le => i; rewrite Rabs_mult; apply: Rle_refl.
have hr : Rabs (rv (dot64 b64_zero n a b)) <= grow n * (s + INR n * eta64).
  set t := rsumn n (fun k => rv (a k) * rv (b k)) in hs hS.
  have -> : rv (dot64 b64_zero n a b) = (rv (dot64 b64_zero n a b) - t) + t by ring.
  apply: Rle_trans (Rabs_triang _ _) _; rewrite /err in hs; nra.
lra.
Qed.

(** ** running sums of given terms: s = 0; s += x_k *)
Definition sum64 (n : nat) (x : nat -> b64) : b64 :=
  foldl (fun s k => Bplus mode_NE s (x k)) b64_zero (iota 0 n).
Lemma sum64S n x : sum64 n.+1 x = Bplus mode_NE (sum64 n x) (x n).
Proof. by rewrite /sum64 -addn1 iotaD foldl_cat. Qed.

Lemma sum64_err n x : finite (sum64 n x) ->
  (forall k, (k < n)%N -> finite (x k)) /\
  Rabs (rv (sum64 n x) - rsumn n (fun k => rv (x k))) <= err n.-1 * rsumn n (fun k => Rabs (rv (x k))).
Proof.
elim: n => [|n IH].
  by move=> _; split=> //; rewrite !rsumn0 /sum64 /= /rv /= Rminus_0_r Rabs_R0 err0; lra.
rewrite sum64S => /add_finite [fs fp E]; have [fk {}IH] := IH fs.
split=> [k|].
  by rewrite ltnS leq_eqVlt => /orP[/eqP->|/fk].
rewrite !rsumnS E [n.+1.-1]/=.
case: n fs fp fk IH {E} => [|n] fs fp fk IH.
  have -> : rv (sum64 0 x) = 0 by [].
  rewrite Rplus_0_l rnd_id; last exact: fmt_rv.
  by rewrite !rsumn0 !Rplus_0_l Rminus_diag_eq // Rabs_R0 err0; lra.
have [[d [hd ->]] _] := rnd_add (fmt_rv (sum64 n.+1 x)) (fmt_rv (x n.+1)).
rewrite [n.+1.-1]/= in IH.
set s := rv (sum64 n.+1 x) in IH *; set y := rv (x n.+1).
set T := rsumn n.+1 _ in IH *; set A := rsumn n.+1 _ in IH *.
have TA : Rabs T <= A by apply: rsum_abs.
have u0 := u64_gt0; have y0 := Rabs_pos y.
have h1d : Rabs (1 + d) <= 1 + u64 by apply: Rle_trans (Rabs_triang _ _) _; rewrite Rabs_R1; lra.
have -> : (s + y) * (1 + d) - (T + y) = (s - T) * (1 + d) + (T + y) * d by ring.
apply: Rle_trans (Rabs_triang _ _) _.
have t1 := abs_mul_le IH h1d.
have TyA : Rabs (T + y) <= A + Rabs y by apply: Rle_trans (Rabs_triang _ _) _; lra.
have t2 := abs_mul_le TyA hd.
have -> : err n.+1 = err n * (1 + u64) + u64 by rewrite /err growS; ring.
have : 0 <= err n * (1 + u64) * Rabs y.
  by apply: Rmult_le_pos => //; apply: Rmult_le_pos; [exact: err_ge0|lra].
lra.
Qed.

(** r = sqrt(s) squared *)
Lemma sqrt_sq_err s : finite (Bsqrt mode_NE s) ->
  [/\ finite s, 0 <= rv s, 0 <= rv (Bsqrt mode_NE s) & Rabs (rv (Bsqrt mode_NE s) * rv (Bsqrt mode_NE s) - rv s) <= err 2 * rv s].
Proof.
move=> /sqrt_finite [fs s0 E]; have [[d [hd Ed]] _] := rnd_sqrt (fmt_rv s).
have u0 := u64_gt0; have u1 := u64_lt1; have hd' := Rabs_bound hd; have q0 := sqrt_pos (rv s).
split=> //; first by rewrite E Ed; apply: Rmult_le_pos; lra.
rewrite E Ed; have -> : sqrt (rv s) * (1 + d) * (sqrt (rv s) * (1 + d)) - rv s = (sqrt (rv s) * sqrt (rv s)) * (2 * d + d * d) + (sqrt (rv s) * sqrt (rv s) - rv s) by ring.
rewrite sqrt_sqrt // Rminus_diag_eq // Rplus_0_r Rmult_comm.
have -> : err 2 = 2 * u64 + u64 * u64 by rewrite /err /grow /=; ring.
rewrite -{2}[rv s]Rabs_pos_eq //; apply: abs_mul_le; last exact: Rle_refl.
apply: Rle_trans (Rabs_triang _ _) _; apply: Rplus_le_compat; last exact: abs_mul_le.
by rewrite Rabs_mult (Rabs_pos_eq 2); lra.
Qed.

(** the root of a sum of n squares *)
Lemma norm64_err n a : let r := Bsqrt mode_NE (dot64 b64_zero n a a) in finite r ->
  [/\ forall k, (k < n)%N -> finite (a k), 0 <= rv r &
   Rabs (rv r * rv r - rsumn n (fun k => rv (a k) * rv (a k))) <=
   err n.+2 * rsumn n (fun k => rv (a k) * rv (a k)) + INR n * (grow n.+2 * eta64)].
Proof.
move=> r fr; have [fs s0 r0 h] := sqrt_sq_err fr; rewrite -/r in r0 h.
have [fk hs] := dot64_err fs; split=> //; first by move=> k /fk [].
set s := rv (dot64 _ _ _ _) in s0 h hs; set T := rsumn n _ in hs *.
have eT : rsumn n (fun k => Rabs (rv (a k)) * Rabs (rv (a k))) = T.
  by apply: rsumn_ext => k _; rewrite -Rabs_mult Rabs_pos_eq //; nra.
rewrite eT in hs.
have -> : rv r * rv r - T = (rv r * rv r - s) + (s - T) by ring.
apply: Rle_trans (Rabs_triang _ _) _.
set q := INR n * (grow n * eta64) in hs; have [_ hs2] := Rabs_bound hs.
have e2 := err_ge0 2.
have hb : err 2 * s <= err 2 * (T + (err n * T + q)) by apply: Rmult_le_compat_l => //; lra.
have -> : err n.+2 = err n + err 2 * (1 + err n) by rewrite /err /grow /=; ring.
have -> : INR n * (grow n.+2 * eta64) = (1 + err 2) * q by rewrite /q /err !growS {2}/grow /=; ring.
lra.
Qed.

Lemma rv_int1 : rv (b64_int 1) = 1.
Proof.
rewrite /rv -SF2R_B2SF; have -> : B2SF (b64_int 1) = SpecFloat.S754_finite false 4503599627370496 (-52) by vm_compute.
by rewrite /SF2R /F2R /=; lra.
Qed.

