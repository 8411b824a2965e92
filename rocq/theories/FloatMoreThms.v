(** * FloatMoreThms: element-wise operations, determinant and hypot in f64 (C55-C57) *)
From Coq Require Import ZArith Reals Lra Psatz.
From Flocq Require Import Core BinarySingleNaN.
From mathcomp Require Import all_ssreflect all_algebra zify.
From mathcomp Require Import fingroup perm.
From Verif Require Import Base Scalar Hoare ModelMatrix ModelLU ModelHypot Spec MatrixProofs MatrixProofs2 MatrixThms LUProofs LUEval B64 SpecFloat64 FloatBase FloatLU FloatLUThms.

Set Implicit Arguments.
Unset Strict Implicit.
Unset Printing Implicit Defensive.
Local Open Scope R_scope.

Lemma nearest_rnd x (y : b64) : rv y = round radix2 (FLT_exp (SpecFloat.emin b_prec b_emax) b_prec) ZnearestE x -> nearest x y.
Proof.
move=> E z fz; rewrite E.
have [_ h] := round_N_pt radix2 (FLT_exp (SpecFloat.emin b_prec b_emax) b_prec) (fun x => negb (Z.even x)) x.
by apply: h; apply: fmt_rv.
Qed.

(*@section C55 element-wise operations in f64 @*)

(*@doc C55: +, -, elem_mul and scale on f64 matrices succeed, and each element of the result is correctly rounded: if it is
  finite, its operands are finite and no f64 is closer to the exact value.  It is finite whenever the operands are and the
  exact value does not exceed 2^1023 in absolute value. *)
Lemma ops_nearest_L : forall g m n (A B : 'M[b64]_(m.+1, n)) (k : b64),
  exists C D E F : 'M[b64]_(m.+1, n),
  [/\ add (N:=B64) g (mat_of A) (mat_of B) = Ok (mat_of C),
      sub (N:=B64) g (mat_of A) (mat_of B) = Ok (mat_of D),
      elem_mul (N:=B64) g (mat_of A) (mat_of B) = Ok (mat_of E),
      scale (N:=B64) g (mat_of A) k = Ok (mat_of F) &
  forall i j, let a := rv (A i j) in let b := rv (B i j) in
  [/\ finite (C i j) -> [/\ finite (A i j), finite (B i j) & nearest (a + b) (C i j)],
      finite (D i j) -> [/\ finite (A i j), finite (B i j) & nearest (a - b) (D i j)],
      finite (E i j) -> [/\ finite (A i j), finite (B i j) & nearest (a * b) (E i j)],
      finite (F i j) -> [/\ finite (A i j), finite k & nearest (rv k * a) (F i j)] &
   finite (A i j) -> finite (B i j) -> finite k ->
   [/\ Rabs (a + b) <= 2 ^ 1023 -> finite (C i j), Rabs (a - b) <= 2 ^ 1023 -> finite (D i j),
       Rabs (a * b) <= 2 ^ 1023 -> finite (E i j) & Rabs (rv k * a) <= 2 ^ 1023 -> finite (F i j)]]].
Proof.
move=> g m n A B k; have [e1 e2 e3] := @binary_ok_L B64 g m.+1 n A B (ltn0Sn m).
have [_ _ e4 _] := @unary_ok_L B64 g m.+1 n A k.
exists (\matrix_(i, j) Bplus mode_NE (A i j) (B i j))%R, (\matrix_(i, j) Bminus mode_NE (A i j) (B i j))%R.
exists (\matrix_(i, j) Bmult mode_NE (A i j) (B i j))%R, (map_mx (Bmult mode_NE k) A).
split=> // i j a b; rewrite !mxE; split.
- by move=> /add_finite [fx fy E]; split=> //; apply: nearest_rnd.
- by move=> /sub_finite [fx fy E]; split=> //; apply: nearest_rnd.
- by move=> /mul_finite [fx fy E]; split=> //; apply: nearest_rnd.
- by move=> /mul_finite [fx fy E]; split=> //; apply: nearest_rnd.
- move=> fa fb fk; split; [exact: add_ok|exact: sub_ok|exact: mul_ok64|exact: mul_ok64].
Qed.

(*@doc C55: element-wise division never panics in f64 (unlike on integers); a finite quotient by a finite element is
  correctly rounded. *)
Lemma elem_div_nearest_L : forall g m n (A B : 'M[b64]_(m.+1, n)),
  exists C : 'M[b64]_(m.+1, n), elem_div (N:=B64) g (mat_of A) (mat_of B) = Ok (mat_of C) /\
  forall i j, let a := rv (A i j) in let b := rv (B i j) in
  (finite (B i j) -> finite (C i j) -> [/\ finite (A i j), b <> 0 & nearest (a / b) (C i j)]) /\
  (finite (A i j) -> b <> 0 -> Rabs (a / b) <= 2 ^ 1023 -> finite (C i j)).
Proof.
move=> g m n A B; exists (\matrix_(i, j) Bdiv mode_NE (A i j) (B i j))%R; split.
  by apply: (@elem_div_ok_L B64) => // i j; rewrite mxE.
move=> i j a b; rewrite mxE; split; last exact: div_ok.
by move=> fb /(div_finite fb) [fa b0 E]; split=> //; apply: nearest_rnd.
Qed.

(*@doc C55: negation is exact. *)
Lemma neg_exact_L : forall g m n (A : 'M[b64]_(m, n)),
  exists C : 'M[b64]_(m, n), neg (N:=B64) g (mat_of A) = Ok (mat_of C) /\
  forall i j, (finite (C i j) <-> finite (A i j)) /\ rv (C i j) = - rv (A i j).
Proof.
move=> g m n A; have [e _ _ _] := @unary_ok_L B64 g m n A (n_zero B64).
exists (map_mx (@Bopp b_prec b_emax) A); split=> // i j; rewrite mxE; split; last exact: B2R_Bopp.
by rewrite /finite is_finite_Bopp.
Qed.

(*@example
(** 1 + 2^-60 is not an f64: the sum is rounded to 1 *)
Example ops_nearest_example :
  match add (N:=B64) (fun=> B754_nan) (Mat 1 [:: b64_int 1]) (Mat 1 [:: b64_of 1 (Z.opp (Z.of_nat 60))]) with
  | Ok (Mat 1 [:: x]) => Beqb x (b64_int 1) | _ => false end.
Proof. by vm_cast_no_check (erefl true). Qed.
@*)

(*@section C56 determinant in f64 @*)

Lemma Rmult_assoc' : associative Rmult. Proof. by move=> x y z; rewrite Rmult_assoc. Qed.
Canonical Rmult_monoid := Monoid.Law Rmult_assoc' Rmult_1_l Rmult_1_r.
Canonical Rmult_comoid := Monoid.ComLaw Rmult_comm.

(** products of f64 numbers *)
Lemma prod_err (p0 : b64) (u : nat -> b64) n : Rabs (rv p0) = 1 ->
  let p k := foldl (fun acc j => Bmult mode_NE acc (u j)) p0 (iota 0 k) in
  let P k := rv p0 * \big[Rmult/1]_(j < k) rv (u j) in
  finite (p n) ->
  (forall j, (j < n)%N -> finite (u j)) /\
  Rabs (rv (p n) - P n) <= err n * Rabs (P n) +
    grow n * eta64 * (\rsum_(i < n) (\big[Rmult/1]_(j < n | (i < j)%N) Rabs (rv (u j)))).
Proof.
move=> h0 p P; elim: n => [|n IH] fp.
  split=> //; rewrite /P big_ord0 Rmult_1_r -[p 0%N]/p0 Rminus_diag_eq // Rabs_R0 err0 big_ord0; lra.
have pS : p n.+1 = Bmult mode_NE (p n) (u n) by rewrite /p -addn1 iotaD foldl_cat.
rewrite pS in fp; have [fpn fu E] := mul_finite fp; have [fI hI] := IH fpn.
split; first by move=> j; rewrite ltnS leq_eqVlt => /orP[/eqP ->|] //; apply: fI.
set W := \rsum_(i < n) _ in hI.
have PS : P n.+1 = P n * rv (u n) by rewrite /P big_ord_recr /=; ring.
have -> : \rsum_(i < n.+1) (\big[Rmult/1]_(j < n.+1 | (i < j)%N) Rabs (rv (u j))) = W * Rabs (rv (u n)) + 1.
  rewrite big_ord_recr /= (_ : \big[Rmult/1]_(j < n.+1 | (n < j)%N) _ = 1); last first.
    by apply: big_pred0 => j; apply/negbTE; have := ltn_ord j; lia.
  congr (_ + 1); rewrite Rmult_comm -[RHS](rsumn_scal n (Rabs (rv (u n))) (fun i => \big[Rmult/1]_(j < n | (i < j)%N) Rabs (rv (u j)))).
  apply: eq_bigr => i _; rewrite big_mkcond big_ord_recr /= ltn_ord Rmult_comm; congr (_ * _).
  by rewrite [RHS]big_mkcond.
rewrite pS E PS; have [d [e [hd he ->]]] := rnd_mul (rv (p n) * rv (u n)).
have u0 := u64_gt0; have e0 := eta64_gt0; have g1 := grow_ge1 n.
have W0 : 0 <= W.
  apply: rsum_ge0 => i; apply: big_ind => [||j _]; [lra|exact: Rmult_le_pos|exact: Rabs_pos].
set a := rv (p n) in hI *; set b := rv (u n); set Q := P n in hI *.
have -> : a * b * (1 + d) + e - Q * b = ((a - Q) * b) * (1 + d) + (Q * b) * d + e by ring.
have h1 : Rabs ((a - Q) * b) <= (err n * Rabs Q + grow n * eta64 * W) * Rabs b by apply: abs_mul_le => //; apply: Rle_refl.
have h2 : Rabs (1 + d) <= 1 + u64 by apply: Rle_trans (Rabs_triang _ _) _; rewrite Rabs_R1; lra.
have h3 := abs_mul_le h1 h2.
have h4 : Rabs (Q * b * d) <= Rabs Q * Rabs b * u64 by rewrite -Rabs_mult; apply: abs_mul_le => //; apply: Rle_refl.
have h5 : Rabs ((a - Q) * b * (1 + d) + Q * b * d + e) <= Rabs ((a - Q) * b * (1 + d)) + Rabs (Q * b * d) + Rabs e.
  by apply: Rle_trans (Rabs_triang _ _) _; apply: Rplus_le_compat_r; apply: Rabs_triang.
rewrite /err in h3; rewrite (Rabs_mult Q b) /err growS.
have h6 : eta64 <= (1 + u64) * grow n * eta64.
  rewrite -{1}[eta64]Rmult_1_l; apply: Rmult_le_compat_r; first lra.
  by rewrite -[1]Rmult_1_l; apply: Rmult_le_compat; lra.
lra.
Qed.

(*@doc C56: det never panics on a square f64 matrix (NaN and infinities included).  It multiplies the diagonal elements of
  the computed U, the sign being that of the row permutation: when the result is finite, so are they, and the result is
  their exact product up to (1+u)^n - 1, plus an underflow term. *)
Lemma det_rounding_L : forall gp n (A : 'M[b64]_n.+1),
  exists (d : lu_decomp B64) (s : 'S_n.+1) (U : 'M[b64]_n.+1) (x : b64),
  [/\ lu_new (S:=B64) gp (mat_of A) = Ok d, lu_get_piv d = perm_list s, forall g, lu_get_u g d = Ok (mat_of U),
      lu_det d = Ok x /\ det (S:=B64) gp (mat_of A) = Ok x &
  finite x ->
  let P := (if odd_perm s then -1 else 1) * \big[Rmult/1]_(j < n.+1) rv (U j j) in
  (forall j, finite (U j j)) /\
  Rabs (rv x - P) <= err n.+1 * Rabs P +
    grow n.+1 * eta64 * (\rsum_(i < n.+1) (\big[Rmult/1]_(j < n.+1 | (i < j)%N) Rabs (rv (U j j))))].
Proof.
move=> gp n A; have [d [s [f [q [e Hd Hp Hq [Hf Hpv sg]]]]]] := lu_new64 gp A.
have ed := lu_det_ev Hd (ltn0Sn n) erefl.
set x := foldl _ _ _ in ed.
exists d, s, (umx n.+1 n.+1 f), x; split=> //.
- move=> g'; have := lu_get_u_ev Hd (ltn0Sn n) (ltn0Sn n) g'; rewrite minnn => hu.
  by apply: wp_mat_of hu _ => // i j; rewrite mxE.
- split; first exact: ed.
  have c := rep_cols (mat_of_rep b64_zero A) (ltn0Sn n); rewrite /det c; cbn [bind]; rewrite (rep_no_rows (mat_of_rep b64_zero A)) eqxx; cbn [bind].
  by rewrite e; exact: ed.
move=> fx P; have UE j : umx n.+1 n.+1 f j j = f j j by rewrite mxE /ufnS leqnn.
pose p0 : b64 := if pospivsign d then b64_int 1 else Bopp (b64_int 1).
have rp0 : rv p0 = if odd_perm s then -1 else 1.
  rewrite /p0 sg; case: odd_perm; last exact: rv_int1.
  by rewrite -[~~ true]/false; apply: (etrans (B2R_Bopp _ _ _)); rewrite -[B2R _]/(rv _) rv_int1.
have ap0 : Rabs (rv p0) = 1 by rewrite rp0; case: odd_perm; rewrite ?Rabs_R1 // -[-1]/(- (1)) Rabs_Ropp Rabs_R1.
have [h1 h2] := @prod_err p0 (fun j => f j j) n.+1 ap0 fx.
split; first by move=> j; rewrite UE; apply: h1.
have -> : P = rv p0 * \big[Rmult/1]_(j < n.+1) rv (f j j) by rewrite /P rp0; congr (_ * _); apply: eq_bigr => j _; rewrite UE.
rewrite (_ : \rsum_(i < n.+1) (\big[Rmult/1]_(j < n.+1 | (i < j)%N) Rabs (rv (umx n.+1 n.+1 f j j))) = \rsum_(i < n.+1) (\big[Rmult/1]_(j < n.+1 | (i < j)%N) Rabs (rv (f j j)))) //.
by apply: eq_bigr => i _; apply: eq_bigr => j _; rewrite UE.
Qed.

(*@section C57 hypot in f64 @*)

Definition hyp (x y : R) : R := sqrt (x * x + y * y).

Lemma hyp_core (p q : b64) : finite p -> finite q -> rv p <> 0 -> Rabs (rv q) <= Rabs (rv p) -> hyp (rv p) (rv q) <= 2 ^ 1022 ->
  let r := Bdiv mode_NE q p in
  let h := Bmult mode_NE (Babs p) (Bsqrt mode_NE (Bplus mode_NE (b64_int 1) (Bmult mode_NE r r))) in
  [/\ finite h, 0 <= rv h & Rabs (rv h - hyp (rv p) (rv q)) <= err 5 * hyp (rv p) (rv q) + eta64].
Proof.
move=> fp fq p0 qp hb r h.
have u0 := u64_gt0; have e0 := eta64_gt0; have u1 := u64_lt1.
have eu : 4 * eta64 <= u64.
  have -> : 4 = 2 ^ 2 by rewrite /=; ring.
  rewrite /eta64 /u64; apply: (Rmult_le_reg_l (2 ^ 1075)); first by apply: pow_lt; lra.
  have -> : 2 ^ 1075 * (2 ^ 2 * / 2 ^ 1075) = 2 ^ 2 by field; apply: pow_nonzero; lra.
  have -> : 2 ^ 1075 * / 2 ^ 53 = 2 ^ 1022.
    by rewrite -[1075%N]/(1022 + 53)%N pow_add; field; apply: pow_nonzero; lra.
  by apply: Rle_pow; [lra|lia].
have ap : 0 < Rabs (rv p) by apply: Rabs_pos_lt.
pose rho := rv q / rv p.
have arho : Rabs rho <= 1.
  rewrite /rho /Rdiv Rabs_mult Rabs_Rinv //; apply: (Rmult_le_reg_r (Rabs (rv p))) => //.
  by rewrite Rmult_assoc Rinv_l; lra.
have big1 : 4 <= big64.
  by rewrite /big64; apply: Rle_trans (_ : 2 ^ 2 <= _); [rewrite /=; lra|apply: Rle_pow; [lra|lia]].
have fr : finite r by apply: div_ok => //; rewrite -/rho; lra.
have [_ _ Er] := div_finite fp fr; rewrite -/r -/rho in Er.
have r1 : Rabs (rv r) <= 1 by rewrite Er; apply: abs_rnd_le1.
have rr1 : rv r * rv r <= 1 by have := abs_mul_le r1 r1 => /Rabs_bound; lra.
have rr0 : 0 <= rv r * rv r by apply: Rle_0_sqr.
have fz : finite (Bmult mode_NE r r) by apply: mul_ok64 => //; rewrite Rabs_pos_eq //; lra.
have [_ _ Ez] := mul_finite fz; set z := Bmult mode_NE r r in fz Ez h *.
have [d2 [e2 [hd2 he2 Ez2]]] := rnd_mul (rv r * rv r); rewrite -Ez in Ez2.
have [d1 [e1 [hd1 he1 Er1]]] := rnd_mul rho; rewrite -Er in Er1.
set X := 1 + rho * rho.
have rho0 : 0 <= rho * rho by apply: Rle_0_sqr.
have rhoX : 2 * Rabs rho <= X.
  have : rho * rho = Rabs rho * Rabs rho by rewrite -Rabs_mult Rabs_pos_eq.
  by have := Rle_0_sqr (Rabs rho - 1); rewrite /Rsqr /X; lra.
have X1 : 1 <= X by rewrite /X; lra.
have D1 : Rabs (rv r - rho) <= u64 * Rabs rho + eta64.
  have -> : rv r - rho = rho * d1 + e1 by rewrite Er1; ring.
  apply: Rle_trans (Rabs_triang _ _) _; apply: Rplus_le_compat => //.
  by rewrite Rmult_comm; apply: abs_mul_le => //; apply: Rle_refl.
have D2 : Rabs (rv r * rv r - rho * rho) <= (u64 * Rabs rho + eta64) * 2.
  have -> : rv r * rv r - rho * rho = (rv r - rho) * (rv r + rho) by ring.
  by apply: abs_mul_le => //; apply: Rle_trans (Rabs_triang _ _) _; lra.
have D3 : Rabs (rv z - rv r * rv r) <= u64 + eta64.
  have -> : rv z - rv r * rv r = d2 * (rv r * rv r) + e2 by rewrite Ez2; ring.
  apply: Rle_trans (Rabs_triang _ _) _; apply: Rplus_le_compat => //.
  by rewrite -[u64]Rmult_1_r; apply: abs_mul_le => //; rewrite Rabs_pos_eq.
have D4 : Rabs (1 + rv z - X) <= 3 * u64 * X.
  have -> : 1 + rv z - X = (rv z - rv r * rv r) + (rv r * rv r - rho * rho) by rewrite /X; ring.
  apply: Rle_trans (Rabs_triang _ _) _.
  have : u64 * (2 * Rabs rho) <= u64 * X by apply: Rmult_le_compat_l; lra.
  have : u64 * 1 <= u64 * X by apply: Rmult_le_compat_l; lra.
  lra.
have f1 : finite (b64_int 1) by [].
have X2 : X <= 2.
  by have := abs_mul_le arho arho; rewrite Rabs_pos_eq // /X; lra.
have ux : u64 * X <= / 1024 * X by apply: Rmult_le_compat_r; lra.
have /Rabs_bound [D4l D4u] := D4.
have fs : finite (Bplus mode_NE (b64_int 1) z).
  by apply: add_ok => //; rewrite rv_int1; apply: Rabs_le; lra.
have [_ _ Es] := add_finite fs; rewrite rv_int1 in Es.
set s := Bplus mode_NE (b64_int 1) z in fs Es h *.
have [[d3 [hd3 Es3]] _] := rnd_add (x:=1) (y:=rv z) (ltac:(rewrite -rv_int1; exact: fmt_rv)) (fmt_rv z).
rewrite -Es in Es3; have /Rabs_bound [d3l d3u] := hd3.
(* s between the squares of (1 - 3u) sqrt X and (1 + 2u) sqrt X *)
have sl : (1 - 3 * u64) * (1 - u64) * X <= rv s.
  rewrite Es3; have -> : (1 - 3 * u64) * (1 - u64) * X = ((1 - 3 * u64) * X) * (1 - u64) by ring.
  by apply: Rmult_le_compat; [apply: Rmult_le_pos; lra|lra|lra|lra].
have su : rv s <= (1 + 3 * u64) * (1 + u64) * X.
  rewrite Es3; have -> : (1 + 3 * u64) * (1 + u64) * X = ((1 + 3 * u64) * X) * (1 + u64) by ring.
  by apply: Rmult_le_compat; lra.
have s0 : 0 <= rv s by apply: Rle_trans sl; apply: Rmult_le_pos; [apply: Rmult_le_pos; lra|lra].
have uu : u64 * u64 <= u64 * / 1024 by apply: Rmult_le_compat_l; lra.
have uu0 : 0 <= u64 * u64 by apply: Rle_0_sqr.
set Y := sqrt X; have Y0 : 0 <= Y by apply: sqrt_pos.
have YY : Y * Y = X by apply: sqrt_sqrt; lra.
have ql : (1 - 3 * u64) * Y <= sqrt (rv s).
  have -> : (1 - 3 * u64) * Y = sqrt (((1 - 3 * u64) * Y) * ((1 - 3 * u64) * Y)) by rewrite sqrt_square //; apply: Rmult_le_pos; lra.
  apply: sqrt_le_1_alt; apply: Rle_trans sl.
  have -> : (1 - 3 * u64) * Y * ((1 - 3 * u64) * Y) = (1 - 3 * u64) * (1 - 3 * u64) * X by rewrite -YY; ring.
  by apply: Rmult_le_compat_r; [lra|apply: Rmult_le_compat_l; lra].
have qu : sqrt (rv s) <= (1 + 3 * u64) * Y.
  have -> : (1 + 3 * u64) * Y = sqrt (((1 + 3 * u64) * Y) * ((1 + 3 * u64) * Y)) by rewrite sqrt_square //; apply: Rmult_le_pos; lra.
  apply: sqrt_le_1_alt; apply: Rle_trans su _.
  have -> : (1 + 3 * u64) * Y * ((1 + 3 * u64) * Y) = (1 + 3 * u64) * (1 + 3 * u64) * X by rewrite -YY; ring.
  by apply: Rmult_le_compat_r; [lra|apply: Rmult_le_compat_l; lra].
have ft : finite (Bsqrt mode_NE s) by apply: sqrt_ok.
have [_ _ Et] := sqrt_finite ft; set t := Bsqrt mode_NE s in ft Et h *.
have [[d4 [hd4 Et4]] _] := rnd_sqrt (fmt_rv s); rewrite -Et in Et4; have /Rabs_bound [d4l d4u] := hd4.
have tl : (1 - 3 * u64) * Y * (1 - u64) <= rv t.
  by rewrite Et4; apply: Rmult_le_compat; [apply: Rmult_le_pos; lra|lra|lra|lra].
have tu : rv t <= (1 + 3 * u64) * Y * (1 + u64).
  by rewrite Et4; apply: Rmult_le_compat; [apply: sqrt_pos|lra|lra|lra].
have t0 : 0 <= rv t by rewrite Et4; apply: Rmult_le_pos; [apply: sqrt_pos|lra].
have hE : hyp (rv p) (rv q) = Rabs (rv p) * Y.
  rewrite /hyp -[Rabs (rv p)]sqrt_Rsqr_abs /Y -sqrt_mult_alt; last exact: Rle_0_sqr.
  by congr sqrt; rewrite /X /rho /Rsqr; field.
rewrite hE in hb *; set a := Rabs (rv p) in ap hb *.
have fa : finite (Babs p) by rewrite /finite is_finite_Babs.
have ra : rv (Babs p) = a by rewrite /rv B2R_Babs.
have aY0 : 0 <= a * Y by apply: Rmult_le_pos; lra.
have at_u : a * rv t <= (1 + 3 * u64) * (1 + u64) * (a * Y).
  have -> : (1 + 3 * u64) * (1 + u64) * (a * Y) = a * ((1 + 3 * u64) * Y * (1 + u64)) by ring.
  by apply: Rmult_le_compat_l; lra.
have at_l : (1 - 3 * u64) * (1 - u64) * (a * Y) <= a * rv t.
  have -> : (1 - 3 * u64) * (1 - u64) * (a * Y) = a * ((1 - 3 * u64) * Y * (1 - u64)) by ring.
  by apply: Rmult_le_compat_l; lra.
have at0 : 0 <= a * rv t by apply: Rmult_le_pos; lra.
have uaY : u64 * (a * Y) <= / 1024 * (a * Y) by apply: Rmult_le_compat_r; lra.
have uuaY : u64 * u64 * (a * Y) <= / 1024 * (u64 * (a * Y)).
  by rewrite Rmult_assoc; apply: Rmult_le_compat_r; [apply: Rmult_le_pos; lra|lra].
have uuaY0 : 0 <= u64 * u64 * (a * Y) by apply: Rmult_le_pos.
have fh : finite h.
  apply: mul_ok64 => //; rewrite ra Rabs_pos_eq //.
  have -> : big64 = 2 * 2 ^ 1022 by rewrite /big64.
  lra.
split=> //.
  have [_ _ ->] := mul_finite fh; rewrite ra; apply: round_ge_generic at0; exact: generic_format_0.
have [_ _ ->] := mul_finite fh; rewrite ra; have [d5 [e5 [hd5 he5 ->]]] := rnd_mul (a * rv t).
have /Rabs_bound [d5l d5u] := hd5; have /Rabs_bound [e5l e5u] := he5.
have E5 : err 5 = 5 * u64 + 10 * (u64 * u64) + 10 * (u64 * u64 * u64) + 5 * (u64 * u64 * (u64 * u64)) + u64 * u64 * u64 * (u64 * u64) by rewrite /err /grow /=; ring.
have e5b : 5 * u64 + 10 * (u64 * u64) + 10 * (u64 * u64 * u64) <= err 5.
  rewrite E5; have h4 : 0 <= u64 * u64 * (u64 * u64) by apply: Rmult_le_pos.
  have h5 : 0 <= u64 * u64 * u64 * (u64 * u64) by apply: Rmult_le_pos => //; apply: Rmult_le_pos; lra.
  lra.
have e5b' : (5 * u64 + 10 * (u64 * u64) + 10 * (u64 * u64 * u64)) * (a * Y) <= err 5 * (a * Y) by apply: Rmult_le_compat_r.
have up : a * rv t * (1 + d5) <= (1 + 3 * u64) * (1 + u64) * (a * Y) * (1 + u64) by apply: Rmult_le_compat; lra.
have low : (1 - 3 * u64) * (1 - u64) * (a * Y) * (1 - u64) <= a * rv t * (1 + d5).
  by apply: Rmult_le_compat; [apply: Rmult_le_pos; [apply: Rmult_le_pos; lra|]|lra|lra|lra].
have u3 : 0 <= u64 * u64 * u64 * (a * Y) by apply: Rmult_le_pos; [apply: Rmult_le_pos; lra|].
apply: Rabs_le; lra.
Qed.

Lemma hyp_sym x y : hyp x y = hyp y x. Proof. by rewrite /hyp Rplus_comm. Qed.
Lemma hypot_unfold (a b : b64) : hypot (S:=B64) a b =
  if Bltb (Babs b) (Babs a) then
    let r := Bdiv mode_NE b a in Ok (Bmult mode_NE (Babs a) (Bsqrt mode_NE (Bplus mode_NE (b64_int 1) (Bmult mode_NE r r))))
  else if ~~ Beqb b b64_zero then
    let r := Bdiv mode_NE a b in Ok (Bmult mode_NE (Babs b) (Bsqrt mode_NE (Bplus mode_NE (b64_int 1) (Bmult mode_NE r r))))
  else Ok b64_zero.
Proof. by []. Qed.

(*@doc C57: hypot does not overflow or lose accuracy in the intermediate squares: for all finite a and b with
  sqrt(a^2 + b^2) <= 2^1022 the result is finite and differs from the exact value by at most (1+u)^5 - 1 of it, plus half the
  smallest subnormal.  (A direct sqrt(a*a + b*b) overflows from 2^512 on.) *)
Lemma hypot_rounding_L : forall a b : b64, finite a -> finite b ->
  sqrt (rv a * rv a + rv b * rv b) <= 2 ^ 1022 ->
  exists h, [/\ hypot (S:=B64) a b = Ok h, finite h, 0 <= rv h &
    Rabs (rv h - sqrt (rv a * rv a + rv b * rv b)) <= err 5 * sqrt (rv a * rv a + rv b * rv b) + eta64].
Proof.
move=> a b fa fb; rewrite -/(hyp (rv a) (rv b)) => hb; rewrite hypot_unfold.
have faa : finite (Babs a) by rewrite /finite is_finite_Babs.
have fbb : finite (Babs b) by rewrite /finite is_finite_Babs.
have := Bltb_correct b_prec b_emax (Babs b) (Babs a) fbb faa; rewrite !B2R_Babs -[B2R a]/(rv a) -[B2R b]/(rv b) => ->.
case: Rlt_bool_spec => lt.
  have a0 : rv a <> 0 by move=> z; rewrite z Rabs_R0 in lt; have := Rabs_pos (rv b); lra.
  have [h1 h2 h3] := hyp_core fa fb a0 (Rlt_le _ _ lt) hb.
  by eexists; split; [reflexivity| | |].
rewrite eqb0 //; case: Req_bool_spec => b0 /=.
  have a0 : rv a = 0.
    rewrite b0 Rabs_R0 in lt; case: (Req_dec (rv a) 0) => // /Rabs_pos_lt; lra.
  exists b64_zero; split=> //; first exact: Rle_refl.
  have -> : rv b64_zero = 0 by [].
  rewrite a0 b0 /hyp Rmult_0_l Rplus_0_r sqrt_0 Rminus_0_r Rmult_0_r Rabs_R0; have := eta64_gt0; lra.
have [h1 h2 h3] := hyp_core fb fa b0 lt (eq_ind _ (fun x => x <= _) hb _ (hyp_sym _ _)).
by eexists; split; [reflexivity| | |rewrite hyp_sym].
Qed.

(*@doc C57, findings: hypot never panics, but it loses NaN and infinity: hypot(NaN, 0) is 0 and hypot(inf, inf) is NaN (the
  IEEE 754 hypot is NaN and infinity). *)
Lemma hypot_nan_refuted_L :
  (forall a b, exists h, hypot (S:=B64) a b = Ok h) /\
  hypot (S:=B64) B754_nan b64_zero = Ok b64_zero /\
  forall s t, hypot (S:=B64) (B754_infinity s) (B754_infinity t) = Ok B754_nan.
Proof.
split; last by split=> // -[] [].
by move=> a b; rewrite hypot_unfold; case: ifP => _; [|case: ifP => _]; eexists; reflexivity.
Qed.

(*@example
(** 3 * 2^1000 and 4 * 2^1000: the squares overflow, the result does not *)
Example hypot_example :
  match hypot (S:=B64) (b64_of 3 1000) (b64_of 4 1000) with Ok h => Beqb h (b64_of 5 1000) | _ => false end.
Proof. by vm_cast_no_check (erefl true). Qed.
(** a 2 x 2 determinant, 6*4 - 2*1, computed with a rounded quotient (1/3) *)
Definition mx22 : mat b64 := Mat 2 [seq b64_int (Z.of_nat k) | k <- [:: 6; 1; 2; 4]%N].
Example det_example : match det (S:=B64) (fun=> 0%N) mx22 with Ok x => is_finite x | _ => false end.
Proof. by vm_cast_no_check (erefl true). Qed.
@*)
