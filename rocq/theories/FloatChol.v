(** * FloatChol: rounding error analysis of the Cholesky decomposition and its solve *)
From Coq Require Import ZArith Reals Lra Psatz.
From Flocq Require Import Core BinarySingleNaN.
From mathcomp Require Import all_ssreflect zify.
From Verif Require Import Base Scalar LUEval CholEval B64 SpecFloat64 FloatBase FloatLU.

Set Implicit Arguments.
Unset Strict Implicit.
Unset Printing Implicit Defensive.
Local Open Scope R_scope.

Definition bsqrt (x : b64) : b64 := Bsqrt mode_NE x.

(** d = r^2 up to two roundings, r the computed root *)
Lemma sqrt_back d : let r := Bsqrt mode_NE d in finite r ->
  [/\ finite d, 0 <= rv d, 0 <= rv r & Rabs (rv d - rv r * rv r) <= err 2 * (rv r * rv r)].
Proof.
move=> r fr; have [fs s0 r0 _] := sqrt_sq_err fr; rewrite -/r in r0.
have [_ _ E] := sqrt_finite fr; have [_ [e [he Ee]]] := rnd_sqrt (fmt_rv d).
rewrite -/r in E; split=> //.
have -> : rv d = rv r * rv r * ((1 + e) * (1 + e)).
  rewrite -{1}[rv d]sqrt_sqrt // E {1 2}Ee; ring.
have -> : rv r * rv r * ((1 + e) * (1 + e)) - rv r * rv r = (2 * e + e * e) * (rv r * rv r) by ring.
have rr : 0 <= rv r * rv r by apply: Rmult_le_pos.
rewrite -{2}[rv r * rv r]Rabs_pos_eq //; apply: abs_mul_le; last exact: Rle_refl.
have -> : err 2 = 2 * u64 + u64 * u64 by rewrite /err /grow /=; ring.
apply: Rle_trans (Rabs_triang _ _) _; apply: Rplus_le_compat; last exact: abs_mul_le.
by rewrite Rabs_mult (Rabs_pos_eq 2); lra.
Qed.

Lemma leb0 (x : b64) : finite x -> ~~ Bleb x b64_zero -> 0 < rv x.
Proof.
move=> fx; have := Bleb_correct b_prec b_emax x b64_zero fx (erefl true) => ->.
by case: Rle_bool_spec.
Qed.

Lemma sqrt_pos64 d : finite (Bsqrt mode_NE d) -> ~~ Bleb d b64_zero -> 0 < rv (Bsqrt mode_NE d).
Proof.
move=> fr nle; have [fd d0 r0 h] := sqrt_back fr.
have dp := leb0 fd nle.
set r := rv (Bsqrt mode_NE d) in r0 h *.
case: (Req_dec r 0) => [z|]; last by lra.
by rewrite z Rmult_0_r Rmult_0_r Rminus_0_r Rabs_pos_eq in h; lra.
Qed.

Lemma eqb_fin (x y : b64) : finite y -> Beqb x y -> finite x /\ rv x = rv y.
Proof.
move=> fy; have fx : Beqb x y -> finite x.
  by case: x => [s|s||s m e B] //; case: y fy => [s'|s'||s' m' e' B'] // _; case: s.
move=> h; have fx' := fx h; split=> //; move: h; rewrite (Beqb_correct _ _ _ _ fx' fy).
by case: Req_bool_spec.
Qed.

(** one row of a triangular solve *)
Lemma tri_err ks (c d : b64) (zs g : nat -> b64) :
  let z := bdiv (chain (S:=B64) c ks zs g) d in finite d -> finite z ->
  [/\ finite c, rv d <> 0 &
  Rabs (rv c - (\big[Rplus/0]_(k <- ks) (rv (g k) * rv (zs k)) + rv d * rv z)) <=
    err (size ks).+1 * (\big[Rplus/0]_(k <- ks) (Rabs (rv (g k)) * Rabs (rv (zs k))) + Rabs (rv d) * Rabs (rv z)) +
    grow (size ks).+1 * eta64 * (INR (size ks) + Rabs (rv d))].
Proof.
move=> z fd fz.
have [ft d0 ht] := div_back fd fz; rewrite -[Bdiv _ _ _]/z in ht.
have [fc _ h] := chain_err ft; split=> //.
set t := rv (chain (S:=B64) _ _ _ _) in ht h; move: h; set P := \big[_/_]_(_ <- _) _; set Q := \big[_/_]_(_ <- _) _ => h.
set dd := rv d in ht d0 *; set x := rv z in ht *; set N := size ks in h *.
rewrite -Rabs_mult (Rmult_comm dd x).
have u0 := u64_gt0; have e0 := eta64_gt0; have g1 := grow_ge1 N.
have dp := Rabs_pos dd; have xd := Rabs_pos (x * dd).
have Q0 : 0 <= Q.
  by rewrite /Q; elim: (ks) => [|k l IH]; rewrite ?big_nil ?big_cons; [lra|have := Rabs_pos (rv (g k)); have := Rabs_pos (rv (zs k)); nra].
have htt : Rabs t <= (1 + u64) * Rabs (x * dd) + eta64 * Rabs dd.
  have -> : t = (t - x * dd) + x * dd by ring.
  by apply: Rle_trans (Rabs_triang _ _) _; lra.
have -> : rv c - (P + x * dd) = (rv c - P - t) + (t - x * dd) by ring.
apply: Rle_trans (Rabs_triang _ _) _.
have eN := err_ge0 N; have n0 := pos_INR N.
have h2 : err N * (Q + Rabs t) <= err N * (Q + ((1 + u64) * Rabs (x * dd) + eta64 * Rabs dd)) by apply: Rmult_le_compat_l; lra.
rewrite growS; have -> : err N.+1 = (1 + u64) * grow N - 1 by rewrite /err growS.
rewrite /err in h2 h eN.
have h4 : 0 <= u64 * grow N * Q by apply: Rmult_le_pos => //; apply: Rmult_le_pos; lra.
have h5 : 0 <= u64 * (grow N * (eta64 * Rabs dd)).
  by apply: Rmult_le_pos; [lra|apply: Rmult_le_pos; [lra|apply: Rmult_le_pos; lra]].
have h6 : 0 <= u64 * (INR N * (grow N * eta64)).
  by apply: Rmult_le_pos; [lra|apply: Rmult_le_pos => //; apply: Rmult_le_pos; lra].
lra.
Qed.

(** b - A z from b - L y, y - U z and A - L U *)
Lemma solve_compose n (a L U : nat -> nat -> R) (b y z : nat -> R) (e1 e2 e3 C : R) (D G : nat -> R) i :
  0 <= e1 -> (forall l, (l < n)%N -> 0 <= D l) ->
  Rabs (b i - rsumn n (fun l => L i l * y l)) <= e1 * rsumn n (fun l => Rabs (L i l) * Rabs (y l)) + C ->
  (forall l, (l < n)%N -> Rabs (y l - rsumn n (fun j => U l j * z j)) <= e2 * rsumn n (fun j => Rabs (U l j) * Rabs (z j)) + D l) ->
  (forall j, (j < n)%N -> Rabs (a i j - rsumn n (fun l => L i l * U l j)) <= e3 * rsumn n (fun l => Rabs (L i l) * Rabs (U l j)) + G j) ->
  Rabs (b i - rsumn n (fun j => a i j * z j)) <=
  (e1 * (1 + e2) + e2 + e3) * rsumn n (fun l => Rabs (L i l) * rsumn n (fun j => Rabs (U l j) * Rabs (z j))) +
  C + (1 + e1) * rsumn n (fun l => Rabs (L i l) * D l) + rsumn n (fun j => G j * Rabs (z j)).
Proof.
move=> e10 D0 h1 hbw hba.
set W := fun l => rsumn n (fun j => Rabs (U l j) * Rabs (z j)).
have hyl l : (l < n)%N -> Rabs (y l) <= (1 + e2) * W l + D l.
  move=> hl; have hb := hbw l hl; rewrite -/(W l) in hb.
  have hs : Rabs (rsumn n (fun j => U l j * z j)) <= W l.
    by apply: Rle_trans (rsumn_abs _ _) _; apply: rsumn_le => j _; rewrite Rabs_mult; apply: Rle_refl.
  set s := rsumn n _ in hb hs.
  have -> : y l = (y l - s) + s by ring.
  by apply: Rle_trans (Rabs_triang _ _) _; lra.
set LW := rsumn n (fun l => Rabs (L i l) * W l).
set LD := rsumn n (fun l => Rabs (L i l) * D l).
have hLy : rsumn n (fun l => Rabs (L i l) * Rabs (y l)) <= (1 + e2) * LW + LD.
  rewrite /LW /LD -rsumn_scal -rsumn_add; apply: rsumn_le => l hl.
  have := Rmult_le_compat_l _ _ _ (Rabs_pos (L i l)) (hyl l hl); lra.
have h1' := Rmult_le_compat_l _ _ _ e10 hLy.
have h2 : Rabs (rsumn n (fun l => L i l * (y l - rsumn n (fun j => U l j * z j)))) <= e2 * LW + LD.
  apply: Rle_trans (rsumn_abs _ _) _; rewrite /LW /LD -rsumn_scal -rsumn_add; apply: rsumn_le => l hl.
  rewrite Rabs_mult; have hb := hbw l hl; rewrite -/(W l) in hb.
  have := Rmult_le_compat_l _ _ _ (Rabs_pos (L i l)) hb; lra.
pose M j := rsumn n (fun l => Rabs (L i l) * Rabs (U l j)).
have h3 : Rabs (rsumn n (fun j => (a i j - rsumn n (fun l => L i l * U l j)) * z j)) <=
    e3 * LW + rsumn n (fun j => G j * Rabs (z j)).
  apply: Rle_trans (rsumn_abs _ _) _.
  have -> : LW = rsumn n (fun j => M j * Rabs (z j)).
    rewrite /LW /W /M; rewrite (rsumn_ext (g := fun l => rsumn n (fun j => Rabs (L i l) * (Rabs (U l j) * Rabs (z j))))); last first.
      by move=> l _; rewrite rsumn_scal.
    rewrite rsumn_swap; apply: rsumn_ext => j _.
    rewrite Rmult_comm -rsumn_scal; apply: rsumn_ext => l _; ring.
  rewrite -rsumn_scal -rsumn_add; apply: rsumn_le => j hj.
  have hb := hba j hj; rewrite -/(M j) in hb.
  rewrite Rabs_mult; have := Rmult_le_compat_r _ _ _ (Rabs_pos (z j)) hb; lra.
set E1 := rsumn n _ in h1; set E2 := rsumn n _ in h2; set E3 := rsumn n _ in h3.
have -> : b i - rsumn n (fun j => a i j * z j) = (b i - E1) + E2 - E3.
  have e3' : E3 = rsumn n (fun j => a i j * z j) - rsumn n (fun l => L i l * rsumn n (fun j => U l j * z j)).
    have -> : rsumn n (fun l => L i l * rsumn n (fun j => U l j * z j)) =
              rsumn n (fun j => rsumn n (fun l => L i l * U l j) * z j).
      rewrite (rsumn_ext (g := fun l => rsumn n (fun j => L i l * (U l j * z j)))); last first.
        by move=> l _; rewrite rsumn_scal.
      rewrite rsumn_swap; apply: rsumn_ext => j _.
      rewrite Rmult_comm -rsumn_scal; apply: rsumn_ext => l _; ring.
    by rewrite -rsumn_sub /E3; apply: rsumn_ext => j _; ring.
  have e2' : E2 = E1 - rsumn n (fun l => L i l * rsumn n (fun j => U l j * z j)).
    by rewrite /E1 -rsumn_sub /E2; apply: rsumn_ext => l _; ring.
  by rewrite e3' e2'; ring.
apply: Rle_trans (Rabs_triang _ _) _; rewrite Rabs_Ropp.
have tr := Rabs_triang (b i - E1) E2.
lra.
Qed.

Section Back.
Variables (n : nat) (a f : nat -> nat -> b64).
Hypothesis Hf : ch_rows (S:=B64) bdiv bsqrt n a n f.
Hypothesis FF : forall i k, (i < n)%N -> (k < n)%N -> finite (f i k).
Local Notation num := (ch_num (S:=B64) a f).
Local Notation L i l := (rv (f i l)).

Lemma ch_upper0 i k : (i < n)%N -> (k < n)%N -> (i < k)%N -> f i k = b64_zero.
Proof. by move=> hi hk ik; case: Hf => H _ _; rewrite H // /ch_entry; do 2 (case: ifP; first lia). Qed.
Lemma ch_diag i : (i < n)%N -> f i i = Bsqrt mode_NE (num i i).
Proof. by move=> hi; case: Hf => H _ _; rewrite H // /ch_entry ltnn eqxx. Qed.
Lemma ch_lower i k : (i < n)%N -> (k < i)%N -> f i k = Bdiv mode_NE (num i k) (f k k).
Proof. by move=> hi ki; case: Hf => H _ _; rewrite H ?/ch_entry ?ki //; lia. Qed.
Lemma ch_pos i : (i < n)%N -> 0 < L i i.
Proof.
move=> hi; have := FF hi hi; rewrite ch_diag // => fd; apply: sqrt_pos64 => //.
by case: Hf => _ H _; apply: H.
Qed.

Lemma ch_num_fin i k : (i < n)%N -> (k <= i)%N -> finite (num i k).
Proof.
move=> hi; have := FF hi; rewrite leq_eqVlt => F /orP[/eqP ->|ki].
  by have := F i hi; rewrite ch_diag // => /sqrt_finite [].
have kn : (k < n)%N by lia.
by have := F k kn; rewrite ch_lower // => /(div_finite (FF kn kn)) [].
Qed.

Lemma ch_a_fin i k : (i < n)%N -> (k <= i)%N -> finite (a i k).
Proof. by move=> hi ki; have := ch_num_fin hi ki => /sub_finite []. Qed.

Lemma ch_sym i k : (i < n)%N -> (k <= i)%N -> finite (a k i) /\ rv (a k i) = rv (a i k).
Proof.
move=> hi; rewrite leq_eqVlt => /orP[/eqP ->|ki]; first by split=> //; apply: ch_a_fin.
apply: eqb_fin; first by apply: ch_a_fin => //; lia.
by case: Hf => _ _; apply; rewrite ki.
Qed.

Lemma ch_back i k : (i < n)%N -> (k <= i)%N ->
  Rabs (rv (a i k) - rsumn n (fun l => L i l * L k l)) <=
  err n.+1 * rsumn n (fun l => Rabs (L i l) * Rabs (L k l)) + grow n.+1 * eta64 * (INR n + L k k).
Proof.
move=> hi ki; have kn : (k < n)%N by lia.
have z0 : rv b64_zero = 0 by [].
rewrite (rsumn_cut (c := k)) //; last by move=> l hl; rewrite (@ch_upper0 k l) ?z0; [ring|lia|lia|lia].
rewrite (rsumn_cut (c := k) (f := fun l => Rabs (L i l) * Rabs (L k l))) //; last by move=> l hl; rewrite (@ch_upper0 k l) ?z0 ?Rabs_R0; [ring|lia|lia|lia].
have fn := ch_num_fin hi ki; have [_ _] := num_err fn.
rewrite -[Bminus _ _ _]/(num i k).
rewrite (rsumn_ext (f := fun l => L k l * L i l) (g := fun l => L i l * L k l)); last by move=> l _; ring.
rewrite (rsumn_ext (f := fun l => Rabs (L k l) * Rabs (L i l)) (g := fun l => Rabs (L i l) * Rabs (L k l))); last by move=> l _; ring.
set T := rsumn k _; set B := rsumn k _ => hn.
have B0 : 0 <= B by apply: rsumn_ge0 => l _; apply: Rmult_le_pos; apply: Rabs_pos.
have u0 := u64_gt0; have e0 := eta64_gt0; have g1 := grow_ge1 n.+1.
have ecr : err k <= err n.+1 by apply: err_le; lia.
have gcr : grow k <= grow n.+1 by apply: grow_le; lia.
have ncr : INR k <= INR n by apply: le_INR; apply/leP; lia.
have n0 := pos_INR k.
have hc : INR k * (grow k * eta64) <= grow n.+1 * eta64 * INR n.
  have -> : grow n.+1 * eta64 * INR n = INR n * (grow n.+1 * eta64) by ring.
  apply: Rmult_le_compat => //; first by apply: Rmult_le_pos; [have := grow_ge1 k; lra|lra].
  by apply: Rmult_le_compat_r; lra.
have hB : err k * B <= err n.+1 * B by apply: Rmult_le_compat_r.
have ge0 : 0 <= grow n.+1 * eta64 by apply: Rmult_le_pos; lra.
have kp := ch_pos kn.
have hU : 0 <= grow n.+1 * eta64 * L k k by apply: Rmult_le_pos; lra.
have e2 : err 2 <= err n.+1 by apply: err_le; lia.
have E2 : err 2 = 2 * u64 + u64 * u64 by rewrite /err /grow /=; ring.
set y := rv (num i k) in hn.
have hm1 : (if k is 0%N then 0 else u64 * Rabs y) <= u64 * Rabs y.
  by case: (k); [apply: Rmult_le_pos; [lra|apply: Rabs_pos]|move=> _; lra].
rewrite -Rabs_mult.
have -> : rv (a i k) - (T + L i k * L k k) = (rv (a i k) - (T + y)) + (y - L i k * L k k) by ring.
apply: Rle_trans (Rabs_triang _ _) _.
set w := L i k * L k k; have w0 := Rabs_pos w.
have e2w : err 2 * Rabs w <= err n.+1 * Rabs w by apply: Rmult_le_compat_r.
move: ki; rewrite leq_eqVlt => /orP[/eqP eik|ki].
  (* diagonal *)
  rewrite eik in y hn hm1 w w0 e2w kp hU *.
  have fr := FF hi hi; rewrite ch_diag // in fr; have [_ y0 _] := sqrt_back fr; rewrite -ch_diag // -/y -/w => hs.
  have wp : 0 <= w by apply: Rmult_le_pos; lra.
  rewrite (Rabs_pos_eq w) // in e2w *; rewrite (Rabs_pos_eq y) // in hn hm1.
  have hs' := Rabs_bound hs.
  case: (posnP k) => k0.
    have hm0 : (if i is 0%N then 0 else u64 * y) = 0 by rewrite -eik k0.
    rewrite hm0 in hn; rewrite eik in hB hc; lra.
  have e3 : u64 + (1 + u64) * err 2 <= err n.+1.
    have -> : u64 + (1 + u64) * err 2 = err 3 by rewrite /err /grow /=; ring.
    by apply: err_le; lia.
  have : u64 * y <= u64 * (w + err 2 * w) by apply: Rmult_le_compat_l; lra.
  have : (u64 + (1 + u64) * err 2) * w <= err n.+1 * w by apply: Rmult_le_compat_r.
  rewrite eik in hB hc; lra.
(* below the diagonal *)
have fik := FF hi kn; rewrite ch_lower // in fik; have [_ _] := div_back (FF kn kn) fik.
rewrite -ch_lower // -/y -/w (Rabs_pos_eq (L k k)); last by apply: Rlt_le.
move=> hyz.
have hy : Rabs y <= (1 + u64) * Rabs w + eta64 * L k k.
  have -> : y = (y - w) + w by ring.
  by apply: Rle_trans (Rabs_triang _ _) _; lra.
have hd : (1 + u64) * (eta64 * L k k) <= grow n.+1 * eta64 * L k k.
  have g1r : 1 + u64 <= grow n.+1 by have := @grow_le 1 n.+1; rewrite /grow /= Rmult_1_r; apply; lia.
  have -> : (1 + u64) * (eta64 * L k k) = (1 + u64) * eta64 * L k k by ring.
  by apply: Rmult_le_compat_r; [lra|apply: Rmult_le_compat_r; lra].
have : u64 * Rabs y <= u64 * ((1 + u64) * Rabs w + eta64 * L k k) by apply: Rmult_le_compat_l; lra.
rewrite E2 in e2w; lra.
Qed.

Lemma ch_back_sym i k : (i < n)%N -> (k < n)%N ->
  Rabs (rv (a i k) - rsumn n (fun l => L i l * L k l)) <=
  err n.+1 * rsumn n (fun l => Rabs (L i l) * Rabs (L k l)) + grow n.+1 * eta64 * (INR n + L k k + L i i).
Proof.
move=> hi hk; have ip := ch_pos hi; have kp := ch_pos hk.
have e0 := eta64_gt0; have g1 := grow_ge1 n.+1.
have ge0 : 0 <= grow n.+1 * eta64 by apply: Rmult_le_pos; lra.
have hI : 0 <= grow n.+1 * eta64 * L i i by apply: Rmult_le_pos; lra.
have hK : 0 <= grow n.+1 * eta64 * L k k by apply: Rmult_le_pos; lra.
case: (leqP k i) => ki; first by apply: Rle_trans (ch_back hi ki) _; lra.
have [_ ->] := ch_sym hk (ltnW ki).
have := ch_back hk (ltnW ki).
rewrite (rsumn_ext (f := fun l => L k l * L i l) (g := fun l => L i l * L k l)); last by move=> l _; ring.
rewrite (rsumn_ext (f := fun l => Rabs (L k l) * Rabs (L i l)) (g := fun l => Rabs (L i l) * Rabs (L k l))); last by move=> l _; ring.
by move=> h; apply: Rle_trans h _; lra.
Qed.

Section Solve.
Variables (b y z : nat -> b64).
Hypothesis Hy : forall i, (i < n)%N -> y i = bdiv (chain (S:=B64) (b i) (iota 0 i) y (f i)) (f i i).
Hypothesis Hz : forall i, (i < n)%N -> z i = bdiv (chain (S:=B64) (y i) (iota i.+1 (n - i.+1)) z (fun l => f l i)) (f i i).
Hypothesis Fz : forall i, (i < n)%N -> finite (z i).

Lemma ch_y_fin i : (i < n)%N -> finite (y i).
Proof. by move=> hi; have := Fz hi; rewrite Hz // => /(tri_err (FF hi hi)) []. Qed.
Lemma ch_b_fin i : (i < n)%N -> finite (b i).
Proof. by move=> hi; have := ch_y_fin hi; rewrite Hy // => /(tri_err (FF hi hi)) []. Qed.

Lemma ch_fwd_err i : (i < n)%N ->
  Rabs (rv (b i) - rsumn n (fun l => L i l * rv (y l))) <=
  err n * rsumn n (fun l => Rabs (L i l) * Rabs (rv (y l))) + grow n * eta64 * (INR n + L i i).
Proof.
move=> hi; have fy := ch_y_fin hi; rewrite Hy // in fy.
have [_ _] := tri_err (FF hi hi) fy; rewrite -Hy // !big_rsumn0 size_iota => h.
have z0 : rv b64_zero = 0 by [].
rewrite (rsumn_cut (c := i)) //; last by move=> l hl; rewrite (@ch_upper0 i l) ?z0; [ring|lia|lia|lia].
rewrite (rsumn_cut (c := i) (f := fun l => Rabs (L i l) * Rabs (rv (y l)))) //; last by move=> l hl; rewrite (@ch_upper0 i l) ?z0 ?Rabs_R0; [ring|lia|lia|lia].
have ip := ch_pos hi; rewrite (Rabs_pos_eq (L i i)) in h *; last lra.
apply: Rle_trans h _; apply: Rplus_le_compat.
  apply: Rmult_le_compat_r; last by apply: err_le; lia.
  apply: Rplus_le_le_0_compat; last by apply: Rmult_le_pos; [lra|apply: Rabs_pos].
  by apply: rsumn_ge0 => l _; apply: Rmult_le_pos; apply: Rabs_pos.
have e0 := eta64_gt0; have gi := grow_ge1 i.+1; have n0 := pos_INR i.
have gn : grow i.+1 <= grow n by apply: grow_le.
have ni : INR i <= INR n by apply: le_INR; apply/leP; lia.
apply: Rmult_le_compat; [by apply: Rmult_le_pos; lra|lra| |lra].
by apply: Rmult_le_compat_r; lra.
Qed.

Lemma ch_bwd_err i : (i < n)%N ->
  Rabs (rv (y i) - rsumn n (fun l => L l i * rv (z l))) <=
  err n * rsumn n (fun l => Rabs (L l i) * Rabs (rv (z l))) + grow n * eta64 * (INR n + L i i).
Proof.
move=> hi; have fz := Fz hi; rewrite Hz // in fz.
have [_ _] := tri_err (FF hi hi) fz; rewrite -Hz // !big_rsumn size_iota.
have z0 : rv b64_zero = 0 by [].
have ei : n = (i + (n - i.+1).+1)%N by lia.
have E (g : nat -> R) : (forall l, (l < i)%N -> g l = 0) -> rsumn n g = rsumn (n - i.+1) (fun l => g (i.+1 + l)%N) + g i.
  move=> g0; rewrite {1}ei rsumn_drop // rsumn_head addn0 Rplus_comm; congr (_ + _).
  by apply: rsumn_ext => l _; rewrite addnS addSn.
rewrite (E (fun l => L l i * rv (z l))); last by move=> l hl; rewrite (@ch_upper0 l i) ?z0; [ring|lia|lia|lia].
rewrite (E (fun l => Rabs (L l i) * Rabs (rv (z l)))); last by move=> l hl; rewrite (@ch_upper0 l i) ?z0 ?Rabs_R0; [ring|lia|lia|lia].
have ip := ch_pos hi; rewrite (Rabs_pos_eq (L i i)); last lra.
move=> h; apply: Rle_trans h _; apply: Rplus_le_compat.
  apply: Rmult_le_compat_r; last by apply: err_le; lia.
  apply: Rplus_le_le_0_compat; last by apply: Rmult_le_pos; [lra|apply: Rabs_pos].
  by apply: rsumn_ge0 => l _; apply: Rmult_le_pos; apply: Rabs_pos.
set N := (n - i.+1)%N.
have e0 := eta64_gt0; have gi := grow_ge1 N.+1; have n0 := pos_INR N.
have gn : grow N.+1 <= grow n by apply: grow_le; rewrite /N; lia.
have ni : INR N <= INR n by apply: le_INR; apply/leP; rewrite /N; lia.
apply: Rmult_le_compat; [by apply: Rmult_le_pos; lra|lra| |lra].
by apply: Rmult_le_compat_r; lra.
Qed.

Lemma ch_solve_err i : (i < n)%N ->
  Rabs (rv (b i) - rsumn n (fun j => rv (a i j) * rv (z j))) <=
  err (3 * n + 1) * rsumn n (fun l => Rabs (L i l) * rsumn n (fun j => Rabs (L j l) * Rabs (rv (z j)))) +
  grow (2 * n + 1) * eta64 * (INR n + L i i + rsumn n (fun l => Rabs (L i l) * (INR n + L l l)) +
     rsumn n (fun j => (INR n + L j j + L i i) * Rabs (rv (z j)))).
Proof.
move=> hi; have e0 := eta64_gt0; have n0 := pos_INR n; have gn := grow_ge1 n; have u0 := u64_gt0.
have ge0 : 0 <= grow n * eta64 by apply: Rmult_le_pos; lra.
have := @solve_compose n (fun i j => rv (a i j)) (fun i l => L i l) (fun l j => L j l) (fun l => rv (b l)) (fun l => rv (y l)) (fun l => rv (z l))
  (err n) (err n) (err n.+1) (grow n * eta64 * (INR n + L i i)) (fun l => grow n * eta64 * (INR n + L l l))
  (fun j => grow n.+1 * eta64 * (INR n + L j j + L i i)) i (err_ge0 n).
move=> H.
have hD l : (l < n)%N -> 0 <= grow n * eta64 * (INR n + L l l).
  by move=> hl; apply: Rmult_le_pos => //; have := ch_pos hl; lra.
apply: Rle_trans (H hD (ch_fwd_err hi) ch_bwd_err (fun j hj => ch_back_sym hi hj)) _.
set LW := rsumn n (fun l => Rabs (L i l) * rsumn n _).
have LW0 : 0 <= LW.
  apply: rsumn_ge0 => l _; apply: Rmult_le_pos; first exact: Rabs_pos.
  by apply: rsumn_ge0 => j _; apply: Rmult_le_pos; apply: Rabs_pos.
have -> : rsumn n (fun l => Rabs (L i l) * (grow n * eta64 * (INR n + L l l))) =
   grow n * eta64 * rsumn n (fun l => Rabs (L i l) * (INR n + L l l)).
  by rewrite -rsumn_scal; apply: rsumn_ext => l _; ring.
have -> : rsumn n (fun j => grow n.+1 * eta64 * (INR n + L j j + L i i) * Rabs (rv (z j))) =
   grow n.+1 * eta64 * rsumn n (fun j => (INR n + L j j + L i i) * Rabs (rv (z j))).
  by rewrite -rsumn_scal; apply: rsumn_ext => l _; ring.
set K1 := rsumn n (fun l => Rabs (L i l) * (INR n + _)).
set K2 := rsumn n (fun j => (INR n + _ + _) * _).
have K10 : 0 <= K1 by apply: rsumn_ge0 => l hl; apply: Rmult_le_pos; [apply: Rabs_pos|have := ch_pos hl; lra].
have K20 : 0 <= K2 by apply: rsumn_ge0 => l hl; apply: Rmult_le_pos; [have := ch_pos hl; have := ch_pos hi; lra|apply: Rabs_pos].
have ip := ch_pos hi.
have g3 : grow (3 * n + 1) = (1 + u64) * (grow n * (grow n * grow n)).
  by have -> : (3 * n + 1 = (n + (n + n)).+1)%N by [lia]; rewrite growS !grow_add.
have g2 : grow (2 * n + 1) = (1 + u64) * (grow n * grow n).
  by have -> : (2 * n + 1 = (n + n).+1)%N by [lia]; rewrite growS grow_add.
rewrite /err g3 g2 growS; set g := grow n in gn ge0 *.
have gg : 1 <= g * g by nra.
have p1 : ((g - 1) * (1 + (g - 1)) + (g - 1) + ((1 + u64) * g - 1)) * LW <= ((1 + u64) * (g * (g * g)) - 1) * LW.
  apply: Rmult_le_compat_r => //.
  have : 0 <= (g * g - 1) * ((1 + u64) * g - 1) by apply: Rmult_le_pos; nra.
  lra.
have p2 : g * eta64 * (INR n + L i i) <= (1 + u64) * (g * g) * eta64 * (INR n + L i i).
  by apply: Rmult_le_compat_r; [lra|apply: Rmult_le_compat_r; [lra|nra]].
have p3 : (1 + (g - 1)) * (g * eta64 * K1) <= (1 + u64) * (g * g) * eta64 * K1.
  have -> : (1 + (g - 1)) * (g * eta64 * K1) = g * g * (eta64 * K1) by ring.
  have -> : (1 + u64) * (g * g) * eta64 * K1 = ((1 + u64) * (g * g)) * (eta64 * K1) by ring.
  by apply: Rmult_le_compat_r; [apply: Rmult_le_pos; lra|nra].
have p4 : (1 + u64) * g * eta64 * K2 <= (1 + u64) * (g * g) * eta64 * K2.
  by apply: Rmult_le_compat_r => //; apply: Rmult_le_compat_r; [lra|apply: Rmult_le_compat_l; nra].
lra.
Qed.
End Solve.
End Back.
