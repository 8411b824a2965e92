(** * FloatLU: rounding errors of the LU decomposition and of triangular solves in f64 *)
From Coq Require Import ZArith Reals Lra Psatz.
From Flocq Require Import Core BinarySingleNaN.
From mathcomp Require Import all_ssreflect all_algebra zify.
From mathcomp Require Import fingroup perm.
From Verif Require Import Base Scalar Hoare ModelMatrix ModelLU Spec MatrixProofs MatrixProofs2 LUProofs LUEval B64 SpecFloat64 FloatBase.

Set Implicit Arguments.
Unset Strict Implicit.
Unset Printing Implicit Defensive.
Local Open Scope R_scope.

(** ** the comparison *)
Lemma b64_lt_irr (x : b64) : ~~ Bltb x x.
Proof.
case F : (is_finite x); last by case: x F => [s|[]||s m e B].
by rewrite Bltb_correct //; apply/negP; case: Rlt_bool_spec => //; lra.
Qed.

Lemma b64_lt_tr (a b c : b64) : Bltb a b -> ~~ Bltb a c -> ~~ Bltb b c.
Proof.
case Fa : (is_finite a); case Fb : (is_finite b); case Fc : (is_finite c).
- rewrite !Bltb_correct //; do 3 case: Rlt_bool_spec => //; lra.
- by case: c Fc => [s|[]||s m e B] // _; case: a Fa => //; case: b Fb => // [[]|[]|[]|[]].
- by case: b Fb => [s|[]||s m e B] // _; case: a Fa => //; case: c Fc => //.
- by case: b Fb => [s|[]||s m e B] // _; case: c Fc => [s|[]||s m e B] // _; case: a Fa.
- by case: a Fa => [s|[]||s m e B] // _; case: b Fb => // ; case: c Fc.
- by case: a Fa => [s|[]||s m e B] // _; case: c Fc => [s|[]||s m e B] // _; case: b Fb.
- by case: a Fa => [s|[]||s m e B] // _; case: b Fb => [s|[]||s m e B] // _; case: c Fc.
- by case: a Fa => [s|[]||s m e B] // _; case: b Fb => [s|[]||s m e B] // _; case: c Fc => [s|[]||s m e B].
Qed.

Definition bdiv : b64 -> b64 -> b64 := Bdiv mode_NE.
Lemma bdivE (x y : B64) : ~~ s_eqb y (n_zero B64) -> n_div x y = Ok (bdiv x y).
Proof. by []. Qed.

Lemma eqb0 (x : b64) : finite x -> Beqb x b64_zero = Req_bool (rv x) 0.
Proof. by move=> f; rewrite Beqb_correct. Qed.
Lemma abs_le_of_nlt (x y : b64) : finite x -> finite y -> ~~ Bltb (Babs x) (Babs y) -> Rabs (rv y) <= Rabs (rv x).
Proof.
move=> fx fy; rewrite Bltb_correct ?is_finite_Babs // !B2R_Babs; case: Rlt_bool_spec => // h _; exact: h.
Qed.

Lemma rsumn_abs n f : Rabs (rsumn n f) <= rsumn n (fun k => Rabs (f k)).
Proof. exact: rsum_abs. Qed.
Lemma rsumn_scal n c f : rsumn n (fun k => c * f k) = c * rsumn n f.
Proof. by elim: n => [|n IH]; rewrite ?rsumn0 ?rsumnS ?IH; ring. Qed.
Lemma rsumn_add n f g : rsumn n (fun k => f k + g k) = rsumn n f + rsumn n g.
Proof. by elim: n => [|n IH]; rewrite ?rsumn0 ?rsumnS ?IH; ring. Qed.
Lemma rsumn_sub n f g : rsumn n (fun k => f k - g k) = rsumn n f - rsumn n g.
Proof. by elim: n => [|n IH]; rewrite ?rsumn0 ?rsumnS ?IH; ring. Qed.
Lemma rsumn_swap n p (f : nat -> nat -> R) : rsumn n (fun i => rsumn p (fun j => f i j)) = rsumn p (fun j => rsumn n (fun i => f i j)).
Proof. by rewrite /rsumn exchange_big. Qed.
Lemma rsumn_term n f k : (k < n)%N -> (forall l, (l < n)%N -> 0 <= f l) -> f k <= rsumn n f.
Proof.
elim: n => [//|n IH]; rewrite ltnS leq_eqVlt rsumnS => /orP[/eqP ->|h] p.
  by have := rsumn_ge0 (n:=n) (f:=f) (fun l hl => p l (ltnW hl)); lra.
have := p n (ltnSn n); have := IH h (fun l hl => p l (ltnW hl)); lra.
Qed.

(** ** one element of the factors *)
Lemma sdot_dot64 c (f g : nat -> b64) : sdot (S:=B64) c f g = dot64 b64_zero c f g.
Proof. by []. Qed.

(** y = a - sum: relative to the terms *)
Lemma num_err c (a : b64) (f g : nat -> b64) :
  let y := Bminus mode_NE a (dot64 b64_zero c f g) in finite y ->
  [/\ finite a, forall l, (l < c)%N -> finite (f l) /\ finite (g l) &
   Rabs (rv a - (rsumn c (fun l => rv (f l) * rv (g l)) + rv y)) <=
     err c * rsumn c (fun l => Rabs (rv (f l)) * Rabs (rv (g l))) + INR c * (grow c * eta64) +
     (if c is 0%N then 0 else u64 * Rabs (rv y))].
Proof.
move=> y fy; have [fa fd hy] := sub_back fy; have [fk hd] := dot64_err fd; split=> //.
have [_ _ E] := sub_finite fy.
rewrite -/y in hy E; move: (y) fy fd hy fk hd E => {}y; case: c => [|c] fy fd hy fk hd E.
  have -> : rv y = rv a.
    rewrite E; have -> : rv (dot64 b64_zero 0 f g) = 0 by [].
    by rewrite Rminus_0_r rnd_id //; apply: fmt_rv.
  by rewrite !rsumn0 Rplus_0_l Rminus_diag_eq // Rabs_R0 err0; rewrite /=; lra.
set D := rv (dot64 b64_zero c.+1 f g) in hy hd; set T := rsumn _ _ in hd *.
have -> : rv a - (T + rv y) = (rv a - D - rv y) + (D - T) by ring.
by apply: Rle_trans (Rabs_triang _ _) _; lra.
Qed.

Lemma one_bpow : bpow radix2 0 = 1. Proof. by []. Qed.
Lemma abs_rnd_le1 x : Rabs x <= 1 -> Rabs (round radix2 (FLT_exp (SpecFloat.emin b_prec b_emax) b_prec) ZnearestE x) <= 1.
Proof. by rewrite -one_bpow => h; apply: abs_round_le_generic => //; apply: generic_format_bpow. Qed.

(** c - y0 f0 - y1 f1 - ... *)
Lemma chain_err ks (c : b64) (y f : nat -> b64) :
  let s := chain (S:=B64) c ks y f in finite s ->
  [/\ finite c, forall k, k \in ks -> finite (y k) /\ finite (f k) &
  Rabs (rv c - \big[Rplus/0]_(k <- ks) (rv (f k) * rv (y k)) - rv s) <=
    err (size ks) * (\big[Rplus/0]_(k <- ks) (Rabs (rv (f k)) * Rabs (rv (y k))) + Rabs (rv s)) + INR (size ks) * (grow (size ks) * eta64)].
Proof.
elim: ks c => [|k ks IH] c s fs.
  split=> //; rewrite !big_nil /s /= Rminus_0_r Rminus_diag_eq // Rabs_R0 err0; lra.
have [f1 fk h] := IH (Bminus mode_NE c (Bmult mode_NE (y k) (f k))) fs.
change (chain (S:=B64) _ ks y f) with s in h; move: s fs h => s fs h.
have [fc fp hb] := sub_back f1; have [fy ff Ep] := mul_finite fp.
split=> //.
  by move=> l; rewrite inE => /orP[/eqP->|/fk].
rewrite !big_cons [size _]/= S_INR growS.
move: hb h; set t := Bminus _ _ _ in f1 *; rewrite Ep => hb h.
have [d [e [hd he Ee]]] := rnd_mul (rv (y k) * rv (f k)); rewrite Ee in hb.
set X := \big[Rplus/0]_(j <- ks) (rv _ * rv _) in h *; set A := \big[Rplus/0]_(j <- ks) (Rabs _ * Rabs _) in h *.
set x := rv (f k) * rv (y k); set g := grow _ in h *.
have Eg : err (size ks) = g - 1 by [].
have Eg' : err (size ks).+1 = (1 + u64) * g - 1 by rewrite /err growS.
rewrite Eg in h; rewrite Eg' -Rabs_mult -/x.
have XA : Rabs X <= A.
  rewrite /X /A; elim: (ks) => [|l r IHr]; rewrite ?big_nil ?big_cons ?Rabs_R0; first lra.
  by apply: Rle_trans (Rabs_triang _ _) _; rewrite Rabs_mult; lra.
have g1 : 1 <= g by apply: grow_ge1.
have u0 := u64_gt0; have e0 := eta64_gt0; have n0 := pos_INR (size ks).
have A0 : 0 <= A by have := Rabs_pos X; lra.
have s0 := Rabs_pos (rv s); have x0 := Rabs_pos x.
(* the residual of the rest bounds |t| *)
set rho := rv t - X - rv s in h.
have ht : Rabs (rv t) <= Rabs (rv s) + A + Rabs rho.
  have -> : rv t = rv s + X + rho by rewrite /rho; ring.
  by apply: Rle_trans (Rabs_triang _ _) _; have := Rabs_triang (rv s) X; lra.
have -> : rv c - (x + X) - rv s = (rv c - (rv (y k) * rv (f k) * (1 + d) + e) - rv t) + (rho + (x * d + e)).
  by rewrite /rho /x; ring.
apply: Rle_trans (Rabs_triang _ _) _.
have h2 : Rabs (rho + (x * d + e)) <= Rabs rho + (Rabs x * u64 + eta64).
  apply: Rle_trans (Rabs_triang _ _) _; apply: Rplus_le_compat_l.
  apply: Rle_trans (Rabs_triang _ _) _; apply: Rplus_le_compat => //.
  exact: abs_mul_le (Rle_refl _) hd.
have r0 := Rabs_pos rho.
have h3 : u64 * Rabs (rv t) <= u64 * (Rabs (rv s) + A + Rabs rho) by apply: Rmult_le_compat_l; lra.
have h4 : (1 + u64) * Rabs rho <= (1 + u64) * ((g - 1) * (A + Rabs (rv s)) + INR (size ks) * (g * eta64)).
  by apply: Rmult_le_compat_l; lra.
have h5 : 0 <= (1 + u64) * (g - 1) * Rabs x by apply: Rmult_le_pos => //; apply: Rmult_le_pos; lra.
have h6 : eta64 <= (1 + u64) * g * eta64.
  by rewrite -{1}[eta64]Rmult_1_l; apply: Rmult_le_compat_r; [lra|nra].
lra.
Qed.

Lemma rsumn_cut n c f : (c < n)%N -> (forall l, (c < l < n)%N -> f l = 0) -> rsumn n f = rsumn c f + f c.
Proof.
elim: n => [//|n IH]; rewrite ltnS leq_eqVlt rsumnS => /orP[/eqP -> //|h] z.
rewrite IH // => [|l hl]; last by apply: z; lia.
by rewrite (z n); [ring|lia].
Qed.

Lemma rsumn_le0 n f g : (forall k, (k < n)%N -> f k <= g k) -> rsumn n f <= rsumn n g.
Proof. exact: rsumn_le. Qed.

Section Back.
Variables (m n : nat) (a f : nat -> nat -> b64) (q : nat -> nat).
Hypothesis Hf : forall i k, (i < m)%N -> (k < n)%N -> f i k = lu_entry (S:=B64) bdiv a f q i k.
Hypothesis Hp : forall i k, (k < n)%N -> (k <= i < m)%N ->
  ~~ Bltb (Babs (lu_num (S:=B64) a f q k k)) (Babs (lu_num (S:=B64) a f q i k)).
Hypothesis FF : forall i k, (i < m)%N -> (k < n)%N -> finite (f i k).

Local Notation L i l := (rv (lfnS (S:=B64) f i l)).
Local Notation U l k := (rv (ufnS (S:=B64) f l k)).
Local Notation num := (lu_num (S:=B64) a f q).
Local Notation r := (minn m n).

Lemma numE i k : num i k = Bminus mode_NE (a (q i) k) (dot64 b64_zero (minn i k) (f i) (fun l => f l k)).
Proof. by []. Qed.

Lemma upper_num i k : (i < m)%N -> (k < n)%N -> (i <= k)%N -> f i k = num i k.
Proof. by move=> hi hk ik; rewrite Hf // /lu_entry ik. Qed.

Lemma lower_num i k : (i < m)%N -> (k < i)%N -> (k < n)%N ->
  finite (num i k) /\
  (rv (f k k) = 0 /\ rv (f i k) = 0 /\ rv (num i k) = 0 \/
   rv (f k k) <> 0 /\ f i k = Bdiv mode_NE (num i k) (f k k)).
Proof.
move=> hi ki kn; have km : (k < m)%N by lia.
have fkk := FF km kn; have e0 : s_eqb (s:=B64) (f k k) (n_zero B64) = Req_bool (rv (f k k)) 0 by apply: eqb0.
have := Hf hi kn; rewrite /lu_entry leqNgt ki [~~ true]/= e0.
case: Req_bool_spec => z E; last first.
  have fik := FF hi kn; rewrite E in fik; have [fy _ _] := div_finite fkk fik.
  by split=> //; right.
have fn : finite (num i k) by rewrite -E; apply: FF.
split=> //; left; split=> //.
have : Rabs (rv (num i k)) <= Rabs (rv (num k k)).
  apply: abs_le_of_nlt => //; first by rewrite -upper_num.
  by apply: Hp => //; lia.
rewrite -(upper_num km kn) // z Rabs_R0 -E => h.
have := Rabs_pos (rv (f i k)) => h'; have e1 : Rabs (rv (f i k)) = 0 by lra.
have z0 : rv (f i k) = 0 by case: (Req_dec (rv (f i k)) 0) => // /Rabs_no_R0.
by split=> //; rewrite -E.
Qed.

Lemma num_fin i k : (i < m)%N -> (k < n)%N -> finite (num i k).
Proof.
move=> hi hk; case: (leqP i k) => ik; first by rewrite -upper_num //; apply: FF.
by case: (lower_num hi ik hk).
Qed.

Lemma a_fin i k : (i < m)%N -> (k < n)%N -> finite (a (q i) k).
Proof. by move=> hi hk; have := num_fin hi hk; rewrite numE => /sub_finite []. Qed.

Lemma l_le1 i k : (i < m)%N -> (k < i)%N -> (k < n)%N -> Rabs (rv (f i k)) <= 1.
Proof.
move=> hi ki kn; have km : (k < m)%N by lia.
case: (lower_num hi ki kn) => fn [[_ [-> _]]|[z E]]; first by rewrite Rabs_R0; lra.
have fik := FF hi kn; rewrite E in fik; have [_ _ Er] := div_finite (FF km kn) fik.
rewrite E Er; apply: abs_rnd_le1; rewrite /Rdiv Rabs_mult Rabs_inv.
have h : Rabs (rv (num i k)) <= Rabs (rv (f k k)).
  rewrite (upper_num km kn) //; apply: abs_le_of_nlt => //; first by rewrite -upper_num //; apply: FF.
  by apply: Hp => //; lia.
have p := Rabs_pos_lt _ z.
apply: (Rmult_le_reg_r (Rabs (rv (f k k)))) => //.
by rewrite Rmult_assoc Rinv_l; lra.
Qed.

Lemma LU_split (T : R -> R -> R) i k : (i < m)%N -> (k < n)%N ->
  (forall x, T x 0 = 0) -> (forall x, T 0 x = 0) ->
  rsumn r (fun l => T (L i l) (U l k)) =
  rsumn (minn i k) (fun l => T (rv (f i l)) (rv (f l k))) + (if (i <= k)%N then T 1 (rv (f i k)) else T (rv (f i k)) (rv (f k k))).
Proof.
move=> hi hk t1 t2; rewrite (rsumn_cut (c := minn i k)); [|lia|]; last first.
  move=> l hl; case: (ltnP k l) => kl.
    by rewrite /ufnS leqNgt kl /= t1.
  have il : (i < l)%N by lia.
  by rewrite /lfnS; have -> : (l < i)%N = false by [lia]; have -> : (i == l) = false by [lia]; rewrite t2.
congr (_ + _).
  apply: rsumn_ext => l hl; rewrite /lfnS /ufnS.
  have -> : (l < i)%N by lia.
  by have -> : (l <= k)%N by lia.
case: (leqP i k) => ik.
  by rewrite /lfnS ltnn eqxx /ufnS ik [n_one _]/(b64_int 1) rv_int1.
by rewrite /lfnS ik /ufnS leqnn.
Qed.

Lemma lu_back i k : (i < m)%N -> (k < n)%N ->
  Rabs (rv (a (q i) k) - rsumn r (fun l => L i l * U l k)) <=
  err r * rsumn r (fun l => Rabs (L i l) * Rabs (U l k)) +
  grow r * eta64 * (INR r + rsumn r (fun l => Rabs (U l k))).
Proof.
move=> hi hk.
rewrite (LU_split (T := Rmult) hi hk); [|by move=> x; ring|by move=> x; ring].
rewrite (LU_split (T := fun x y => Rabs x * Rabs y) hi hk); [|by move=> x; rewrite Rabs_R0; ring|by move=> x; rewrite Rabs_R0; ring].
have fn := num_fin hi hk; rewrite numE in fn; have [_ _] := num_err fn; rewrite -numE.
set T := rsumn (minn i k) _; set B := rsumn (minn i k) _; set c := minn i k => hn.
have cr : (c < r)%N by rewrite /c; lia.
have B0 : 0 <= B by apply: rsumn_ge0 => l _; apply: Rmult_le_pos; apply: Rabs_pos.
have U0 : 0 <= rsumn r (fun l => Rabs (U l k)) by apply: rsumn_ge0 => l _; apply: Rabs_pos.
have u0 := u64_gt0; have e0 := eta64_gt0; have g1 := grow_ge1 r.
have ecr : err c <= err r by apply: err_le; lia.
have gcr : grow c <= grow r by apply: grow_le; lia.
have e1r : u64 <= err r by rewrite -err1; apply: err_le; lia.
have ncr : INR c <= INR r by apply: le_INR; apply/leP; lia.
have n0 := pos_INR c.
have hc : INR c * (grow c * eta64) <= grow r * eta64 * INR r.
  have -> : grow r * eta64 * INR r = INR r * (grow r * eta64) by ring.
  apply: Rmult_le_compat => //; first by apply: Rmult_le_pos; [have := grow_ge1 c; lra|lra].
  by apply: Rmult_le_compat_r; lra.
have hB : err c * B <= err r * B by apply: Rmult_le_compat_r.
have ge0 : 0 <= grow r * eta64 by apply: Rmult_le_pos; lra.
have hU : 0 <= grow r * eta64 * rsumn r (fun l => Rabs (U l k)) by apply: Rmult_le_pos.
case: (leqP i k) => ik.
  rewrite Rabs_R1 Rmult_1_l !Rmult_1_l; rewrite -(upper_num hi hk ik) in hn.
  have y0 := Rabs_pos (rv (f i k)).
  have hy : u64 * Rabs (rv (f i k)) <= err r * Rabs (rv (f i k)) by apply: Rmult_le_compat_r.
  have hz : (if c is 0%N then 0 else u64 * Rabs (rv (f i k))) <= u64 * Rabs (rv (f i k)).
    by case: (c); [apply: Rmult_le_pos; lra|move=> _; lra].
  lra.
have km : (k < m)%N by lia.
have kr : (k < r)%N by lia.
have ck : c = k by rewrite /c; lia.
have Ukk : Rabs (rv (f k k)) <= rsumn r (fun l => Rabs (U l k)).
  have := @rsumn_term r (fun l => Rabs (U l k)) k kr (fun l _ => Rabs_pos _).
  by rewrite /ufnS leqnn.
set y := rv (num i k) in hn; set z := rv (f i k); set d := rv (f k k) in Ukk *.
have d0 := Rabs_pos d; have zd0 := Rabs_pos (z * d).
have [hyz|hyz] : y = 0 /\ z * d = 0 \/ Rabs (y - z * d) <= u64 * Rabs (z * d) + eta64 * Rabs d.
  case: (lower_num hi ik hk) => fnn [[E1 [E2 E3]]|[zz E]].
    by left; rewrite /y /z /d E1 E3; split=> //; ring.
  right; have fik := FF hi hk; rewrite E in fik; have [_ _] := div_back (FF km hk) fik.
  by rewrite -E.
  case: hyz => Ey Ez; rewrite Ey Rabs_R0 Rmult_0_r in hn; rewrite -Rabs_mult Ez Rabs_R0 Rplus_0_r in hn *.
  have hz : (if c is 0%N then 0 else 0) = 0 by case: (c).
  by rewrite hz in hn; rewrite !Rplus_0_r in hn *; lra.
rewrite -Rabs_mult.
have -> : rv (a (q i) k) - (T + z * d) = (rv (a (q i) k) - (T + y)) + (y - z * d) by ring.
apply: Rle_trans (Rabs_triang _ _) _.
have hy : Rabs y <= (1 + u64) * Rabs (z * d) + eta64 * Rabs d.
  have -> : y = (y - z * d) + z * d by ring.
  by apply: Rle_trans (Rabs_triang _ _) _; lra.
have hd : (1 + u64) * (eta64 * Rabs d) <= grow r * eta64 * rsumn r (fun l => Rabs (U l k)).
  have g1r : 1 + u64 <= grow r by have := @grow_le 1 r; rewrite /grow /= Rmult_1_r; apply; lia.
  have -> : (1 + u64) * (eta64 * Rabs d) = (1 + u64) * eta64 * Rabs d by ring.
  apply: Rmult_le_compat => //; first by apply: Rmult_le_pos; lra.
  by apply: Rmult_le_compat_r; lra.
case: (posnP c) => c0.
  rewrite c0 err0 in hn; rewrite c0 in hc.
  have : u64 * Rabs (z * d) <= err r * Rabs (z * d) by apply: Rmult_le_compat_r.
  have : 0 <= err r * B by apply: Rmult_le_pos => //; apply: err_ge0.
  have : 0 <= u64 * (eta64 * Rabs d) by apply: Rmult_le_pos; [lra|apply: Rmult_le_pos; lra].
  rewrite /= in hn hc; lra.
have hcc : (if c is 0%N then 0 else u64 * Rabs y) = u64 * Rabs y by case: (c) c0.
rewrite hcc in hn.
have e2 : err 2 <= err r by apply: err_le; lia.
have E2 : err 2 = 2 * u64 + u64 * u64 by rewrite /err /grow /=; ring.
have : err 2 * Rabs (z * d) <= err r * Rabs (z * d) by apply: Rmult_le_compat_r.
have : u64 * Rabs y <= u64 * ((1 + u64) * Rabs (z * d) + eta64 * Rabs d) by apply: Rmult_le_compat_l; lra.
rewrite E2; lra.
Qed.
End Back.

Lemma big_rsumn (F : nat -> R) lo c : \big[Rplus/0]_(k <- iota lo c) F k = rsumn c (fun k => F (lo + k)%N).
Proof.
elim: c lo F => [|c IH] lo F; first by rewrite big_nil rsumn0.
rewrite rsumnS -[c.+1]addn1 iotaD big_cat big_cons big_nil IH /=.
by rewrite Rplus_0_r.
Qed.
Lemma big_rsumn0 (F : nat -> R) c : \big[Rplus/0]_(k <- iota 0 c) F k = rsumn c F.
Proof. exact: big_rsumn. Qed.
Lemma big_rev_iota (F : nat -> R) lo c : \big[Rplus/0]_(k <- rev (iota lo c)) F k = rsumn c (fun k => F (lo + k)%N).
Proof. by rewrite -big_rsumn; apply: perm_big; rewrite perm_rev. Qed.

Section Solve.
Variables (n : nat) (a f : nat -> nat -> b64) (q : nat -> nat) (b y z : nat -> b64).
Hypothesis Hf : forall i k, (i < n)%N -> (k < n)%N -> f i k = lu_entry (S:=B64) bdiv a f q i k.
Hypothesis Hp : forall i k, (k < n)%N -> (k <= i < n)%N ->
  ~~ Bltb (Babs (lu_num (S:=B64) a f q k k)) (Babs (lu_num (S:=B64) a f q i k)).
Hypothesis FF : forall i k, (i < n)%N -> (k < n)%N -> finite (f i k).
Hypothesis Hy : forall i, (i < n)%N -> y i = chain (S:=B64) (b i) (iota 0 i) y (f i).
Hypothesis Hz : forall i, (i < n)%N -> z i = bdiv (chain (S:=B64) (y i) (rev (iota i.+1 (n - i.+1))) z (f i)) (f i i).

Local Notation L i l := (rv (lfnS (S:=B64) f i l)).
Local Notation U l k := (rv (ufnS (S:=B64) f l k)).

Lemma L_split (T : R -> R) (v : nat -> R) i : (i < n)%N -> T 0 = 0 -> T 1 = 1 ->
  rsumn n (fun l => T (L i l) * v l) = rsumn i (fun l => T (rv (f i l)) * v l) + v i.
Proof.
move=> hi t0 t1; rewrite (rsumn_cut (c := i)) //; last first.
  move=> l hl; rewrite /lfnS; have -> : (l < i)%N = false by lia.
  by have -> : (i == l) = false by [lia]; rewrite t0; ring.
congr (_ + _); first by apply: rsumn_ext => l hl; rewrite /lfnS hl.
by rewrite /lfnS ltnn eqxx [n_one _]/(b64_int 1) rv_int1 t1; ring.
Qed.

Lemma rsumn_drop (g : nat -> R) c p : (forall l, (l < c)%N -> g l = 0) -> rsumn (c + p) g = rsumn p (fun l => g (c + l)%N).
Proof.
move=> h; elim: p => [|p IH]; last by rewrite addnS !rsumnS IH.
rewrite addn0 rsumn0 (rsumn_ext (g := fun _ => 0)) //; elim: (c) => [|d IH]; first by rewrite rsumn0.
by rewrite rsumnS IH; ring.
Qed.

Lemma rsumn_head (g : nat -> R) p : rsumn p.+1 g = g 0%N + rsumn p (fun l => g l.+1).
Proof. by rewrite /rsumn big_ord_recl. Qed.

Lemma U_split (T : R -> R) (v : nat -> R) i : (i < n)%N -> T 0 = 0 ->
  rsumn n (fun l => T (U i l) * v l) =
  T (rv (f i i)) * v i + rsumn (n - i.+1) (fun l => T (rv (f i (i.+1 + l)%N)) * v (i.+1 + l)%N).
Proof.
move=> hi t0; have e : n = (i + (n - i.+1).+1)%N by lia.
rewrite {1}e rsumn_drop; last first.
  by move=> l hl; rewrite /ufnS leqNgt hl /= t0; ring.
rewrite rsumn_head addn0 /ufnS leqnn; congr (_ + _).
apply: rsumn_ext => l _; have -> : (i <= i + l.+1)%N by lia.
by rewrite addnS addSn.
Qed.

Lemma bwd_row i : (i < n)%N -> finite (z i) ->
  Rabs (rv (y i) - rsumn n (fun l => U i l * rv (z l))) <=
  err n * rsumn n (fun l => Rabs (U i l) * Rabs (rv (z l))) + grow n * eta64 * (INR n + Rabs (U i i)).
Proof.
move=> hi fz; rewrite Hz // in fz.
have [ft d0 ht] := div_back (FF hi hi) fz; rewrite -[Bdiv _ _ _]/(bdiv _ _) -Hz // in ht.
have [_ _] := chain_err ft; rewrite !big_rev_iota size_rev size_iota.
set t := rv (chain (S:=B64) _ _ _ _) in ht *; set P := rsumn _ _; set Q := rsumn _ _; set N := (n - i.+1)%N => h.
rewrite (U_split (T := fun x => x) (fun l => rv (z l)) hi) //.
rewrite (U_split (T := Rabs) (fun l => Rabs (rv (z l))) hi) ?Rabs_R0 // -/P -/Q.
rewrite /ufnS leqnn; set d := rv (f i i) in ht d0 *; set x := rv (z i) in ht *.
rewrite -Rabs_mult (Rmult_comm d x).
have u0 := u64_gt0; have e0 := eta64_gt0; have g1 := grow_ge1 N.
have dp := Rabs_pos d; have xd := Rabs_pos (x * d).
have Q0 : 0 <= Q by apply: rsumn_ge0 => l _; apply: Rmult_le_pos; apply: Rabs_pos.
have htt : Rabs t <= (1 + u64) * Rabs (x * d) + eta64 * Rabs d.
  have -> : t = (t - x * d) + x * d by ring.
  by apply: Rle_trans (Rabs_triang _ _) _; lra.
have -> : rv (y i) - (x * d + P) = (rv (y i) - P - t) + (t - x * d) by ring.
apply: Rle_trans (Rabs_triang _ _) _.
have eN := err_ge0 N.
have h2 : err N * (Q + Rabs t) <= err N * (Q + ((1 + u64) * Rabs (x * d) + eta64 * Rabs d)) by apply: Rmult_le_compat_l; lra.
have gn : (1 + u64) * grow N <= grow n by rewrite -growS; apply: grow_le; rewrite /N; lia.
have en : (1 + u64) * grow N - 1 <= err n by rewrite /err; lra.
have gN : grow N <= grow n by nra.
have h3 : ((1 + u64) * grow N - 1) * Rabs (x * d) <= err n * Rabs (x * d) by apply: Rmult_le_compat_r.
have h4 : err N * Q <= err n * Q by apply: Rmult_le_compat_r => //; rewrite /err; lra.
have h5 : grow N * (eta64 * Rabs d) <= grow n * (eta64 * Rabs d) by apply: Rmult_le_compat_r => //; apply: Rmult_le_pos; lra.
have h6 : INR N * (grow N * eta64) <= INR n * (grow n * eta64).
  apply: Rmult_le_compat; [exact: pos_INR|by apply: Rmult_le_pos; lra| |by apply: Rmult_le_compat_r; lra].
  by apply: le_INR; apply/leP; rewrite /N; lia.
rewrite /err in h2 h; rewrite /err in h4 |- *; rewrite /err in h3.
lra.
Qed.

Hypothesis Fz : forall i, (i < n)%N -> finite (z i).

Lemma y_fin i : (i < n)%N -> finite (y i).
Proof.
move=> hi; have := Fz hi; rewrite Hz // => /(div_finite (FF hi hi)) [/chain_err [] //].
Qed.
Lemma b_fin i : (i < n)%N -> finite (b i).
Proof. by move=> hi; have := y_fin hi; rewrite Hy // => /chain_err [] //. Qed.

Lemma fwd_err i : (i < n)%N ->
  Rabs (rv (b i) - rsumn n (fun l => L i l * rv (y l))) <=
  err n * rsumn n (fun l => Rabs (L i l) * Rabs (rv (y l))) + INR n * (grow n * eta64).
Proof.
move=> hi; have fy := y_fin hi; rewrite Hy // in fy.
have [_ _] := chain_err fy; rewrite -Hy // !big_rsumn0 size_iota => h.
rewrite (L_split (T := fun x => x) (fun l => rv (y l)) hi) //.
rewrite (L_split (T := Rabs) (fun l => Rabs (rv (y l))) hi) ?Rabs_R0 ?Rabs_R1 //.
set P := rsumn i _; set Q := rsumn i (fun l => Rabs _ * _).
have -> : rv (b i) - (P + rv (y i)) = rv (b i) - P - rv (y i) by ring.
apply: Rle_trans h _; apply: Rplus_le_compat.
  apply: Rmult_le_compat_r; last by apply: err_le; lia.
  have := Rabs_pos (rv (y i)); have : 0 <= Q by apply: rsumn_ge0 => l _; apply: Rmult_le_pos; apply: Rabs_pos.
  fold Q; lra.
apply: Rmult_le_compat.
- exact: pos_INR.
- by apply: Rmult_le_pos; [have := grow_ge1 i; lra|have := eta64_gt0; lra].
- by apply: le_INR; apply/leP; lia.
- by apply: Rmult_le_compat_r; [have := eta64_gt0; lra|apply: grow_le; lia].
Qed.

Lemma bwd_err i : (i < n)%N ->
  Rabs (rv (y i) - rsumn n (fun l => U i l * rv (z l))) <=
  err n * rsumn n (fun l => Rabs (U i l) * Rabs (rv (z l))) + grow n * eta64 * (INR n + Rabs (U i i)).
Proof. by move=> hi; apply: bwd_row (Fz hi). Qed.

(** the residual of the permuted system *)
Lemma solve_err i : (i < n)%N ->
  Rabs (rv (b i) - rsumn n (fun j => rv (a (q i) j) * rv (z j))) <=
  err (3 * n) * rsumn n (fun l => Rabs (L i l) * rsumn n (fun j => Rabs (U l j) * Rabs (rv (z j)))) +
  grow (2 * n) * eta64 * (INR n + rsumn n (fun l => Rabs (L i l) * (INR n + Rabs (U l l))) +
     rsumn n (fun j => (INR n + rsumn n (fun l => Rabs (U l j))) * Rabs (rv (z j)))).
Proof.
move=> hi.
set W := fun l => rsumn n (fun j => Rabs (U l j) * Rabs (rv (z j))).
have W0 l : 0 <= W l by apply: rsumn_ge0 => j _; apply: Rmult_le_pos; apply: Rabs_pos.
pose D l := grow n * eta64 * (INR n + Rabs (U l l)).
have u0 := u64_gt0; have e0 := eta64_gt0; have g1 := grow_ge1 n; have en := err_ge0 n; have n0 := pos_INR n.
have ge : 0 <= grow n * eta64 by apply: Rmult_le_pos; lra.
have D0 l : 0 <= D l by apply: Rmult_le_pos => //; have := Rabs_pos (U l l); lra.
have hyl l : (l < n)%N -> Rabs (rv (y l)) <= grow n * W l + D l.
  move=> hl; have hb := bwd_err hl; rewrite -/(W l) -/(D l) in hb.
  have hs : Rabs (rsumn n (fun j => U l j * rv (z j))) <= W l.
    by apply: Rle_trans (rsumn_abs _ _) _; apply: rsumn_le => j _; rewrite Rabs_mult; apply: Rle_refl.
  set s := rsumn n _ in hb hs.
  have -> : rv (y l) = (rv (y l) - s) + s by ring.
  by apply: Rle_trans (Rabs_triang _ _) _; rewrite /err in hb; lra.
set LW := rsumn n (fun l => Rabs (L i l) * W l).
set LD := rsumn n (fun l => Rabs (L i l) * D l).
have LW0 : 0 <= LW by apply: rsumn_ge0 => l _; apply: Rmult_le_pos => //; apply: Rabs_pos.
have LD0 : 0 <= LD by apply: rsumn_ge0 => l _; apply: Rmult_le_pos => //; apply: Rabs_pos.
(* b - L y *)
have h1 := fwd_err hi.
have hLy : rsumn n (fun l => Rabs (L i l) * Rabs (rv (y l))) <= grow n * LW + LD.
  rewrite /LW /LD -rsumn_scal -rsumn_add; apply: rsumn_le => l hl.
  have := Rmult_le_compat_l _ _ _ (Rabs_pos (L i l)) (hyl l hl); lra.
have h1' := Rmult_le_compat_l _ _ _ en hLy.
(* L (y - U z) *)
have h2 : Rabs (rsumn n (fun l => L i l * (rv (y l) - rsumn n (fun j => U l j * rv (z j))))) <= err n * LW + LD.
  apply: Rle_trans (rsumn_abs _ _) _; rewrite /LW /LD -rsumn_scal -rsumn_add; apply: rsumn_le => l hl.
  rewrite Rabs_mult; have hb := bwd_err hl; rewrite -/(W l) -/(D l) in hb.
  have := Rmult_le_compat_l _ _ _ (Rabs_pos (L i l)) hb; lra.
(* (L U - A) z *)
pose G j := grow n * eta64 * (INR n + rsumn n (fun l => Rabs (U l j))).
pose M j := rsumn n (fun l => Rabs (L i l) * Rabs (U l j)).
have h3 : Rabs (rsumn n (fun j => (rv (a (q i) j) - rsumn n (fun l => L i l * U l j)) * rv (z j))) <=
    err n * LW + rsumn n (fun j => G j * Rabs (rv (z j))).
  apply: Rle_trans (rsumn_abs _ _) _.
  have -> : LW = rsumn n (fun j => M j * Rabs (rv (z j))).
    rewrite /LW /W /M; rewrite (rsumn_ext (g := fun l => rsumn n (fun j => Rabs (L i l) * (Rabs (U l j) * Rabs (rv (z j)))))); last first.
      by move=> l _; rewrite rsumn_scal.
    rewrite rsumn_swap; apply: rsumn_ext => j _.
    rewrite Rmult_comm -rsumn_scal; apply: rsumn_ext => l _; ring.
  rewrite -rsumn_scal -rsumn_add; apply: rsumn_le => j hj.
  have hb := @lu_back n n a f q Hf Hp FF i j hi hj; rewrite minnn -/(M j) -/(G j) in hb.
  rewrite Rabs_mult; have := Rmult_le_compat_r _ _ _ (Rabs_pos (rv (z j))) hb; lra.
set E1 := rsumn n _ in h1; set E2 := rsumn n _ in h2; set E3 := rsumn n _ in h3.
have -> : rv (b i) - rsumn n (fun j => rv (a (q i) j) * rv (z j)) = (rv (b i) - E1) + E2 - E3.
  have e3 : E3 = rsumn n (fun j => rv (a (q i) j) * rv (z j)) - rsumn n (fun l => L i l * rsumn n (fun j => U l j * rv (z j))).
    have -> : rsumn n (fun l => L i l * rsumn n (fun j => U l j * rv (z j))) =
              rsumn n (fun j => rsumn n (fun l => L i l * U l j) * rv (z j)).
      rewrite (rsumn_ext (g := fun l => rsumn n (fun j => L i l * (U l j * rv (z j))))); last first.
        by move=> l _; rewrite rsumn_scal.
      rewrite rsumn_swap; apply: rsumn_ext => j _.
      rewrite Rmult_comm -rsumn_scal; apply: rsumn_ext => l _; ring.
    by rewrite -rsumn_sub /E3; apply: rsumn_ext => j _; ring.
  have e2 : E2 = E1 - rsumn n (fun l => L i l * rsumn n (fun j => U l j * rv (z j))).
    by rewrite /E1 -rsumn_sub /E2; apply: rsumn_ext => l _; ring.
  by rewrite e3 e2; ring.
apply: Rle_trans (Rabs_triang _ _) _; rewrite Rabs_Ropp.
have tr := Rabs_triang (rv (b i) - E1) E2.
have ELD : LD = grow n * eta64 * rsumn n (fun l => Rabs (L i l) * (INR n + Rabs (U l l))).
  by rewrite /LD -rsumn_scal; apply: rsumn_ext => l _; rewrite /D; ring.
have EG : rsumn n (fun j => G j * Rabs (rv (z j))) = grow n * eta64 * rsumn n (fun j => (INR n + rsumn n (fun l => Rabs (U l j))) * Rabs (rv (z j))).
  by rewrite -rsumn_scal; apply: rsumn_ext => j _; rewrite /G; ring.
set K1 := rsumn n (fun l => Rabs (L i l) * (INR n + _)) in ELD *.
set K2 := rsumn n (fun j => (INR n + rsumn n (fun l => Rabs (U l j))) * Rabs (rv (z j))) in EG *.
have K10 : 0 <= K1 by apply: rsumn_ge0 => l _; apply: Rmult_le_pos; [apply: Rabs_pos|have := Rabs_pos (U l l); lra].
have K20 : 0 <= K2.
  apply: rsumn_ge0 => j _; apply: Rmult_le_pos; last exact: Rabs_pos.
  have : 0 <= rsumn n (fun l => Rabs (U l j)) by apply: rsumn_ge0 => l _; apply: Rabs_pos.
  lra.
rewrite EG in h3; rewrite ELD in h1' h2.
have g3 : grow (3 * n) = grow n * (grow n * grow n).
  by have -> : (3 * n = n + (n + n))%N by [lia]; rewrite !grow_add.
have g2 : grow (2 * n) = grow n * grow n.
  by have -> : (2 * n = n + n)%N by [lia]; rewrite grow_add.
rewrite /err g3 g2; rewrite /err in h1 h1' h2 h3 en.
set g := grow n in g1 ge h1 h1' h2 h3 en *.
have p1 : (g - 1) * (g * LW) + 2 * ((g - 1) * LW) <= (g * (g * g) - 1) * LW.
  have : 0 <= (g - 1) * ((g * g - 1) * LW).
    by apply: Rmult_le_pos => //; apply: Rmult_le_pos => //; nra.
  have -> : (g * (g * g) - 1) * LW = (g - 1) * (g * LW) + 2 * ((g - 1) * LW) + (g - 1) * ((g * g - 1) * LW) by ring.
  lra.
have p2 : g * eta64 * (INR n + K2) <= g * g * eta64 * (INR n + K2).
  apply: Rmult_le_compat_r; first lra.
  by have : 0 <= (g - 1) * (g * eta64) by [apply: Rmult_le_pos]; lra.
lra.
Qed.
End Solve.
