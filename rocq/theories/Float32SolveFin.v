(** * (generated by tools/gen32.py from FloatSolveFin.v) Float32SolveFin: the triangular solves of a well-conditioned f32 system do not overflow *)
From Coq Require Import ZArith Reals Lra Psatz.
From Flocq Require Import Core BinarySingleNaN.
From mathcomp Require Import all_ssreflect all_algebra zify.
From mathcomp Require Import fingroup perm.
From Verif Require Import Base Scalar Hoare ModelMatrix ModelLU Spec MatrixProofs MatrixProofs2 LUProofs LUEval B32 SpecFloat32 Float32Base Float32LU Float32Prio SpecFloat32Prio.

Set Implicit Arguments.
Unset Strict Implicit.
Unset Printing Implicit Defensive.
Local Open Scope R_scope.

(** c - y0 f0 - y1 f1 - ... does not overflow when the sum of the magnitudes is below the limit *)
Lemma chain_ok ks (c : b32) (y f : nat -> b32) :
  finite c -> (forall k, k \in ks -> finite (y k) /\ finite (f k)) ->
  let T := grow (size ks) * Rabs (rv c) +
           grow (size ks).+1 * (\big[Rplus/0]_(k <- ks) (Rabs (rv (f k)) * Rabs (rv (y k))) + INR (size ks) * eta32) in
  T <= big32 -> finite (chain (S:=B32) c ks y f) /\ Rabs (rv (chain (S:=B32) c ks y f)) <= T.
Proof.
elim: ks c => [|k ks IH] c fc fk T hT.
  by split=> //; rewrite /T big_nil /grow /=; lra.
have [fy ff] := fk k (mem_head _ _).
have u0 := u32_gt0; have e0 := eta32_gt0; have n0 := pos_INR (size ks); have g1 := grow_ge1 (size ks).
set A := \big[Rplus/0]_(j <- ks) (Rabs (rv (f j)) * Rabs (rv (y j))).
have A0 : 0 <= A by apply: big_ind => [||j _]; [lra|move=> *; lra|apply: Rmult_le_pos; apply: Rabs_pos].
set x := Rabs (rv (f k)) * Rabs (rv (y k)); have x0 : 0 <= x by apply: Rmult_le_pos; apply: Rabs_pos.
have ET : T = (1 + u32) * grow (size ks) * Rabs (rv c) + (1 + u32) * ((1 + u32) * grow (size ks)) * (x + A + (INR (size ks) + 1) * eta32).
  by rewrite /T big_cons -/A -/x [size _]/= S_INR !growS.
have c0 := Rabs_pos (rv c); set g := grow (size ks) in g1 ET.
have gg : 1 <= (1 + u32) * g by nra.
have xT : x <= T.
  rewrite ET.
  have h1 : 0 <= (1 + u32) * g * Rabs (rv c) by apply: Rmult_le_pos; lra.
  have h2 : 1 <= (1 + u32) * ((1 + u32) * g) by nra.
  have h3 : 0 <= A + (INR (size ks) + 1) * eta32 by nra.
  have h4 : 1 * (x + (A + (INR (size ks) + 1) * eta32)) <= (1 + u32) * ((1 + u32) * g) * (x + (A + (INR (size ks) + 1) * eta32)) by apply: Rmult_le_compat_r; lra.
  lra.
have fm : finite (Bmult mode_NE (y k) (f k)).
  by apply: mul_ok32 => //; rewrite Rabs_mult Rmult_comm -/x; lra.
have [_ _ Em] := mul_finite fm.
have hm : Rabs (rv (Bmult mode_NE (y k) (f k))) <= (1 + u32) * x + eta32.
  by rewrite Em; apply: Rle_trans (abs_rnd_le _) _; rewrite Rabs_mult (Rmult_comm (Rabs (rv (y k)))) -/x; lra.
set p := Bmult mode_NE (y k) (f k) in fm hm.
have key : Rabs (rv c) + ((1 + u32) * x + eta32) <= T /\
   g * ((1 + u32) * (Rabs (rv c) + ((1 + u32) * x + eta32))) + (1 + u32) * g * (A + INR (size ks) * eta32) <= T.
  have h1 : (1 + u32) * g * eta32 <= (1 + u32) * ((1 + u32) * g) * eta32 by apply: Rmult_le_compat_r; nra.
  have h2 : (1 + u32) * g * (A + INR (size ks) * eta32) <= (1 + u32) * ((1 + u32) * g) * (A + INR (size ks) * eta32).
    by apply: Rmult_le_compat_r; nra.
  have h3 : 0 <= (1 + u32) * g * (A + INR (size ks) * eta32) by apply: Rmult_le_pos; nra.
  have h4 : 1 * (Rabs (rv c) + ((1 + u32) * x + eta32)) <= (1 + u32) * g * (Rabs (rv c) + ((1 + u32) * x + eta32)).
    by apply: Rmult_le_compat_r => //; nra.
  rewrite ET; split; lra.
have hd : Rabs (rv c - rv p) <= Rabs (rv c) + ((1 + u32) * x + eta32).
  by apply: Rle_trans (Rabs_triang _ _) _; rewrite Rabs_Ropp; lra.
have ft : finite (Bminus mode_NE c p) by apply: sub_ok => //; lra.
have ht : Rabs (rv (Bminus mode_NE c p)) <= (1 + u32) * (Rabs (rv c) + ((1 + u32) * x + eta32)).
  have [_ _ E] := sub_finite ft.
  have [[d [hd' Ed]] _] := rnd_add (fmt_rv c) (generic_format_opp _ _ _ (fmt_rv p)).
  rewrite E -[_ - _]/(rv c + - rv p) Ed Rabs_mult -[rv c + - rv p]/(rv c - rv p) Rmult_comm.
  apply: Rmult_le_compat => //; [exact: Rabs_pos|exact: Rabs_pos|].
  by apply: Rle_trans (Rabs_triang _ _) _; rewrite Rabs_R1; lra.
have [] := IH (Bminus mode_NE c p) ft.
- by move=> j hj; apply: fk; rewrite inE hj orbT.
- rewrite -/A -/g growS; apply: Rle_trans _ (Rle_trans _ _ _ (proj2 key) hT); apply: Rplus_le_compat_r.
  by apply: Rmult_le_compat_l; lra.
move=> h1 h2; split; first exact: h1.
apply: Rle_trans h2 _; rewrite -/A -/g growS; apply: Rle_trans _ (proj2 key); apply: Rplus_le_compat_r.
by apply: Rmult_le_compat_l; lra.
Qed.

Lemma rsumn_cst n c : rsumn n (fun=> c) = INR n * c.
Proof. by elim: n => [|n IH]; rewrite ?rsumn0 ?rsumnS ?IH ?S_INR /=; ring. Qed.

(** a solution of a triangular system, exact for the first rows and with a small residual for the others, is bounded when
    L U is close to an invertible matrix *)
Section Suffix.
Variables (n : nat) (A L U V : nat -> nat -> R) (y w : nat -> R) (W Y K E e1 e2 : R).
Hypothesis LU : forall i l, (i < n)%N -> (l < n)%N -> Rabs (L i l) <= 1.
Hypothesis UW : forall l k, (l < n)%N -> (k < n)%N -> Rabs (U l k) <= W.
Hypothesis UZ : forall i j, (j < i)%N -> U i j = 0.
Hypothesis UD : forall k, (k < n)%N -> U k k <> 0.
Hypothesis HE : forall i j, (i < n)%N -> (j < n)%N -> Rabs (A i j - rsumn n (fun l => L i l * U l j)) <= E.
Hypothesis HV : forall i j, (i < n)%N -> (j < n)%N -> rsumn n (fun l => V i l * A l j) = if i == j then 1 else 0.
Hypothesis HK : forall i, (i < n)%N -> rsumn n (fun l => Rabs (V i l)) <= K.
Hypothesis HY : forall i, (i < n)%N -> Rabs (y i) <= Y.
Hypothesis He1 : 0 <= e1.
Hypothesis He2 : 0 <= e2.
Hypothesis HC : K * (INR n * (e1 * (INR n * W) + E)) <= / 2.

Lemma suffix_bound k : (k < n)%N ->
  (forall i, (k <= i < n)%N -> Rabs (y i - rsumn n (fun l => U i l * w l)) <=
     e1 * rsumn n (fun l => Rabs (U i l) * Rabs (w l)) + e2) ->
  forall l, (k <= l < n)%N -> Rabs (w l) <= 2 * K * (INR n * (Y + e2)).
Proof.
move=> kn hw l /andP [kl ln].
pose w1 l := if (l < k)%N then 0 else w l.
have [x0 [x0z hx0]] := @upper_solve n U (fun i => - rsumn n (fun l => U i l * w1 l)) k (ltnW kn) UZ (fun l hl => UD (ltn_trans hl kn)).
pose x l := x0 l + w1 l.
have xw i : (k <= i)%N -> x i = w i.
  by move=> ki; rewrite /x /w1 x0z // ltnNge ki /=; ring.
have [p [pn hp]] := max_elem x (leq_ltn_trans (leq0n k) kn).
set X := Rabs (x p) in hp; have X0 : 0 <= X by apply: Rabs_pos.
have n0 := pos_INR n.
have Y0 : 0 <= Y by apply: Rle_trans (Rabs_pos _) (HY kn).
have W0 : 0 <= W by apply: Rle_trans (Rabs_pos _) (UW kn kn).
have E0 : 0 <= E by apply: Rle_trans (Rabs_pos _) (HE kn kn).
have K0 : 0 <= K by apply: Rle_trans (HK kn); apply: rsumn_ge0 => j _; apply: Rabs_pos.
pose c i := rsumn n (fun j => U i j * x j).
have hc i : (i < n)%N -> Rabs (c i) <= Y + (e1 * (INR n * W * X) + e2).
  move=> hi; case: (ltnP i k) => ik.
    have -> : c i = 0.
      rewrite /c (rsumn_ext (g := fun j => U i j * x0 j + U i j * w1 j)); last by move=> j _; rewrite /x; ring.
      by rewrite rsumn_add hx0 //; ring.
    by rewrite Rabs_R0; have : 0 <= e1 * (INR n * W * X) by [apply: Rmult_le_pos => //; apply: Rmult_le_pos => //; apply: Rmult_le_pos]; lra.
  have ec : c i = rsumn n (fun j => U i j * w j).
    apply: rsumn_ext => j _; case: (leqP k j) => kj; first by rewrite xw.
    by rewrite UZ; [ring|lia].
  have := hw i _; rewrite ik hi => /(_ isT) h.
  have s1 : rsumn n (fun l => Rabs (U i l) * Rabs (w l)) <= INR n * W * X.
    rewrite Rmult_assoc -rsumn_cst; apply: rsumn_le => j hj; case: (leqP k j) => kj.
      by rewrite -xw //; apply: Rmult_le_compat; [exact: Rabs_pos|exact: Rabs_pos|apply: UW|apply: hp].
    have -> : U i j = 0 by apply: UZ; lia.
    by rewrite Rabs_R0 Rmult_0_l; apply: Rmult_le_pos.
  have s2 := Rmult_le_compat_l _ _ _ He1 s1.
  rewrite ec; set s := rsumn n _ in h *.
  have -> : s = y i - (y i - s) by ring.
  by apply: Rle_trans (Rabs_triang _ _) _; rewrite Rabs_Ropp; have := HY hi; lra.
set C := Y + _ in hc; have C0 : 0 <= C by apply: Rle_trans (Rabs_pos _) (hc k kn).
have hA i : (i < n)%N -> Rabs (rsumn n (fun j => A i j * x j)) <= INR n * C + INR n * E * X.
  move=> hi.
  have -> : rsumn n (fun j => A i j * x j) = rsumn n (fun l => L i l * c l) + rsumn n (fun j => (A i j - rsumn n (fun l => L i l * U l j)) * x j).
    rewrite (rsumn_ext (f := fun j => (A i j - rsumn n (fun l => L i l * U l j)) * x j)
             (g := fun j => A i j * x j - rsumn n (fun l => L i l * (U l j * x j)))); last first.
      by move=> j _; rewrite (rsumn_ext (f := fun l => L i l * (U l j * x j)) (g := fun l => x j * (L i l * U l j))); [rewrite rsumn_scal|move=> l' _]; ring.
    rewrite rsumn_sub rsumn_swap (rsumn_ext (f := fun l => rsumn n (fun j => L i l * (U l j * x j))) (g := fun l => L i l * c l)); last first.
      by move=> l' hl; rewrite rsumn_scal.
    ring.
  apply: Rle_trans (Rabs_triang _ _) _; apply: Rplus_le_compat.
    apply: Rle_trans (rsumn_abs _ _) _; rewrite -rsumn_cst; apply: rsumn_le => j hj.
    by rewrite -[X in _ <= X]Rmult_1_l; apply: abs_mul_le; [apply: LU|apply: hc].
  apply: Rle_trans (rsumn_abs _ _) _; rewrite Rmult_assoc -rsumn_cst.
  by apply: rsumn_le => j hj; apply: abs_mul_le; [apply: HE|apply: hp].
have ep : x p = rsumn n (fun l => V p l * rsumn n (fun j => A l j * x j)).
  rewrite (rsumn_ext (g := fun l => rsumn n (fun j => V p l * (A l j * x j)))); last by move=> l' _; rewrite rsumn_scal.
  rewrite rsumn_swap (rsumn_ext (g := fun j => (if p == j then 1 else 0) * x j)); last first.
    by move=> j hj; rewrite -HV // Rmult_comm -rsumn_scal; apply: rsumn_ext => l' _; ring.
  clear -pn; elim: (n) pn => [//|d IHc]; rewrite ltnS leq_eqVlt rsumnS => /orP[/eqP <-|kn].
    rewrite eqxx (rsumn_ext (g := fun=> 0)); last by move=> j hj; have -> : (p == j) = false by [lia]; ring.
    by rewrite rsumn_cst; ring.
  by rewrite -IHc //; have -> : (p == d) = false by [lia]; ring.
have hX : X <= K * (INR n * C + INR n * E * X).
  rewrite /X {1}ep; apply: Rle_trans (rsumn_abs _ _) _.
  apply: Rle_trans (_ : rsumn n (fun l => (INR n * C + INR n * E * X) * Rabs (V p l)) <= _).
    by apply: rsumn_le => j hj; rewrite Rmult_comm; apply: abs_mul_le; [apply: hA|apply: Rle_refl].
  rewrite rsumn_scal (Rmult_comm K); apply: Rmult_le_compat_l; last exact: HK.
  by apply: Rplus_le_le_0_compat; repeat apply: Rmult_le_pos.
have : X <= 2 * K * (INR n * (Y + e2)).
  have e : K * (INR n * C + INR n * E * X) = K * (INR n * (Y + e2)) + K * (INR n * (e1 * (INR n * W) + E)) * X by rewrite /C; ring.
  by have := Rmult_le_compat_r _ _ _ X0 HC; lra.
by move=> h; apply: Rle_trans h; rewrite -xw //; apply: hp.
Qed.
End Suffix.

Section SolveFin.
Variables (n : nat) (f : nat -> nat -> b32) (b y z : nat -> b32) (A V : nat -> nat -> R) (W bb K E : R).
Hypothesis FW : forall i k, (i < n)%N -> (k < n)%N ->
  finite (f i k) /\ (if (i <= k)%N then Rabs (rv (f i k)) <= W else Rabs (rv (f i k)) <= 1).
Hypothesis Dz : forall k, (k < n)%N -> rv (f k k) <> 0.
Hypothesis Fb : forall i, (i < n)%N -> finite (b i) /\ Rabs (rv (b i)) <= bb.
Hypothesis Hy : forall i, (i < n)%N -> y i = chain (S:=B32) (b i) (iota 0 i) y (f i).
Hypothesis Hz : forall i, (i < n)%N -> z i = bdiv (chain (S:=B32) (y i) (rev (iota i.+1 (n - i.+1))) z (f i)) (f i i).
Local Notation L i l := (rv (lfnS (S:=B32) f i l)).
Local Notation U l k := (rv (ufnS (S:=B32) f l k)).
Hypothesis HE : forall i j, (i < n)%N -> (j < n)%N -> Rabs (A i j - rsumn n (fun l => L i l * U l j)) <= E.
Hypothesis HV : forall i j, (i < n)%N -> (j < n)%N -> rsumn n (fun l => V i l * A l j) = if i == j then 1 else 0.
Hypothesis HK : forall i, (i < n)%N -> rsumn n (fun l => Rabs (V i l)) <= K.
Hypothesis EW : err n * (INR n * W) <= E.
Hypothesis HC : K * (INR n * E) <= / 4.
Let Y := lu_bound n bb n.-1.
Let Z := sol_bound n K W Y.
Hypothesis HB1 : Z <= big32.
Hypothesis HB2 : grow n.+1 * (Y + INR n * (W * Z + eta32)) <= big32.
Hypothesis b0 : 0 <= bb.
Hypothesis W0 : 0 <= W.
Hypothesis K0 : 0 <= K.

Lemma y_bound_le i j : (i <= j)%N -> lu_bound n bb i <= lu_bound n bb j.
Proof.
move=> ij; rewrite /lu_bound; have g1 := grow_ge1 n.+1; have e0 := eta32_gt0; have n0 := pos_INR n.+1.
apply: Rmult_le_compat_r; first nra.
apply: Rmult_le_compat_l; first lra.
by apply: Rle_pow; [lra|apply/leP].
Qed.
Lemma Y_ge0 : 0 <= Y.
Proof.
rewrite /Y /lu_bound; have g1 := grow_ge1 n.+1; have e0 := eta32_gt0; have n0 := pos_INR n.+1.
by apply: Rmult_le_pos; [apply: Rmult_le_pos; [lra|apply: pow_le; lra]|nra].
Qed.
Lemma Z_ge0 : 0 <= Z.
Proof.
have Y0 := Y_ge0; have g1 := grow_ge1 n; have e0 := eta32_gt0; have n0 := pos_INR n; rewrite /Z /sol_bound.
apply: Rmult_le_pos; first lra.
by apply: Rmult_le_pos => //; have : 0 <= grow n * eta32 * (INR n + W) by [apply: Rmult_le_pos; [apply: Rmult_le_pos|]; lra]; lra.
Qed.

Lemma y_prio i : (i < n)%N -> finite (y i) /\ Rabs (rv (y i)) <= lu_bound n bb i.
Proof.
elim/ltn_ind: i => i IH hi.
have [fb hb] := Fb hi; set g := grow n.+1; set b1 := bb + INR n.+1 * eta32.
have g1 : 1 <= g := grow_ge1 n.+1; have e0 := eta32_gt0; have n0 := pos_INR i; have gi := grow_ge1 i.
have g2 : grow i <= g by apply: grow_le; lia.
have g3 : grow i.+1 <= g by apply: grow_le; lia.
set s := rsumn i (fun l => Rabs (rv (f i l)) * Rabs (rv (y l))).
have hs : s <= ((1 + g) ^ i - 1) * b1.
  rewrite -geo_sum; apply: rsumn_le => l li; have [_ h1] := IH l li (ltn_trans li hi).
  have [_ h2] := FW hi (ltn_trans li hi); move: h2; have -> : (i <= l)%N = false by [lia]. move=> h2.
  rewrite -[X in _ <= X]Rmult_1_l; apply: Rmult_le_compat => //; exact: Rabs_pos.
have s0 : 0 <= s by apply: rsumn_ge0 => l _; apply: Rmult_le_pos; apply: Rabs_pos.
have nr : INR i <= INR n.+1 by apply: le_INR; apply/leP; lia.
have key : grow i * Rabs (rv (b i)) + grow i.+1 * (s + INR i * eta32) <= lu_bound n bb i.
  apply: Rle_trans (_ : g * bb + g * (s + INR i * eta32) <= _).
    apply: Rplus_le_compat; first by apply: Rmult_le_compat; [lra|exact: Rabs_pos|lra|lra].
    by apply: Rmult_le_compat_r; nra.
  rewrite /lu_bound -/g -/b1; set P := (1 + g) ^ i in hs *.
  have -> : g * P * b1 = g * bb + g * ((P - 1) * b1 + INR n.+1 * eta32) by rewrite /b1; ring.
  apply/Rplus_le_compat_l/Rmult_le_compat_l; first lra.
  by apply: Rplus_le_compat => //; apply: Rmult_le_compat_r; lra.
have := @chain_ok (iota 0 i) (b i) y (f i) fb _; rewrite size_iota big_rsumn0 -/s -Hy //; case.
- move=> l; rewrite mem_iota => /andP [_ li]; have li' : (l < i)%N by [].
  by have [? _] := IH l li' (ltn_trans li' hi); have [? _] := FW hi (ltn_trans li' hi).
- apply: Rle_trans key _; apply: Rle_trans (_ : Y <= _); first by apply: y_bound_le; lia.
  apply: Rle_trans HB2; have Y0 := Y_ge0; have Z0 := Z_ge0; have nn := pos_INR n.
  have wz : 0 <= INR n * (W * Z + eta32) by apply: Rmult_le_pos => //; have := Rmult_le_pos _ _ W0 Z0; lra.
  have := grow_ge1 n.+1; nra.
by move=> h1 h2; split=> //; lra.
Qed.

Lemma yY i : (i < n)%N -> Rabs (rv (y i)) <= Y.
Proof. by move=> hi; have [_ h] := y_prio hi; apply: Rle_trans h (y_bound_le _); lia. Qed.
Lemma FF i k : (i < n)%N -> (k < n)%N -> finite (f i k). Proof. by move=> hi hk; have [] := FW hi hk. Qed.
Lemma LW i l : (i < n)%N -> (l < n)%N -> Rabs (L i l) <= 1.
Proof.
move=> hi hl; rewrite /lfnS; case: (ltnP l i) => li.
  by have [_] := FW hi hl; have -> : (i <= l)%N = false by [lia].
case: eqP => _; first by rewrite [n_one _]/(b32_int 1) rv_int1 Rabs_R1; lra.
by rewrite Rabs_R0; lra.
Qed.
Lemma UW i l : (i < n)%N -> (l < n)%N -> Rabs (U i l) <= W.
Proof.
move=> hi hl; rewrite /ufnS; case: (leqP i l) => il; last by rewrite Rabs_R0.
by have [_] := FW hi hl; rewrite il.
Qed.

Definition rho : R := grow n * eta32 * (INR n + W).

Lemma suffix k (w : nat -> R) : (k < n)%N ->
  (forall i, (k <= i < n)%N -> Rabs (rv (y i) - rsumn n (fun l => U i l * w l)) <=
     err n * rsumn n (fun l => Rabs (U i l) * Rabs (w l)) + rho) ->
  forall l, (k <= l < n)%N -> Rabs (w l) <= Z.
Proof.
move=> kn h l hl.
have r0 : 0 <= rho.
  by rewrite /rho; have := grow_ge1 n; have := eta32_gt0; have := pos_INR n; move=> *; apply: Rmult_le_pos; nra.
apply: (@suffix_bound n A (fun i l => L i l) (fun i l => U i l) V (fun i => rv (y i)) w W Y K E (err n) rho _ _ _ _ _ _ _ _ _ _ _ k kn h l hl) => //.
- exact: LW.
- exact: UW.
- by move=> i j ji; rewrite /ufnS leqNgt ji.
- by move=> i hi; rewrite /ufnS leqnn; apply: Dz.
- exact: yY.
- exact: err_ge0.
have : K * (INR n * (err n * (INR n * W) + E)) <= K * (INR n * (E + E)).
  by apply: Rmult_le_compat_l => //; apply: Rmult_le_compat_l; [exact: pos_INR|lra].
lra.
Qed.

Lemma z_prio c : (c <= n)%N -> forall l, (n - c <= l < n)%N -> finite (z l) /\ Rabs (rv (z l)) <= Z.
Proof.
elim: c => [|c IH] cn l; first by move=> h; exfalso; lia.
set k := (n - c.+1)%N => /andP [kl ln].
have kn : (k < n)%N by rewrite /k; lia.
have {}IH j : (k < j < n)%N -> finite (z j) /\ Rabs (rv (z j)) <= Z by move=> h; apply: IH; rewrite /k in h *; lia.
have Y0 := Y_ge0; have Z0 := Z_ge0; have e0 := eta32_gt0; have nn := pos_INR n.
have [fy hy] := y_prio kn; have {}hy := yY kn.
set m := (n - k.+1)%N.
pose t := chain (S:=B32) (y k) (rev (iota k.+1 m)) z (f k).
have [ft ht] : finite t /\ Rabs (rv t) <= big32.
  have := @chain_ok (rev (iota k.+1 m)) (y k) z (f k) fy _; rewrite size_rev size_iota big_rev_iota -/t.
  set s := rsumn m _.
  have hs : s <= INR m * (W * Z).
    rewrite -rsumn_cst; apply: rsumn_le => j hj; have hj' : (k < k.+1 + j < n)%N by rewrite /m in hj; lia.
    apply: Rmult_le_compat; [exact: Rabs_pos|exact: Rabs_pos| |by have [] := IH _ hj'].
    by have [_] := @FW k (k.+1 + j) kn ltac:(lia); have -> : (k <= k.+1 + j)%N by [lia].
  have mn : INR m <= INR n by apply: le_INR; apply/leP; rewrite /m; lia.
  have s0 : 0 <= s by apply: rsumn_ge0 => j _; apply: Rmult_le_pos; apply: Rabs_pos.
  have m0 := pos_INR m; have gm := grow_ge1 m.
  have key : grow m * Rabs (rv (y k)) + grow m.+1 * (s + INR m * eta32) <= big32.
    apply: Rle_trans HB2; rewrite (Rmult_plus_distr_l (grow n.+1)).
    have g2 : grow m <= grow n.+1 by apply: grow_le; rewrite /m; lia.
    have g3 : grow m.+1 <= grow n.+1 by apply: grow_le; rewrite /m; lia.
    have wz := Rmult_le_pos _ _ W0 Z0.
    apply: Rplus_le_compat; apply: Rmult_le_compat => //; [lra|exact: Rabs_pos| |nra|].
      by have := grow_ge1 m.+1; lra.
    have h1 : INR m * (W * Z + eta32) <= INR n * (W * Z + eta32) by apply: Rmult_le_compat_r; lra.
    lra.
  case => //.
    move=> j; rewrite mem_rev mem_iota => hj; have hj' : (k < j < n)%N by rewrite /m in hj; lia.
    by have [? _] := IH _ hj'; have [? _] := @FW k j kn ltac:(lia).
  by move=> h1 h2; split=> //; lra.
have zk : z k = bdiv t (f k k) by rewrite Hz.
have Rho i : (i < n)%N -> grow n * eta32 * (INR n + Rabs (U i i)) <= rho.
  move=> hi; rewrite /rho; apply: Rmult_le_compat_l; first by have := grow_ge1 n; nra.
  by apply: Rplus_le_compat_l; apply: UW.
(* the quotient before it is rounded *)
have hq : Rabs (rv t / rv (f k k)) <= Z.
  pose w l := if l == k then rv t / rv (f k k) else rv (z l).
  have -> : rv t / rv (f k k) = w k by rewrite /w eqxx.
  apply: (@suffix k w kn) => [i /andP[ki ni]|]; last by rewrite leqnn.
  case: (ltngtP k i) ki => // [ki _|<- _].
    have [fz _] := IH i ltac:(lia).
    have h := bwd_row FF Hz ni fz; have e1 := Rho i ni.
    rewrite (rsumn_ext (g := fun l => U i l * rv (z l))); last first.
      move=> j _; rewrite /w; case: eqP => // ->; have -> : U i k = 0 by rewrite /ufnS leqNgt ki.
      ring.
    rewrite (rsumn_ext (f := fun l => Rabs (U i l) * Rabs (w l)) (g := fun l => Rabs (U i l) * Rabs (rv (z l)))); last first.
      move=> j _; rewrite /w; case: eqP => // ->; have -> : U i k = 0 by rewrite /ufnS leqNgt ki.
      rewrite Rabs_R0; ring.
    apply: Rle_trans h _; lra.
  rewrite (@U_split n f (fun x => x) w k kn) // (@U_split n f Rabs (fun l => Rabs (w l)) k kn) ?Rabs_R0 //.
  have [_ _] := chain_err ft; rewrite !big_rev_iota size_rev size_iota -/t.
  have wj j : w (k.+1 + j)%N = rv (z (k.+1 + j)%N) by rewrite /w; have -> : (k.+1 + j == k)%N = false by [lia].
  rewrite (rsumn_ext (f := fun l => rv (f k (k.+1 + l)%N) * w (k.+1 + l)%N) (g := fun l => rv (f k (k.+1 + l)%N) * rv (z (k.+1 + l)%N))); last by move=> j _; rewrite wj.
  rewrite (rsumn_ext (f := fun l => Rabs (rv (f k (k.+1 + l)%N)) * Rabs (w (k.+1 + l)%N)) (g := fun l => Rabs (rv (f k (k.+1 + l)%N)) * Rabs (rv (z (k.+1 + l)%N)))); last by move=> j _; rewrite wj.
  rewrite -/m; set P := rsumn m _; set Q := rsumn m _ => h.
  have et : rv (f k k) * w k = rv t by rewrite /w eqxx; field; apply: Dz.
  have et' : Rabs (rv (f k k)) * Rabs (w k) = Rabs (rv t) by rewrite -Rabs_mult et.
  rewrite et et'.
  have -> : rv (y k) - (rv t + P) = rv (y k) - P - rv t by ring.
  apply: Rle_trans h _.
  have Q0 : 0 <= Q by apply: rsumn_ge0 => j _; apply: Rmult_le_pos; apply: Rabs_pos.
  have t0 := Rabs_pos (rv t).
  have a1 : err m * (Q + Rabs (rv t)) <= err n * (Rabs (rv t) + Q).
    by rewrite (Rplus_comm Q); apply: Rmult_le_compat_r; [lra|apply: err_le; rewrite /m; lia].
  have a2 : INR m * (grow m * eta32) <= INR n * (grow n * eta32).
    apply: Rmult_le_compat; [exact: pos_INR|by have := grow_ge1 m; nra| |].
      by apply: le_INR; apply/leP; rewrite /m; lia.
    by apply: Rmult_le_compat_r; [lra|apply: grow_le; rewrite /m; lia].
  have a3 : INR n * (grow n * eta32) <= rho.
    rewrite /rho; have : 0 <= grow n * eta32 * W by have := grow_ge1 n; move=> ?; apply: Rmult_le_pos => //; nra.
    lra.
  lra.
have fz : finite (z k).
  by rewrite zk; apply: div_ok => //; [apply: Dz|lra].
have IH' j : (k <= j < n)%N -> finite (z j).
  by case: (ltngtP k j) => [h /andP[_ h2]|h /andP[h1 _]|<- //]; [have [] := IH j ltac:(lia)|lia].
split; first by apply: IH'; rewrite kl.
apply: (@suffix k (fun j => rv (z j)) kn) => [i hi|]; last by rewrite kl.
have ni : (i < n)%N by lia.
have h := bwd_row FF Hz ni (IH' i hi); have e1 := Rho i ni; apply: Rle_trans h _; lra.
Qed.
End SolveFin.
