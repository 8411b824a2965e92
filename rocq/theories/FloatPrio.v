(** * FloatPrio: a priori bounds for the LU decomposition in f64 *)
From Coq Require Import ZArith Reals Lra Psatz.
From Flocq Require Import Core BinarySingleNaN.
From mathcomp Require Import all_ssreflect all_algebra zify.
From mathcomp Require Import fingroup perm.
From Verif Require Import Base Scalar Hoare ModelMatrix ModelLU Spec MatrixProofs MatrixProofs2 LUProofs LUEval B64 SpecFloat64 FloatBase FloatLU.

Set Implicit Arguments.
Unset Strict Implicit.
Unset Printing Implicit Defensive.
Local Open Scope R_scope.

(** the geometric sum of the bounds *)
Lemma geo_sum g (M : R) c : rsumn c (fun l => g * (1 + g) ^ l * M) = ((1 + g) ^ c - 1) * M.
Proof. by elim: c => [|c IH]; rewrite ?rsumn0 ?rsumnS ?IH /=; ring. Qed.

Lemma dot64_abs n a b : finite (dot64 b64_zero n a b) ->
  Rabs (rv (dot64 b64_zero n a b)) <= grow n * (rsumn n (fun k => Rabs (rv (a k)) * Rabs (rv (b k))) + INR n * eta64).
Proof.
move=> fs; have [_ hs] := dot64_err fs; set s := rsumn n (fun k => Rabs _ * _) in hs *.
have hS : Rabs (rsumn n (fun k => rv (a k) * rv (b k))) <= s.
  by apply: Rle_trans (rsum_abs _) _; apply: rsum_le => i; rewrite Rabs_mult; apply: Rle_refl.
set t := rsumn n (fun k => rv (a k) * rv (b k)) in hs hS.
have -> : rv (dot64 b64_zero n a b) = (rv (dot64 b64_zero n a b) - t) + t by ring.
by apply: Rle_trans (Rabs_triang _ _) _; rewrite /err in hs; have := grow_ge1 n; nra.
Qed.

Section Prio.
Variables (m n : nat) (a f : nat -> nat -> b64) (q : nat -> nat) (M : R).
Hypothesis Hf : forall i k, (i < m)%N -> (k < n)%N -> f i k = lu_entry (S:=B64) bdiv a f q i k.
Hypothesis Hp : forall i k, (k < n)%N -> (k <= i < m)%N ->
  ~~ Bltb (Babs (lu_num (S:=B64) a f q k k)) (Babs (lu_num (S:=B64) a f q i k)).
Hypothesis FA : forall i k, (i < m)%N -> (k < n)%N -> finite (a (q i) k) /\ Rabs (rv (a (q i) k)) <= M.
Local Notation num := (lu_num (S:=B64) a f q).
Local Notation r := (minn m n).
Let g := grow r.+1.
Let M1 := M + INR r.+1 * eta64.
Hypothesis HB : g * (1 + g) ^ r.-1 * M1 <= big64.
Hypothesis M0 : 0 <= M.

Let B c := g * (1 + g) ^ c * M1.
Lemma g_ge1 : 1 <= g. Proof. exact: grow_ge1. Qed.
Lemma M1_ge0 : 0 <= M1. Proof. by rewrite /M1; have := pos_INR r.+1; have := eta64_gt0; nra. Qed.
Lemma B_le c d : (c <= d)%N -> B c <= B d.
Proof.
move=> cd; rewrite /B; apply: Rmult_le_compat_r; first exact: M1_ge0.
apply: Rmult_le_compat_l; first by have := g_ge1; lra.
by apply: Rle_pow; [have := g_ge1; lra|apply/leP].
Qed.
Lemma B_big c : (c < r)%N -> B c <= big64.
Proof. by move=> cr; apply: Rle_trans (B_le _) HB; lia. Qed.

(** one element before the division *)
Lemma num_prio i k : (i < m)%N -> (k < n)%N ->
  (forall l, (l < minn i k)%N -> finite (f i l) /\ Rabs (rv (f i l)) <= 1) ->
  (forall l, (l < minn i k)%N -> finite (f l k) /\ Rabs (rv (f l k)) <= B l) ->
  finite (num i k) /\ Rabs (rv (num i k)) <= B (minn i k).
Proof.
move=> hi hk hl hu; rewrite /lu_num; set c := minn i k in hl hu *.
have cr : (c < r)%N by rewrite /c; lia.
have [fa ha] := FA hi hk.
have g1 := g_ge1; have m1 := M1_ge0; have u0 := u64_gt0; have e0 := eta64_gt0; have n0 := pos_INR c.
have gc1 := grow_ge1 c.
have gc : (1 + u64) * grow c <= g by rewrite -growS; apply: grow_le; lia.
have nr : INR c + 1 <= INR r.+1 by rewrite -S_INR; apply: le_INR; apply/leP; lia.
set s := rsumn c (fun l => Rabs (rv (f i l)) * Rabs (rv (f l k))).
have s0 : 0 <= s by apply: rsumn_ge0 => l _; apply: Rmult_le_pos; apply: Rabs_pos.
have hs : s <= ((1 + g) ^ c - 1) * M1.
  rewrite -geo_sum; apply: rsumn_le => l lc; have [_ h1] := hl l lc; have [_ h2] := hu l lc.
  rewrite -[X in _ <= X]Rmult_1_l; apply: Rmult_le_compat => //; exact: Rabs_pos.
set P := (1 + g) ^ c in hs.
have P1 : 1 <= P by apply: pow_R1_Rle; lra.
(* everything is below B c *)
have key : (1 + u64) * (M + grow c * (s + INR c * eta64)) + eta64 <= B c.
  have h0 : 0 <= s + INR c * eta64 by nra.
  have h1 : (1 + u64) * (grow c * (s + INR c * eta64)) <= g * (s + INR c * eta64).
    by rewrite -Rmult_assoc; apply: Rmult_le_compat_r.
  have h2 : g * s <= g * ((P - 1) * M1) by apply: Rmult_le_compat_l; lra.
  have h3 : (1 + u64) * M <= g * M by apply: Rmult_le_compat_r => //; nra.
  have h4 : eta64 <= g * eta64 by nra.
  have h5 : g * ((INR c + 1) * eta64) <= g * (INR r.+1 * eta64).
    by apply: Rmult_le_compat_l; [lra|apply: Rmult_le_compat_r; lra].
  rewrite /B -/P.
  have -> : g * P * M1 = g * ((P - 1) * M1) + g * (M + INR r.+1 * eta64) by rewrite /M1; ring.
  lra.
have Bb := B_big cr.
have q0 : 0 <= grow c * (s + INR c * eta64) by apply: Rmult_le_pos; nra.
set Q := grow c * (s + INR c * eta64) in key q0.
have uM : 0 <= u64 * (M + Q) by apply: Rmult_le_pos; lra.
have fd : finite (dot64 b64_zero c (f i) (fun l => f l k)).
  by apply: dot64_ok => [l lc|]; [have [] := hl l lc; have [] := hu l lc|rewrite -/s -/Q; lra].
have hd := dot64_abs fd; rewrite -/s -/Q in hd.
have hx : Rabs (rv (a (q i) k) - rv (dot64 b64_zero c (f i) (fun l => f l k))) <= M + Q.
  by apply: Rle_trans (Rabs_triang _ _) _; rewrite Rabs_Ropp; lra.
have fy : finite (Bminus mode_NE (a (q i) k) (dot64 b64_zero c (f i) (fun l => f l k))).
  by apply: sub_ok => //; lra.
split; first exact: fy.
have [_ _ E] := sub_finite fy; rewrite [rv _]E; apply: Rle_trans (abs_rnd_le _) _.
by apply: Rle_trans _ key; apply: Rplus_le_compat_r; apply: Rmult_le_compat_l; lra.
Qed.

Lemma lu_prio k i : (k < n)%N -> (i < m)%N ->
  finite (f i k) /\ (if (i <= k)%N then Rabs (rv (f i k)) <= B i else Rabs (rv (f i k)) <= 1).
Proof.
elim/ltn_ind: k i => k IHk i kn; elim/ltn_ind: i => i IHi im.
have lo l i' : (l < minn i' k)%N -> (i' < m)%N -> finite (f i' l) /\ Rabs (rv (f i' l)) <= 1.
  move=> hl hi'; have lk : (l < k)%N by lia.
  have := IHk l lk i' (ltn_trans lk kn) hi'; have -> : (i' <= l)%N = false by lia.
  by [].
have up l : (l < minn i k)%N -> finite (f l k) /\ Rabs (rv (f l k)) <= B l.
  move=> hl; have li : (l < i)%N by lia.
  by have := IHi l li (ltn_trans li im); have -> : (l <= k)%N by [lia].
have [fn hn] := num_prio im kn (fun l hl => lo l i hl im) up.
rewrite Hf // /lu_entry; case: (leqP i k) => ik.
  by split=> //; have e : minn i k = i by [lia]; rewrite e in hn.
have km : (k < m)%N by lia.
have [fkk hkk] := IHi k ik km; rewrite leqnn in hkk.
have Ekk : f k k = num k k by rewrite Hf // /lu_entry leqnn.
have hnk : Rabs (rv (num i k)) <= Rabs (rv (f k k)).
  by rewrite Ekk; apply: abs_le_of_nlt => //; [rewrite -Ekk|apply: Hp => //; lia].
have e0 : s_eqb (s:=B64) (f k k) (n_zero B64) = Req_bool (rv (f k k)) 0 by apply: eqb0.
rewrite e0; case: Req_bool_spec => z.
  by split=> //; rewrite z Rabs_R0 in hnk; lra.
have p := Rabs_pos_lt _ z.
have hq : Rabs (rv (num i k) / rv (f k k)) <= 1.
  rewrite /Rdiv Rabs_mult Rabs_inv; apply: (Rmult_le_reg_r (Rabs (rv (f k k)))) => //.
  by rewrite Rmult_assoc Rinv_l; lra.
have b1 : 1 <= big64 by apply: pow_R1_Rle; lra.
have fq : finite (bdiv (num i k) (f k k)) by apply: div_ok => //; lra.
split=> //; have [_ _ E] := div_finite fkk fq; rewrite [rv _]E.
exact: abs_rnd_le1.
Qed.
End Prio.

(** ** a zero on the diagonal of an upper triangular matrix *)
Lemma upper_solve n (U : nat -> nat -> R) (b : nat -> R) k : (k <= n)%N ->
  (forall i j, (j < i)%N -> U i j = 0) -> (forall l, (l < k)%N -> U l l <> 0) ->
  exists x : nat -> R, (forall l, (k <= l)%N -> x l = 0) /\
    forall i, (i < k)%N -> rsumn n (fun j => U i j * x j) = b i.
Proof.
move=> + Z; elim: k b => [|k IH] b kn D; first by exists (fun=> 0).
have dk := D k (ltnSn k).
have [x [x0 hx]] := IH (fun i => b i - U i k * (b k / U k k)) (ltnW kn) (fun l hl => D l (ltnW hl)).
exists (fun l => if l == k then b k / U k k else x l); split.
  by move=> l hl; case: eqP => [e|_]; [lia|apply: x0; lia].
have sp i : rsumn n (fun j => U i j * (if j == k then b k / U k k else x j)) =
            rsumn n (fun j => U i j * x j) + U i k * (b k / U k k).
  rewrite (rsumn_ext (g := fun j => U i j * x j + (if j == k then U i k * (b k / U k k) else 0))); last first.
    by move=> j _; case: eqP => [->|_]; [rewrite x0 //|]; ring.
  rewrite rsumn_add; congr (_ + _).
  elim: n kn {IH hx} => [//|n IHn]; rewrite ltnS leq_eqVlt rsumnS => /orP[/eqP <-|kn].
    rewrite eqxx (rsumn_ext (g := fun=> 0)); last by move=> j hj; have -> : (j == k) = false by [lia].
    have -> : rsumn k (fun=> 0) = 0 by elim: (k) => [|p IHp]; rewrite ?rsumn0 ?rsumnS ?IHp; ring.
    ring.
  by rewrite IHn //; have -> : (n == k) = false by [lia]; ring.
move=> i; rewrite ltnS leq_eqVlt sp => /orP[/eqP ->|ik].
  rewrite (rsumn_ext (g := fun=> 0)); last first.
    move=> j _; case: (ltnP j k) => jk; first by rewrite Z //; ring.
    by rewrite x0 //; ring.
  have -> : rsumn n (fun=> 0) = 0 by elim: (n) => [|p IHp]; rewrite ?rsumn0 ?rsumnS ?IHp; ring.
  by field.
by rewrite hx //; ring.
Qed.

(** the largest element of a vector *)
Lemma max_elem n (x : nat -> R) : (0 < n)%N -> exists p, (p < n)%N /\ forall j, (j < n)%N -> Rabs (x j) <= Rabs (x p).
Proof.
elim: n => [//|[|n] IH] _; first by exists 0%N; split=> // -[|j] // _; apply: Rle_refl.
have [//|p [pn hp]] := IH; case: (Rle_dec (Rabs (x p)) (Rabs (x n.+1))) => h.
  exists n.+1; split=> // j; rewrite ltnS leq_eqVlt => /orP[/eqP ->|jn]; first exact: Rle_refl.
  exact: Rle_trans (hp j jn) h.
exists p; split; first exact: ltnW.
by move=> j; rewrite ltnS leq_eqVlt => /orP[/eqP ->|jn]; [lra|apply: hp].
Qed.

(** A = L U up to E, with A clearly invertible: U has no zero on its diagonal *)
Lemma diag_nonzero n (A L U V : nat -> nat -> R) (E K : R) :
  (forall i j, (j < i)%N -> U i j = 0) ->
  (forall i j, (i < n)%N -> (j < n)%N -> Rabs (A i j - rsumn n (fun l => L i l * U l j)) <= E) ->
  (forall i j, (i < n)%N -> (j < n)%N -> rsumn n (fun l => V i l * A l j) = if i == j then 1 else 0) ->
  (forall i, (i < n)%N -> rsumn n (fun l => Rabs (V i l)) <= K) ->
  K * (INR n * E) < 1 -> forall k, (k < n)%N -> U k k <> 0.
Proof.
move=> Z HE HV HK H k; elim/ltn_ind: k => k IH kn zk.
have [x [x0 hx]] := @upper_solve n U (fun i => - U i k) k (ltnW kn) Z (fun l hl => IH l hl (ltn_trans hl kn)).
pose y l := if l == k then 1 else x l.
have hU i : (i < n)%N -> rsumn n (fun j => U i j * y j) = 0.
  move=> hi; rewrite (rsumn_ext (g := fun j => U i j * x j + (if j == k then U i k else 0))); last first.
    by move=> j _; rewrite /y; case: eqP => [->|_]; [rewrite x0 //|]; ring.
  have one : rsumn n (fun j => if j == k then U i k else 0) = U i k.
    elim: n kn {HE HV HK H hx IH hi} => [//|n IHn]; rewrite ltnS leq_eqVlt rsumnS => /orP[/eqP <-|kn].
      rewrite eqxx (rsumn_ext (g := fun=> 0)); last by move=> j hj; have -> : (j == k) = false by [lia].
      have -> : rsumn k (fun=> 0) = 0 by elim: (k) => [|p IHp]; rewrite ?rsumn0 ?rsumnS ?IHp; ring.
      ring.
    by rewrite IHn //; have -> : (n == k) = false by [lia]; ring.
  rewrite rsumn_add one; case: (ltnP i k) => ik; first by rewrite hx //; ring.
  rewrite (rsumn_ext (g := fun=> 0)); last first.
    move=> j _; case: (ltnP j k) => jk; first by rewrite Z; [ring|lia].
    by rewrite x0 //; ring.
  have -> : rsumn n (fun=> 0) = 0 by elim: (n) => [|p IHp]; rewrite ?rsumn0 ?rsumnS ?IHp; ring.
  by case: (ltngtP i k) ik => // [ik _|-> _]; [rewrite Z //|rewrite zk]; ring.
have [p [pn hp]] := max_elem y (leq_ltn_trans (leq0n k) kn).
have yk : 1 <= Rabs (y p) by have := hp k kn; rewrite {1}/y eqxx Rabs_R1.
have E0 : 0 <= E by apply: Rle_trans (Rabs_pos _) (HE k k kn kn).
(* A y is small *)
have hA i : (i < n)%N -> Rabs (rsumn n (fun j => A i j * y j)) <= INR n * E * Rabs (y p).
  move=> hi.
  have -> : rsumn n (fun j => A i j * y j) = rsumn n (fun j => (A i j - rsumn n (fun l => L i l * U l j)) * y j).
    rewrite (rsumn_ext (f := fun j => (A i j - rsumn n (fun l => L i l * U l j)) * y j)
             (g := fun j => A i j * y j - rsumn n (fun l => L i l * (U l j * y j)))); last first.
      by move=> j _; rewrite (rsumn_ext (f := fun l => L i l * (U l j * y j)) (g := fun l => y j * (L i l * U l j))); [rewrite rsumn_scal|move=> l _]; ring.
    rewrite rsumn_sub rsumn_swap (rsumn_ext (f := fun l => rsumn n (fun j => L i l * (U l j * y j))) (g := fun=> 0)); last first.
      by move=> l hl; rewrite rsumn_scal hU //; ring.
    have -> : rsumn n (fun=> 0) = 0 by elim: (n) => [|c IHc]; rewrite ?rsumn0 ?rsumnS ?IHc; ring.
    ring.
  apply: Rle_trans (rsumn_abs _ _) _.
  have -> : INR n * E * Rabs (y p) = rsumn n (fun=> E * Rabs (y p)).
    by elim: (n) => [|c IHc]; rewrite ?rsumn0 ?rsumnS -?IHc ?S_INR /=; ring.
  by apply: rsumn_le => j hj; apply: abs_mul_le; [apply: HE|apply: hp].
have ep : y p = rsumn n (fun l => V p l * rsumn n (fun j => A l j * y j)).
  rewrite (rsumn_ext (g := fun l => rsumn n (fun j => V p l * (A l j * y j)))); last by move=> l _; rewrite rsumn_scal.
  rewrite rsumn_swap (rsumn_ext (g := fun j => (if p == j then 1 else 0) * y j)); last first.
    by move=> j hj; rewrite -HV // Rmult_comm -rsumn_scal; apply: rsumn_ext => l _; ring.
  elim: (n) pn {HE HV HK H hx IH hp hA hU kn} => [//|c IHc]; rewrite ltnS leq_eqVlt rsumnS => /orP[/eqP <-|kn].
    rewrite eqxx (rsumn_ext (g := fun=> 0)); last by move=> j hj; have -> : (p == j) = false by [lia]; ring.
    have -> : rsumn p (fun=> 0) = 0 by elim: (p) => [|d IHd]; rewrite ?rsumn0 ?rsumnS ?IHd; ring.
    ring.
  by rewrite -IHc //; have -> : (p == c) = false by [lia]; ring.
have : Rabs (y p) <= K * (INR n * E * Rabs (y p)).
  rewrite {1}ep; apply: Rle_trans (rsumn_abs _ _) _.
  apply: Rle_trans (_ : rsumn n (fun l => INR n * E * Rabs (y p) * Rabs (V p l)) <= _).
    by apply: rsumn_le => l hl; rewrite Rmult_comm; apply: abs_mul_le; [apply: hA|apply: Rle_refl].
  rewrite rsumn_scal (Rmult_comm K); apply: Rmult_le_compat_l; last exact: HK.
  by apply: Rmult_le_pos; [apply: Rmult_le_pos => //; apply: pos_INR|lra].
have -> : K * (INR n * E * Rabs (y p)) = K * (INR n * E) * Rabs (y p) by ring.
have := Rmult_lt_compat_r _ _ _ (Rlt_le_trans _ _ _ Rlt_0_1 yk) H; lra.
Qed.
