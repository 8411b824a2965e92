(** * FloatCholFull: the f64 Cholesky decomposition succeeds on matrices that are
    positive definite by a margin *)
From Coq Require Import ZArith Reals Lra Psatz.
From Flocq Require Import Core BinarySingleNaN.
From mathcomp Require Import all_ssreflect zify.
From Verif Require Import Base Scalar LUEval CholEval B64 SpecFloat64 FloatBase FloatLU FloatChol.

Set Implicit Arguments.
Unset Strict Implicit.
Unset Printing Implicit Defensive.
Local Open Scope R_scope.

(** ** real analysis *)

Lemma rsumn_split n (F : nat -> R) K : (K <= n)%N -> rsumn n F = rsumn K F + rsumn (n - K) (fun i => F (K + i)%N).
Proof.
move=> h; have -> : n = (K + (n - K))%N by lia.
have -> : (K + (n - K) - K = n - K)%N by lia.
elim: (n - K)%N => [|p IH]; first by rewrite addn0 rsumn0; ring.
by rewrite addnS !rsumnS IH; ring.
Qed.
Lemma rsumn_z n F : (forall i, (i < n)%N -> F i = 0) -> rsumn n F = 0.
Proof. by elim: n => [|n IH] h; rewrite ?rsumn0 // rsumnS IH ?h //; [ring|move=> i hi; apply: h; lia]. Qed.
Lemma rsumn_one n F p : (p < n)%N -> (forall i, (i < n)%N -> i != p -> F i = 0) -> rsumn n F = F p.
Proof.
move=> hp h; rewrite (@rsumn_split n _ p); last lia.
rewrite rsumn_z; last by move=> i hi; apply: h; lia.
have -> : (n - p = (n - p.+1).+1)%N by lia.
rewrite rsumn_head addn0 rsumn_z; first by ring.
by move=> i hi; apply: h; lia.
Qed.
(** a vector with entries below K and one at j *)
Lemma rsumn_emb n K j F : (K <= j < n)%N -> (forall i, (K <= i < n)%N -> i != j -> F i = 0) -> rsumn n F = rsumn K F + F j.
Proof.
move=> hj h; rewrite (@rsumn_split n _ K); last lia.
congr (_ + _); rewrite (rsumn_one (p := (j - K)%N)).
- by congr F; lia.
- lia.
- by move=> i hi hne; apply: h; lia.
Qed.

Lemma tri_null K (L : nat -> nat -> R) (r : nat -> R) :
  (forall i, (i < K)%N -> L i i <> 0) -> (forall i l, (i < l < K)%N -> L i l = 0) ->
  exists x : nat -> R, forall l, (l < K)%N -> rsumn K (fun i => x i * L i l) = r l.
Proof.
elim: K r => [|K IH] r nz up; first by exists (fun _ => 0).
pose xK := r K / L K K.
have [||x hx] := IH (fun l => r l - xK * L K l).
- by move=> i hi; apply: nz; lia.
- by move=> i l hl; apply: up; lia.
exists (fun i => if i == K then xK else x i) => l; rewrite ltnS leq_eqVlt rsumnS eqxx => hl.
have E : rsumn K (fun i => (if i == K then xK else x i) * L i l) = rsumn K (fun i => x i * L i l).
  by apply: rsumn_ext => i hi; have -> : (i == K) = false by lia.
rewrite E; case/orP: hl => [/eqP ->|hl]; last by rewrite hx //; ring.
rewrite rsumn_z; last by move=> i hi; rewrite up; [ring|lia].
by rewrite /xK; field; apply: nz.
Qed.

Lemma rsumn_sq n (p : nat -> R) : rsumn n p * rsumn n p = rsumn n (fun i => rsumn n (fun j => p i * p j)).
Proof. by rewrite -{1}rsumn_scal; apply: rsumn_ext => i _; rewrite Rmult_comm -rsumn_scal. Qed.
Lemma rsumn_cst n c : rsumn n (fun _ => c) = INR n * c.
Proof. by elim: n => [|m IH]; rewrite ?rsumn0 ?rsumnS ?IH ?S_INR; [rewrite /=; ring|ring]. Qed.
Lemma sum_sq n (p : nat -> R) : rsumn n p * rsumn n p <= INR n * rsumn n (fun i => p i * p i).
Proof.
elim: n => [|n IH]; first by rewrite !rsumn0 /=; lra.
rewrite !rsumnS S_INR; set P := rsumn n p in IH *; set Q := rsumn n _ in IH *; set x := p n.
have Q0 : 0 <= Q by apply: rsumn_ge0 => i _; apply: Rle_0_sqr.
suff : 2 * (P * x) <= Q + INR n * (x * x) by have := Rle_0_sqr x; rewrite /Rsqr; lra.
case: (Req_dec (INR n) 0) => z.
  have P0 : P = 0 by apply: Rsqr_0_uniq; apply: Rle_antisym; [rewrite /Rsqr; rewrite z in IH; lra|apply: Rle_0_sqr].
  by rewrite P0 z; lra.
have np : 0 < INR n by have := pos_INR n; lra.
apply: (Rmult_le_reg_l (INR n)) => //.
by have := Rle_0_sqr (P - INR n * x); rewrite /Rsqr; lra.
Qed.

Lemma schur_low n K j (a L : nat -> nat -> R) (row : nat -> R) (w c : R) :
  (K <= j < n)%N -> 0 <= w ->
  (forall i, (i < K)%N -> 0 < L i i) -> (forall i l, (i < l < K)%N -> L i l = 0) ->
  (forall i i', (i < n)%N -> (i' < n)%N -> a i i' = a i' i) ->
  (forall i i', (i < K)%N -> (i' < K)%N -> Rabs (a i i' - rsumn K (fun l => L i l * L i' l)) <= w) ->
  (forall i, (i < K)%N -> Rabs (a j i - rsumn K (fun l => row l * L i l)) <= w) ->
  (forall x : nat -> R, c * rsumn n (fun i => x i * x i) <= rsumn n (fun i => rsumn n (fun i' => x i * a i i' * x i'))) ->
  INR n * w <= c ->
  rsumn K (fun l => row l * row l) + (c - INR n * w) <= a j j.
Proof.
move=> hj w0 Lp Lz sy E1 E2 pd cw.
have [||x hx] := @tri_null K L (fun l => - row l).
- by move=> i hi; have := Lp i hi; lra.
- exact: Lz.
pose z i := if (i < K)%N then x i else if i == j then 1 else 0.
have zK i : (i < K)%N -> z i = x i by rewrite /z => ->.
have zj : z j = 1 by rewrite /z eqxx; case: ltnP => //; lia.
have z0 i : (K <= i < n)%N -> i != j -> z i = 0 by rewrite /z => h /negPf ->; case: ltnP => //; lia.
have := pd z.
have -> : rsumn n (fun i => z i * z i) = rsumn K (fun i => x i * x i) + 1.
  rewrite (rsumn_emb hj); last by move=> i h1 h2; rewrite z0 //; ring.
  by rewrite zj Rmult_1_l; congr (_ + _); apply: rsumn_ext => i hi; rewrite zK.
have inner i : rsumn n (fun i' => z i * a i i' * z i') = z i * (rsumn K (fun i' => a i i' * x i') + a i j).
  rewrite (rsumn_emb hj); last by move=> i' h1 h2; rewrite (z0 i') //; ring.
  rewrite zj Rmult_plus_distr_l -rsumn_scal; congr (_ + _); last by ring.
  by apply: rsumn_ext => i' hi'; rewrite (zK i') //; ring.
have -> : rsumn n (fun i => rsumn n (fun i' => z i * a i i' * z i')) =
   rsumn K (fun i => rsumn K (fun i' => x i * a i i' * x i')) + 2 * rsumn K (fun i => x i * a j i) + a j j.
  rewrite (rsumn_ext (g := fun i => z i * (rsumn K (fun i' => a i i' * x i') + a i j))) //.
  rewrite (rsumn_emb hj); last by move=> i h1 h2; rewrite z0 //; ring.
  rewrite zj Rmult_1_l.
  have -> : rsumn K (fun i' => a j i' * x i') = rsumn K (fun i => x i * a j i) by apply: rsumn_ext => i _; ring.
  have -> : rsumn K (fun i => z i * (rsumn K (fun i' => a i i' * x i') + a i j)) =
     rsumn K (fun i => rsumn K (fun i' => x i * a i i' * x i')) + rsumn K (fun i => x i * a j i).
    rewrite -rsumn_add; apply: rsumn_ext => i hi; rewrite zK // Rmult_plus_distr_l -rsumn_scal.
    congr (_ + _); first by apply: rsumn_ext => i' _; ring.
    by rewrite sy //; lia.
  by ring.
(* replace a by the factors *)
set X1 := rsumn K (fun i => Rabs (x i)).
set X2 := rsumn K (fun i => x i * x i).
pose s l := rsumn K (fun i => x i * L i l).
have H1 : rsumn K (fun i => rsumn K (fun i' => x i * rsumn K (fun l => L i l * L i' l) * x i')) = rsumn K (fun l => s l * s l).
  rewrite (rsumn_ext (f := fun l => s l * s l) (g := fun l => rsumn K (fun i => rsumn K (fun i' => (x i * L i l) * (x i' * L i' l))))); last by move=> l _; rewrite /s rsumn_sq.
  rewrite [RHS]rsumn_swap; apply: rsumn_ext => i _; rewrite [RHS]rsumn_swap; apply: rsumn_ext => i' _.
  rewrite -rsumn_scal Rmult_comm -rsumn_scal; apply: rsumn_ext => l _; ring.
have H2 : rsumn K (fun i => x i * rsumn K (fun l => row l * L i l)) = rsumn K (fun l => row l * s l).
  rewrite (rsumn_ext (f := fun l => row l * s l) (g := fun l => rsumn K (fun i => x i * (row l * L i l)))); last first.
    by move=> l _; rewrite /s -rsumn_scal; apply: rsumn_ext => i _; ring.
  rewrite [RHS]rsumn_swap; apply: rsumn_ext => i _; rewrite -rsumn_scal; apply: rsumn_ext => l _; ring.
have H1' : rsumn K (fun l => s l * s l) = rsumn K (fun l => row l * row l).
  by apply: rsumn_ext => l hl; rewrite /s hx //; ring.
have H2' : rsumn K (fun l => row l * s l) = - rsumn K (fun l => row l * row l).
  rewrite -[RHS]Rmult_1_l -Ropp_mult_distr_r Ropp_mult_distr_l -rsumn_scal.
  by apply: rsumn_ext => l hl; rewrite /s hx //; ring.
have D1 : Rabs (rsumn K (fun i => rsumn K (fun i' => x i * a i i' * x i')) - rsumn K (fun l => row l * row l)) <= w * (X1 * X1).
  rewrite -H1' -H1 -rsumn_sub; apply: Rle_trans (rsumn_abs _ _) _.
  rewrite /X1 rsumn_sq -rsumn_scal; apply: rsumn_le => i hi.
  rewrite -rsumn_sub; apply: Rle_trans (rsumn_abs _ _) _; rewrite -rsumn_scal; apply: rsumn_le => i' hi'.
  have -> : x i * a i i' * x i' - x i * rsumn K (fun l => L i l * L i' l) * x i' = (a i i' - rsumn K (fun l => L i l * L i' l)) * (x i * x i') by ring.
  by rewrite -Rabs_mult; apply: abs_mul_le (E1 i i' hi hi') (Rle_refl _).
have D2 : Rabs (rsumn K (fun i => x i * a j i) + rsumn K (fun l => row l * row l)) <= w * X1.
  have -> : rsumn K (fun i => x i * a j i) + rsumn K (fun l => row l * row l) =
     rsumn K (fun i => x i * a j i) - rsumn K (fun i => x i * rsumn K (fun l => row l * L i l)) by rewrite H2 H2'; ring.
  rewrite -rsumn_sub; apply: Rle_trans (rsumn_abs _ _) _; rewrite -rsumn_scal; apply: rsumn_le => i hi.
  have -> : x i * a j i - x i * rsumn K (fun l => row l * L i l) = (a j i - rsumn K (fun l => row l * L i l)) * x i by ring.
  by apply: abs_mul_le (E2 i hi) (Rle_refl _).
have X20 : 0 <= X2 by apply: rsumn_ge0 => i _; apply: Rle_0_sqr.
have X10 : 0 <= X1 by apply: rsumn_ge0 => i _; apply: Rabs_pos.
(* (X1 + 1)^2 <= (K + 1)(X2 + 1) *)
have CS : (X1 + 1) * (X1 + 1) <= INR n * (X2 + 1).
  have h := sum_sq K.+1 (fun i => if (i < K)%N then Rabs (x i) else 1).
  rewrite !rsumnS ltnn in h.
  rewrite (rsumn_ext (g := fun i => Rabs (x i))) in h; last by move=> i ->.
  rewrite (rsumn_ext (f := fun i => (if (i < K)%N then Rabs (x i) else 1) * (if (i < K)%N then Rabs (x i) else 1)) (g := fun i => x i * x i)) in h; last first.
    by move=> i ->; rewrite -Rabs_mult Rabs_pos_eq //; apply: Rle_0_sqr.
  fold X1 X2 in h; rewrite Rmult_1_l in h; apply: Rle_trans h _.
  by apply: Rmult_le_compat_r; [lra|apply: le_INR; apply/leP; lia].
move: D1 D2; set Q := rsumn K (fun i => rsumn K _); set P := rsumn K (fun i => x i * a j i); set S := rsumn K (fun l => row l * row l).
move=> /Rabs_bound [_ D1] /Rabs_bound [_ D2] hc.
have h1 := Rmult_le_compat_l _ _ _ w0 CS.
have h2 : 0 <= (c - INR n * w) * X2 by apply: Rmult_le_pos; lra.
lra.
Qed.

Lemma rsumn_mono K n F : (K <= n)%N -> (forall i, (i < n)%N -> 0 <= F i) -> rsumn K F <= rsumn n F.
Proof.
move=> h p; rewrite (@rsumn_split n _ K) //.
have : 0 <= rsumn (n - K) (fun i => F (K + i)%N) by apply: rsumn_ge0 => i hi; apply: p; lia.
lra.
Qed.
Lemma amgm K (p q : nat -> R) : rsumn K (fun l => Rabs (p l) * Rabs (q l)) <= / 2 * (rsumn K (fun l => p l * p l) + rsumn K (fun l => q l * q l)).
Proof.
rewrite -rsumn_add -rsumn_scal; apply: rsumn_le => l _.
have h1 : p l * p l = Rabs (p l) * Rabs (p l) by rewrite -Rabs_mult Rabs_pos_eq //; apply: Rle_0_sqr.
have h2 : q l * q l = Rabs (q l) * Rabs (q l) by rewrite -Rabs_mult Rabs_pos_eq //; apply: Rle_0_sqr.
by have := Rle_0_sqr (Rabs (p l) - Rabs (q l)); rewrite /Rsqr h1 h2; lra.
Qed.
Lemma sum_abs_le K (p q : nat -> R) : Rabs (rsumn K (fun l => p l * q l)) <= rsumn K (fun l => Rabs (p l) * Rabs (q l)).
Proof. by apply: Rle_trans (rsumn_abs _ _) _; apply: rsumn_le => l _; rewrite Rabs_mult; apply: Rle_refl. Qed.
Lemma sq_ge0 x : 0 <= x * x. Proof. exact: Rle_0_sqr. Qed.
Lemma abs_le1 x : Rabs x <= / 2 * (1 + x * x).
Proof.
have h : x * x = Rabs x * Rabs x by rewrite -Rabs_mult Rabs_pos_eq //; apply: Rle_0_sqr.
by have := Rle_0_sqr (Rabs x - 1); rewrite /Rsqr h; lra.
Qed.
Lemma bern k : INR k * u64 <= err k.
Proof.
elim: k => [|k IH]; first by rewrite err0 /=; lra.
rewrite S_INR /err growS; rewrite /err in IH; have := grow_ge1 k; have u0 := u64_gt0.
have : 0 <= u64 * (grow k - 1) by apply: Rmult_le_pos; have := grow_ge1 k; lra.
lra.
Qed.

Section Full.
Variables (n : nat) (a : nat -> nat -> b64) (t : R).
Hypothesis n0 : (0 < n)%N.
Hypothesis Fa : forall i k, (i < n)%N -> (k < n)%N -> finite (a i k).
Hypothesis Sy : forall i k, (i < n)%N -> (k < n)%N -> rv (a i k) = rv (a k i).
Hypothesis Ht : t = rsumn n (fun i => rv (a i i)).
Hypothesis t_lo : / 2 ^ 900 <= t.
Hypothesis t_hi : t <= 2 ^ 1000.
Let e := err n.+1.
Hypothesis e_hi : 16 * e <= 1.
Let c := 10 * INR n * e * t.
Hypothesis PD : forall x : nat -> R,
  c * rsumn n (fun i => x i * x i) <= rsumn n (fun i => rsumn n (fun i' => x i * rv (a i i') * x i')).

Lemma t_pos : 0 < t.
Proof. by apply: Rlt_le_trans t_lo; apply: Rinv_0_lt_compat; apply: pow_lt; lra. Qed.
Lemma N1 : 1 <= INR n.
Proof. by rewrite -[1]/(INR 1); apply: le_INR; apply/leP. Qed.
Lemma u_e : 2 * u64 <= e.
Proof.
have := bern n.+1; rewrite -/e S_INR; have := N1; have := u64_gt0 => u0 h.
have : 0 <= (INR n - 1) * u64 by apply: Rmult_le_pos; lra.
lra.
Qed.
Lemma e_pos : 0 < e. Proof. by have := u_e; have := u64_gt0; lra. Qed.
Lemma et_pos : 0 < e * t. Proof. by apply: Rmult_lt_0_compat; [exact: e_pos|exact: t_pos]. Qed.

(** underflow is negligible *)
Lemma small : 8 * eta64 * (INR n + 3 + 4 * t) <= e * t.
Proof.
have E : eta64 = u64 * / 2 ^ 1022.
  by rewrite /eta64 /u64 -Rinv_mult_distr -?pow_add //; apply: pow_nonzero; lra.
have q : / 2 ^ 1022 = / 2 ^ 122 * / 2 ^ 900.
  by rewrite -Rinv_mult_distr -?pow_add //; apply: pow_nonzero; lra.
have p : / 2 ^ 122 <= / 1024.
  have -> : 1024 = 2 ^ 10 by rewrite /=; ring.
  by apply: Rinv_le_contravar; [apply: pow_lt; lra|apply: Rle_pow; [lra|lia]].
have p0 : 0 < / 2 ^ 122 by apply: Rinv_0_lt_compat; apply: pow_lt; lra.
have p9 : 0 < / 2 ^ 900 by apply: Rinv_0_lt_compat; apply: pow_lt; lra.
have p9' : / 2 ^ 900 <= 1.
  by rewrite -Rinv_1; apply: Rinv_le_contravar; [lra|apply: pow_R1_Rle; lra].
have tl := t_lo; set x := / 2 ^ 900 in q p9 p9' tl; set y := / 2 ^ 122 in q p p0.
have u0 := u64_gt0; have b := bern n.+1; rewrite -/e S_INR in b.
have tp := t_pos; have e0 := e_pos; have ue := u_e; have N1 := N1.
have h1 : eta64 * INR n <= / 1024 * (e * t).
  have -> : eta64 * INR n = y * ((INR n * u64) * x) by rewrite E q; ring.
  apply: Rmult_le_compat; [lra| |lra|].
  - by apply: Rmult_le_pos; [apply: Rmult_le_pos; lra|lra].
  - by apply: Rmult_le_compat; [apply: Rmult_le_pos; lra|lra|lra|lra].
have h2 : eta64 <= eta64 * INR n.
  by rewrite -{1}[eta64]Rmult_1_r; apply: Rmult_le_compat_l; [have := eta64_gt0; lra|].
have h3 : eta64 * t <= / 1024 * (e * t).
  rewrite -Rmult_assoc; apply: Rmult_le_compat_r; first lra.
  have -> : eta64 = (y * x) * u64 by rewrite E q; ring.
  apply: Rmult_le_compat; [apply: Rmult_le_pos; lra|lra| |lra].
  by have := Rmult_le_compat _ _ _ _ (Rlt_le _ _ p0) (Rlt_le _ _ p9) p p9'; lra.
have := et_pos; lra.
Qed.

Lemma a_pos i : (i < n)%N -> 0 <= rv (a i i) <= t.
Proof.
have P k : (k < n)%N -> 0 <= rv (a k k).
  move=> hk; have := PD (fun l => if l == k then 1 else 0).
  rewrite (rsumn_one (p := k)) // => [|l _ /negPf ->]; last by ring.
  rewrite (rsumn_one (p := k)) // => [|l _ /negPf ->]; last by rewrite rsumn_z // => l' _; ring.
  rewrite (rsumn_one (p := k)) // => [|l _ /negPf ->]; last by ring.
  rewrite eqxx => h; apply: Rle_trans (_ : c <= _); last lra.
  rewrite /c; have := et_pos; have := N1 => h1 h2; rewrite -Rmult_assoc in h.
  by rewrite Rmult_assoc; apply: Rmult_le_pos; lra.
by move=> hi; split; [exact: P|rewrite Ht; apply: (rsumn_term (f := fun i => rv (a i i)))].
Qed.

Lemma quad2 i j (s : R) : (i < n)%N -> (j < n)%N -> i != j ->
  rsumn n (fun l => rsumn n (fun l' => (if l == i then 1 else if l == j then s else 0) * rv (a l l') * (if l' == i then 1 else if l' == j then s else 0)))
  = rv (a i i) + 2 * s * rv (a i j) + s * s * rv (a j j).
Proof.
move=> hi hj ij; pose v l : R := if l == i then 1 else if l == j then s else 0.
have S2 F : (forall l, l != i -> l != j -> F l = 0) -> rsumn n F = F i + F j.
  move=> hF; rewrite (rsumn_ext (f := F) (g := fun l => (if l == i then F l else 0) + (if l == i then 0 else F l))); last by move=> l _; case: eqP => _; ring.
  rewrite rsumn_add (rsumn_one (p := i)) // => [|l _ /negPf ->] //; rewrite eqxx; congr (_ + _).
  rewrite (rsumn_one (p := j)) // => [|l _ lj]; first by rewrite eq_sym (negPf ij).
  by case: eqP => // /eqP li; apply: hF.
have vi : v i = 1 by rewrite /v eqxx.
have vj : v j = s by rewrite /v eq_sym (negPf ij) eqxx.
have v0 l : l != i -> l != j -> v l = 0 by rewrite /v => /negPf -> /negPf ->.
rewrite -[LHS]/(rsumn n (fun l => rsumn n (fun l' => v l * rv (a l l') * v l'))).
rewrite S2 => [|l h1 h2]; last by rewrite rsumn_z // => l' _; rewrite v0 //; ring.
rewrite (S2 (fun l' => v i * rv (a i l') * v l')) => [|l h1 h2]; last by rewrite (v0 l) //; ring.
rewrite (S2 (fun l' => v j * rv (a j l') * v l')) => [|l h1 h2]; last by rewrite (v0 l) //; ring.
by rewrite vi vj (Sy hj hi); ring.
Qed.

Lemma a_abs i j : (i < n)%N -> (j < n)%N -> Rabs (rv (a i j)) <= t.
Proof.
move=> hi hj; have pi := a_pos hi; have pj := a_pos hj.
case: (eqVneq i j) => [->|ij]; first by rewrite Rabs_pos_eq; lra.
have cc x : 0 <= c * rsumn n (fun i => x i * x i).
  apply: Rmult_le_pos; last by apply: rsumn_ge0 => l _; apply: sq_ge0.
  rewrite /c Rmult_assoc; apply: Rmult_le_pos; last by have := et_pos; lra.
  by have := N1; lra.
have h1 := PD (fun l => if l == i then 1 else if l == j then 1 else 0).
have h2 := PD (fun l => if l == i then 1 else if l == j then -1 else 0).
rewrite quad2 // in h1; rewrite quad2 // in h2.
have c1 := cc (fun l => if l == i then 1 else if l == j then 1 else 0).
have c2 := cc (fun l => if l == i then 1 else if l == j then -1 else 0).
by apply: Rabs_le; lra.
Qed.

Let w := 6 * (e * t).
Lemma cw : INR n * w <= c.
Proof. by rewrite /c /w; have := et_pos; have := N1 => h1 h2; have := Rmult_le_pos (INR n) (e * t); lra. Qed.
Lemma cw' : 4 * (e * t) <= c - INR n * w.
Proof.
rewrite /c /w; have := et_pos; have := N1 => h1 h2.
have : 0 <= (INR n - 1) * (e * t) by apply: Rmult_le_pos; lra.
lra.
Qed.
Lemma err_e k : (k <= n.+1)%N -> err k <= e. Proof. exact: err_le. Qed.
Lemma grow_2 k : (k <= n.+1)%N -> grow k <= 2.
Proof. by move=> h; have := err_e h; rewrite /err; have := e_hi; lra. Qed.
Lemma geta k m : (k <= n.+1)%N -> 0 <= m -> grow k * eta64 * m <= 2 * (eta64 * m).
Proof.
move=> h m0; rewrite -Rmult_assoc; apply: Rmult_le_compat_r => //.
by apply: Rmult_le_compat_r; [have := eta64_gt0; lra|exact: grow_2].
Qed.
Lemma nb k : (k <= n)%N -> INR k * (grow k * eta64) <= 2 * (eta64 * INR n).
Proof.
move=> h; apply: Rle_trans (_ : grow k * eta64 * INR n <= _); last by apply: geta; [lia|exact: pos_INR].
rewrite Rmult_comm; apply: Rmult_le_compat_l; last by apply: le_INR; apply/leP.
by apply: Rmult_le_pos; [have := grow_ge1 k; lra|have := eta64_gt0; lra].
Qed.

Section Rows.
Variable f : nat -> nat -> b64.
Local Notation L i l := (rv (f i l)).
Local Notation num := (ch_num (S:=B64) a f).

Definition rows_ok j := forall i, (i < j)%N ->
  (forall k, (k < n)%N -> finite (f i k)) /\ rsumn n (fun l => L i l * L i l) <= 2 * t.

Lemma rows_sub j K : (K <= j <= n)%N -> ch_rows (S:=B64) bdiv bsqrt n a j f -> ch_rows (S:=B64) bdiv bsqrt K a K f.
Proof.
move=> h [H1 H2 H3]; split.
- by move=> i k hi hk; apply: H1; lia.
- by move=> i hi; apply: H2; lia.
- by move=> i k hi; apply: H3; lia.
Qed.

(** the computed numerator: finite, bounded, close to the exact one *)
Lemma num_ok j k : (k <= n)%N -> (j < n)%N -> (k < n)%N ->
  (forall l, (l < k)%N -> finite (f k l) /\ finite (f j l)) ->
  rsumn k (fun l => L k l * L k l) <= 2 * t -> rsumn k (fun l => L j l * L j l) <= 2 * t ->
  [/\ finite (num j k), Rabs (rv (num j k)) <= 4 * t &
   Rabs (rv (a j k) - (rsumn k (fun l => L k l * L j l) + rv (num j k))) <=
   e * rsumn k (fun l => Rabs (L k l) * Rabs (L j l)) + 2 * (eta64 * INR n) + u64 * Rabs (rv (num j k))].
Proof.
move=> kn hj hk ff s1 s2.
set B := rsumn k (fun l => Rabs (L k l) * Rabs (L j l)).
have hB : B <= 2 * t by apply: Rle_trans (amgm _ _ _) _; lra.
have B0 : 0 <= B by apply: rsumn_ge0 => l _; apply: Rmult_le_pos; apply: Rabs_pos.
have hnb := nb kn; have tp := t_pos; have ep := e_pos; have etp := et_pos; have sm := small; have e1 := e_hi.
have et : e * t <= / 16 * t by apply: Rmult_le_compat_r; lra.
have e0 := eta64_gt0; have N1' := N1; have en : 0 <= eta64 * INR n by apply: Rmult_le_pos; lra.
have ett : 0 <= eta64 * t by apply: Rmult_le_pos; lra.
have big : 16 * t <= big64.
  have -> : big64 = 2 ^ 23 * 2 ^ 1000 by rewrite /big64 -pow_add.
  by apply: Rmult_le_compat; [lra|lra|rewrite /=; lra|exact: t_hi].
have gk : grow k <= 2 by apply: grow_2; lia.
have gk1 := grow_ge1 k.
have kN : INR k <= INR n by apply: le_INR; apply/leP.
have k0 := pos_INR k.
have ke : 0 <= INR k * eta64 <= eta64 * INR n.
  by split; [apply: Rmult_le_pos; lra|rewrite Rmult_comm; apply: Rmult_le_compat_l; lra].
have gB : grow k * (B + INR k * eta64) <= 5 * t.
  apply: Rle_trans (_ : 2 * (2 * t + eta64 * INR n) <= _); last lra.
  by apply: Rmult_le_compat; lra.
have fd : finite (dot64 b64_zero k (f k) (f j)).
  apply: dot64_ok => //; fold B; lra.
have [_ hd] := dot64_err fd; fold B in hd.
have hT := sum_abs_le k (fun l => L k l) (fun l => L j l); fold B in hT.
set T := rsumn k (fun l => L k l * L j l) in hd hT *.
have eB : err k * B <= e * (2 * t).
  by apply: Rmult_le_compat => //; [exact: err_ge0|apply: err_e; lia].
have ha := a_abs hj hk.
have hD : Rabs (rv (dot64 b64_zero k (f k) (f j))) <= 3 * t.
  have -> : rv (dot64 b64_zero k (f k) (f j)) = (rv (dot64 b64_zero k (f k) (f j)) - T) + T by ring.
  by apply: Rle_trans (Rabs_triang _ _) _; lra.
have hs : Rabs (rv (a j k) - rv (dot64 b64_zero k (f k) (f j))) <= 4 * t.
  by apply: Rle_trans (Rabs_triang _ _) _; rewrite Rabs_Ropp; lra.
have fnm : finite (num j k) by apply: sub_ok; [exact: Fa|exact: fd|rewrite -[sdot _ _ _]/(dot64 b64_zero k (f k) (f j)); lra].
have [_ _ hn] := num_err fnm; rewrite -[Bminus _ _ _]/(num j k) -/T -/B in hn.
have u0 := u64_gt0; have u1 := u64_lt1.
have hm1 : (if k is 0%N then 0 else u64 * Rabs (rv (num j k))) <= u64 * Rabs (rv (num j k)).
  have : 0 <= u64 * Rabs (rv (num j k)) by apply: Rmult_le_pos; [lra|apply: Rabs_pos].
  by move: (u64 * _) => x; case: (k) => [|?]; lra.
have eB' : err k * B <= e * B by apply: Rmult_le_compat_r => //; apply: err_e; lia.
have hn' : Rabs (rv (a j k) - (T + rv (num j k))) <= e * B + 2 * (eta64 * INR n) + u64 * Rabs (rv (num j k)) by lra.
split=> //.
set y := rv (num j k) in hn' *.
have y0 := Rabs_pos y.
have uy : u64 * Rabs y <= / 1024 * Rabs y by apply: Rmult_le_compat_r; lra.
have : Rabs y <= Rabs (rv (a j k)) + Rabs T + (e * B + 2 * (eta64 * INR n) + u64 * Rabs y).
  have {1}-> : y = rv (a j k) + - T + - (rv (a j k) - (T + y)) by ring.
  apply: Rle_trans (Rabs_triang _ _) _; rewrite Rabs_Ropp; apply: Rplus_le_compat => //.
  by apply: Rle_trans (Rabs_triang _ _) _; rewrite Rabs_Ropp; lra.
have : e * B <= e * (2 * t) by apply: Rmult_le_compat_l; lra.
lra.
Qed.

Section Row.
Variable j : nat.
Hypothesis hj : (j < n)%N.
Hypothesis Hr : ch_rows (S:=B64) bdiv bsqrt n a j f.
Hypothesis Ro : rows_ok j.

Lemma r_fin i k : (i < j)%N -> (k < n)%N -> finite (f i k).
Proof. by move=> hi hk; case: (Ro hi) => h _; apply: h. Qed.
Lemma r_sum i K : (i < j)%N -> (K <= n)%N -> rsumn K (fun l => L i l * L i l) <= 2 * t.
Proof. by move=> hi hK; case: (Ro hi) => _; apply: Rle_trans; apply: rsumn_mono => // l _; apply: sq_ge0. Qed.
Lemma r_pos i : (i < j)%N -> 0 < L i i.
Proof.
move=> hi; apply: (@ch_pos j a) => //; first by apply: (@rows_sub j); [lia|].
by move=> i' k h1 h2; apply: r_fin => //; lia.
Qed.
Lemma r_up i l : (i < j)%N -> (i < l < n)%N -> L i l = 0.
Proof. by move=> hi hl; case: Hr => H _ _; rewrite H; [|lia|lia]; rewrite /ch_entry; do 2 (case: ifP; first lia). Qed.
Lemma r_diag i : (i < j)%N -> L i i <= 1 + t.
Proof.
move=> hi; have in' : (i < n)%N by lia.
have h : L i i * L i i <= 2 * t.
  apply: Rle_trans (r_sum hi (leqnn n)).
  by apply: (rsumn_term (f := fun l => L i l * L i l)) => // l _; apply: sq_ge0.
have := abs_le1 (L i i); rewrite Rabs_pos_eq; [have := t_pos; lra|exact: Rlt_le (r_pos hi)].
Qed.

Lemma r_back K i i' : (K <= j)%N -> (i < K)%N -> (i' < K)%N ->
  Rabs (rv (a i i') - rsumn K (fun l => L i l * L i' l)) <= w.
Proof.
move=> Kj hi hi'.
have HK : ch_rows (S:=B64) bdiv bsqrt K a K f by apply: (@rows_sub j) => //; lia.
have FK i1 k1 : (i1 < K)%N -> (k1 < K)%N -> finite (f i1 k1) by move=> *; apply: r_fin; lia.
apply: Rle_trans (ch_back_sym HK FK hi hi') _.
have s1 : rsumn K (fun l => L i l * L i l) <= 2 * t by apply: r_sum; lia.
have s2 : rsumn K (fun l => L i' l * L i' l) <= 2 * t by apply: r_sum; lia.
have hB := amgm K (fun l => L i l) (fun l => L i' l).
set B := rsumn K (fun l => Rabs _ * _) in hB *.
have B0 : 0 <= B by apply: rsumn_ge0 => l _; apply: Rmult_le_pos; apply: Rabs_pos.
have B2 : B <= 2 * t by lra.
have eB : err K.+1 * B <= e * (2 * t).
  by apply: Rmult_le_compat => //; [exact: err_ge0|apply: err_e; lia].
have d1 : L i i <= 1 + t by apply: r_diag; lia.
have d2 : L i' i' <= 1 + t by apply: r_diag; lia.
have p1 : 0 < L i i by apply: r_pos; lia.
have p2 : 0 < L i' i' by apply: r_pos; lia.
have kN : INR K <= INR n by apply: le_INR; apply/leP; lia.
have k0 := pos_INR K.
have gK : grow K.+1 * eta64 * (INR K + L i' i' + L i i) <= 2 * (eta64 * (INR n + 3 + 4 * t)).
  apply: Rle_trans (geta _ _) _; [lia|lra|].
  apply: Rmult_le_compat_l; first lra.
  by apply: Rmult_le_compat_l; [have := eta64_gt0; lra|have := t_pos; lra].
have := small; have := et_pos; rewrite /w; lra.
Qed.

(** entries 0 .. c-1 of row j are in place *)
Definition row_inv c :=
  [/\ forall l, (l < c)%N -> finite (f j l), rsumn c (fun l => L j l * L j l) <= 2 * t &
      forall i, (i < c)%N -> Rabs (rv (a j i) - (rsumn i (fun l => L j l * L i l) + L j i * L i i)) <= w].

Lemma r_schur K (row : nat -> R) : (K <= j)%N ->
  (forall i, (i < K)%N -> Rabs (rv (a j i) - (rsumn i (fun l => row l * L i l) + row i * L i i)) <= w) ->
  rsumn K (fun l => row l * row l) + 4 * (e * t) <= rv (a j j).
Proof.
move=> Kj hE.
suff : rsumn K (fun l => row l * row l) + (c - INR n * w) <= rv (a j j) by have := cw'; lra.
apply: (@schur_low n K j (fun i l => rv (a i l)) (fun i l => L i l)) => //.
- lia.
- by rewrite /w; have := et_pos; lra.
- by move=> i hi; apply: r_pos; lia.
- by move=> i l hl; apply: r_up; lia.
- by move=> i i' hi hi'; apply: r_back.
- move=> i hi; rewrite (rsumn_cut (c := i)) //; first exact: hE.
  by move=> l hl; rewrite r_up; [ring|lia|lia].
- exact: cw.
Qed.

Lemma row_step k : (k < j)%N -> row_inv k -> f j k = ch_entry (S:=B64) bdiv bsqrt a f j k -> row_inv k.+1.
Proof.
move=> kj [F1 S1 E1]; rewrite /ch_entry kj => fe.
have kn : (k < n)%N by lia.
have [fy hy hn] : [/\ finite (num j k), Rabs (rv (num j k)) <= 4 * t &
   Rabs (rv (a j k) - (rsumn k (fun l => L k l * L j l) + rv (num j k))) <=
   e * rsumn k (fun l => Rabs (L k l) * Rabs (L j l)) + 2 * (eta64 * INR n) + u64 * Rabs (rv (num j k))].
  apply: num_ok => //; [lia| |by apply: r_sum; lia].
  by move=> l hl; split; [apply: r_fin; lia|exact: F1].
have s2 : rsumn k (fun l => L k l * L k l) <= 2 * t by apply: r_sum; lia.
have hB := amgm k (fun l => L k l) (fun l => L j l).
set B := rsumn k (fun l => Rabs _ * _) in hB hn.
rewrite (rsumn_ext (f := fun l => L k l * L j l) (g := fun l => L j l * L k l)) in hn; last by move=> l _; ring.
set T := rsumn k (fun l => L j l * L k l) in hn.
have B0 : 0 <= B by apply: rsumn_ge0 => l _; apply: Rmult_le_pos; apply: Rabs_pos.
set y := rv (num j k) in hy hn.
have tp := t_pos; have ep := e_pos; have etp := et_pos; have sm := small; have ue := u_e; have u0 := u64_gt0; have u1 := u64_lt1.
have e0 := eta64_gt0; have N1' := N1; have en : 0 <= eta64 * INR n by apply: Rmult_le_pos; lra.
have ett : 0 <= eta64 * t by apply: Rmult_le_pos; lra.
have eB : e * B <= e * (2 * t) by apply: Rmult_le_compat_l; lra.
have uy : u64 * Rabs y <= 2 * (e * t).
  have -> : 2 * (e * t) = (/ 2 * e) * (4 * t) by field.
  by apply: Rmult_le_compat; [lra|apply: Rabs_pos|lra|].
have E0 : Rabs (rv (a j k) - (T + y)) <= 5 * (e * t) by lra.
have dp := r_pos kj; have dm := r_diag kj; set d := L k k in dp dm *.
(* the exact quotient *)
pose lam := y / d.
have lamd : lam * d = y by rewrite /lam; field; lra.
have hS : rsumn k (fun l => L j l * L j l) + lam * lam + 4 * (e * t) <= rv (a j j).
  have := @r_schur k.+1 (fun l => if l == k then lam else L j l) kj.
  rewrite rsumnS eqxx (rsumn_ext (g := fun l => L j l * L j l)) => [|l hl]; last by have -> : (l == k) = false by lia.
  apply=> i; rewrite ltnS leq_eqVlt => /orP[/eqP ->|hi].
    rewrite eqxx (rsumn_ext (g := fun l => L j l * L k l)) => [|l hl]; last by have -> : (l == k) = false by lia.
    by fold T; fold d; rewrite lamd /w; lra.
  rewrite (rsumn_ext (g := fun l => L j l * L i l)) => [|l hl]; last by have -> : (l == k) = false by lia.
  have -> : (i == k) = false by lia.
  exact: E1.
have ajj := a_pos hj.
have S0 : 0 <= rsumn k (fun l => L j l * L j l) by apply: rsumn_ge0 => l _; apply: sq_ge0.
have ll : lam * lam <= t by lra.
have la := abs_le1 lam; have l0 := Rabs_pos lam.
have big : 1 + t <= big64.
  have -> : big64 = 2 ^ 1022 * 2 by rewrite /big64 /= ; ring.
  have p1 : 1 <= 2 ^ 1022 by apply: pow_R1_Rle; lra.
  have p2 : 2 ^ 1000 <= 2 ^ 1022 by apply: Rle_pow; [lra|lia].
  have := t_hi; lra.
have ff : finite (f j k).
  rewrite fe; apply: div_ok => //; [rewrite -/d; lra|].
  by rewrite -/d -/y -/lam; lra.
have fd : finite (f k k) by apply: r_fin.
have ff' := ff; rewrite fe in ff'.
have [_ _ hq] := div_back fd ff'; have [_ _ hv] := div_finite fd ff'.
rewrite -[Bdiv _ _ _]/(bdiv (num j k) (f k k)) -fe -/y -/d in hq hv.
set v := L j k in hq hv *.
have va := abs_rnd_le (y / d); rewrite -hv -/lam in va.
have vv : v * v <= lam * lam + / 2 * t.
  have -> : v * v = Rabs v * Rabs v by rewrite -Rabs_mult Rabs_pos_eq //; apply: sq_ge0.
  have v0 := Rabs_pos v.
  have E : lam * lam = Rabs lam * Rabs lam by rewrite -Rabs_mult Rabs_pos_eq //; apply: sq_ge0.
  have := Rmult_le_compat _ _ _ _ v0 v0 va va.
  rewrite E in ll *; set x := Rabs lam in va ll l0 la *.
  have ux : u64 * (x * x) <= / 1024 * t by apply: Rmult_le_compat; [lra|apply: sq_ge0|lra|].
  have uux : u64 * (u64 * (x * x)) <= / 1024 * t.
    apply: Rle_trans (_ : 1 * (u64 * (x * x)) <= _); last lra.
    by apply: Rmult_le_compat_r; [apply: Rmult_le_pos; [lra|exact: sq_ge0]|lra].
  have ex : eta64 * x <= eta64 * (1 + t) by apply: Rmult_le_compat_l; lra.
  have uex : u64 * (eta64 * x) <= 1 * (eta64 * x) by apply: Rmult_le_compat_r; [apply: Rmult_le_pos; lra|lra].
  have e1 : eta64 <= 1.
    rewrite /eta64 -Rinv_1; apply: Rinv_le_contravar; [lra|apply: pow_R1_Rle; lra].
  have ee : eta64 * eta64 <= eta64 * 1 by apply: Rmult_le_compat_l; lra.
  have eh := e_hi.
  have et : e * t <= / 16 * t by apply: Rmult_le_compat_r; lra.
  lra.
have svv : rsumn k.+1 (fun l => L j l * L j l) <= 2 * t by rewrite rsumnS -/v; lra.
split=> //.
- by move=> l; rewrite ltnS leq_eqVlt => /orP[/eqP ->|] //; apply: F1.
- move=> i; rewrite ltnS leq_eqVlt => /orP[/eqP ->|]; last exact: E1.
  fold T v d.
  have dv : Rabs (v * d) <= 2 * t.
    have := amgm 1 (fun _ => v) (fun _ => d); rewrite !rsumnS !rsumn0 !Rplus_0_l -Rabs_mult.
    have h1 : d * d <= 2 * t.
      apply: Rle_trans (@r_sum k n kj (leqnn n)).
      by apply: (rsumn_term (f := fun l => L k l * L k l)) => // l _; apply: sq_ge0.
    rewrite rsumnS -/v in svv; lra.
  have ud : u64 * Rabs (v * d) <= e * t.
    have -> : e * t = (/ 2 * e) * (2 * t) by field.
    by apply: Rmult_le_compat; [lra|apply: Rabs_pos|lra|].
  have ed : eta64 * Rabs d <= eta64 * (1 + t) by apply: Rmult_le_compat_l; [lra|rewrite Rabs_pos_eq; lra].
  have E0' : Rabs (rv (a j k) - (T + y)) <= 2 * (e * t) + 2 * (eta64 * INR n) + u64 * Rabs y by lra.
  have -> : rv (a j k) - (T + v * d) = (rv (a j k) - (T + y)) + (y - v * d) by ring.
  apply: Rle_trans (Rabs_triang _ _) _; rewrite /w; lra.
Qed.

Lemma row_all cc : (cc <= j)%N -> (forall k, (k < cc)%N -> f j k = ch_entry (S:=B64) bdiv bsqrt a f j k) -> row_inv cc.
Proof.
elim: cc => [|k IH] hk he; first by split=> //; rewrite rsumn0; have := t_pos; lra.
apply: row_step => //; last by apply: he.
by apply: IH => [|l hl]; [lia|apply: he; lia].
Qed.

Lemma pivot_ok : (forall k, (k < j)%N -> f j k = ch_entry (S:=B64) bdiv bsqrt a f j k) ->
  [/\ finite (num j j), 0 < rv (num j j), finite (bsqrt (num j j)) &
   rsumn j (fun l => L j l * L j l) + rv (bsqrt (num j j)) * rv (bsqrt (num j j)) <= 2 * t].
Proof.
move=> he; have [F1 S1 E1] := row_all (leqnn j) he.
have hS := @r_schur j (fun l => L j l) (leqnn j) E1.
have [fy hy hn] : [/\ finite (num j j), Rabs (rv (num j j)) <= 4 * t &
   Rabs (rv (a j j) - (rsumn j (fun l => L j l * L j l) + rv (num j j))) <=
   e * rsumn j (fun l => Rabs (L j l) * Rabs (L j l)) + 2 * (eta64 * INR n) + u64 * Rabs (rv (num j j))].
  by apply: num_ok => //; [lia|move=> l hl; split; apply: F1].
rewrite (rsumn_ext (f := fun l => Rabs (L j l) * Rabs (L j l)) (g := fun l => L j l * L j l)) in hn; last first.
  by move=> l _; rewrite -Rabs_mult Rabs_pos_eq //; apply: sq_ge0.
set T := rsumn j _ in hS hn S1 *; set y := rv (num j j) in hy hn *.
have T0 : 0 <= T by apply: rsumn_ge0 => l _; apply: sq_ge0.
have ajj := a_pos hj.
have tp := t_pos; have ep := e_pos; have etp := et_pos; have sm := small; have ue := u_e; have u0 := u64_gt0; have u1 := u64_lt1.
have e0 := eta64_gt0; have N1' := N1; have en : 0 <= eta64 * INR n by apply: Rmult_le_pos; lra.
have ett : 0 <= eta64 * t by apply: Rmult_le_pos; lra.
have eT : e * T <= e * t by apply: Rmult_le_compat_l; lra.
have uy : u64 * Rabs y <= 2 * (e * t).
  have -> : 2 * (e * t) = (/ 2 * e) * (4 * t) by field.
  by apply: Rmult_le_compat; [lra|apply: Rabs_pos|lra|].
have eh := e_hi.
have et : e * t <= / 16 * t by apply: Rmult_le_compat_r; lra.
have /Rabs_bound [h1 h2] := hn.
have yp : 0 < y by lra.
have fs : finite (bsqrt (num j j)) by apply: sqrt_ok => //; apply: Rlt_le.
split=> //.
have [_ _ r0 hr] := sqrt_back fs; rewrite -/y in hr.
rewrite -[Bsqrt _ _]/(bsqrt (num j j)) in r0 hr; set r := rv (bsqrt (num j j)) in r0 hr *.
have rr := sq_ge0 r.
have e2 : err 2 <= / 16 by have : err 2 <= e by [apply: err_le; lia]; lra.
have : err 2 * (r * r) <= / 16 * (r * r) by apply: Rmult_le_compat_r.
have /Rabs_bound [h3 h4] := hr.
lra.
Qed.
End Row.

Lemma rows_fin j : (j <= n)%N -> ch_rows (S:=B64) bdiv bsqrt n a j f -> rows_ok j.
Proof.
elim: j => [|j IH] hj Hr //.
have Hj : ch_rows (S:=B64) bdiv bsqrt n a j f.
  by case: Hr => H1 H2 H3; split=> [i k|i|i k] hi; [apply: H1|apply: H2|apply: H3]; lia.
have Ro := IH (ltnW hj) Hj.
move=> i; rewrite ltnS leq_eqVlt => /orP[/eqP ->|]; last exact: Ro.
have he k : (k < j)%N -> f j k = ch_entry (S:=B64) bdiv bsqrt a f j k by move=> hk; case: Hr => H1 _ _; apply: H1; lia.
have [F1 _ _] := row_all hj Hj Ro (leqnn j) he.
have [_ _ fs hs] := pivot_ok hj Hj Ro he.
have dj : f j j = bsqrt (num j j) by case: Hr => H1 _ _; rewrite H1 // /ch_entry ltnn eqxx.
have up l : (j < l < n)%N -> f j l = b64_zero.
  by move=> hl; case: Hr => H _ _; rewrite H; [|lia|lia]; rewrite /ch_entry; do 2 (case: ifP; first lia).
split.
- move=> k hk; case: (ltngtP k j) => kj; [exact: F1|by rewrite up //; lia|by rewrite kj dj].
- rewrite (rsumn_cut (c := j)) //; first by rewrite dj.
  by move=> l hl; rewrite up // Rmult_0_l.
Qed.
End Rows.

Lemma no_fail : ~ ch_fail (S:=B64) bdiv bsqrt n a.
Proof.
case=> [[i [k [ki hi]]] /negP[]|[j [f [hj [Hr Hp] hle]]]].
  have hk : (k < n)%N by lia.
  apply: (etrans (Beqb_correct _ _ _ _ (Fa hk hi) (Fa hi hk))).
  by rewrite Req_bool_true //; apply: Sy.
have Ro := rows_fin (ltnW hj) Hr.
have he k : (k < j)%N -> f j k = ch_entry (S:=B64) bdiv bsqrt a f j k by move=> hk; case: (Hp k hk).
have [fy yp _ _] := pivot_ok hj Hr Ro he.
have h := Bleb_correct b_prec b_emax (ch_num (S:=B64) a f j j) b64_zero fy (erefl true).
have : Bleb (ch_num (S:=B64) a f j j) b64_zero = true by exact: hle.
rewrite h; case: Rle_bool_spec => // h1 _; have z : B2R b64_zero = 0 by [].
by rewrite z in h1; move: yp; rewrite /rv; lra.
Qed.
End Full.
