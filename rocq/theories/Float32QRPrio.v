(** * (generated by tools/gen32.py from FloatQRPrio.v) Float32QRPrio: the QR decomposition in f32 of a well-conditioned matrix does not overflow *)
From Coq Require Import ZArith Reals Lra Psatz.
From Flocq Require Import Core BinarySingleNaN.
From mathcomp Require Import all_ssreflect zify.
From Verif Require Import Base Scalar B32 SpecFloat32 LUEval QREval Float32Base Float32LU Float32Chol Float32CholThms Float32CholFull Float32Prio RealVec32 QRReal32 Float32QR.

Set Implicit Arguments.
Unset Strict Implicit.
Unset Printing Implicit Defensive.
Local Open Scope R_scope.
Local Notation rnd := (round radix2 (FLT_exp (SpecFloat.emin b_prec b_emax) b_prec) ZnearestE).

(** bounds on the elements and on the norms of the pivot columns *)
Definition qB : R := 2 ^ 20.
Definition qL : R := / 2 ^ 15.
Lemma qB_ge1 : 1 <= qB. Proof. by apply: pow_R1_Rle; lra. Qed.
Lemma qB_ge4 : 4 <= qB.
Proof. by have -> : 4 = 2 ^ 2 by [rewrite /=; lra]; apply: Rle_pow; [lra|lia]. Qed.
Lemma qL_gt0 : 0 < qL. Proof. by apply: Rinv_0_lt_compat; apply: p2_gt0. Qed.
Lemma qL_lt1 : qL <= 1.
Proof. by rewrite /qL -Rinv_1; apply: Rinv_le_contravar; [lra|apply: pow_R1_Rle; lra]. Qed.
Lemma qn2 : eta32 * 2 ^ 21 <= / 2 ^ 10 * (qL * qL).
Proof. by rewrite /eta32 /qL !pow_bpow -!bpow_opp -!bpow_plus; apply: bpow_le; lia. Qed.
Lemma qn4 : 2 ^ 4 * qB * (2 ^ 5 * (2 ^ 22 * (qB * qB)) * / (qL * qL)) <= big32.
Proof.
have -> : / (qL * qL) = 2 ^ 15 * 2 ^ 15.
  by rewrite /qL; have := p2_gt0 15; set v := 2 ^ 15 => v0; field; lra.
by rewrite /big32 /qB !pow_bpow -!bpow_plus; apply: bpow_le; lia.
Qed.
Lemma qn5 : / 2 ^ 50 <= qL / 2.
Proof.
have -> : qL / 2 = / 2 ^ 16.
  by rewrite /qL -(tech_pow_Rmult 2 15); have := p2_gt0 15; set v := 2 ^ 15 => v0; field; lra.
by apply: Rinv_le_contravar; [apply: p2_gt0|apply: Rle_pow; [lra|lia]].
Qed.
Lemma qn6 : 2 * qB <= 2 ^ 62.
Proof. by rewrite /qB tech_pow_Rmult; apply: Rle_pow; [lra|lia]. Qed.
Lemma qn1 : 2 ^ 22 * (qB * qB) * (2 ^ 4 * qB) <= big32.
Proof.
apply: Rle_trans qn4; have b1 := qB_ge1; have l0 := qL_gt0; have l1 := qL_lt1.
have p51 := p2_gt0 22; set v := 2 ^ 22 * (qB * qB); have -> : 2 ^ 4 = 16 by rewrite /=; lra.
have -> : 2 ^ 5 = 32 by rewrite /=; lra.
have v0 : 0 <= v by apply: Rmult_le_pos; [lra|apply: Rmult_le_pos; lra].
have i1 : 1 <= / (qL * qL) by rewrite -Rinv_1; apply: Rinv_le_contravar; nra.
have -> : v * (16 * qB) = 16 * qB * v by ring.
apply: Rmult_le_compat_l; first lra.
have -> : v = v * 1 by ring.
by apply: Rmult_le_compat; lra.
Qed.

Section QStep.
Variables m n k : nat.
Hypothesis km : (k < m)%N.
Hypothesis kn : (k < n)%N.
Variable f : nat -> nat -> b32.
Let E := err (m + 3).
Hypothesis E1 : 64 * E <= 1.
Let qa := q_a (S:=B32) bsqrt m k f.
Let qu := q_u (S:=B32) bsqrt m k f.
Let a := rv qa.
Let x := xr m k f.
Hypothesis ff : forall i j, (i < m)%N -> (j < n)%N -> finite (f i j).
Hypothesis HB : nrm m x <= qB.
Hypothesis HL : qL <= nrm m x.

Let N := dotr m x x.
Lemma p_NB : N <= qB * qB.
Proof. by rewrite /N -nrm_sq; have := nrm_ge0 m x; move=> h; apply: Rmult_le_compat. Qed.
Lemma p_NL : qL * qL <= N.
Proof. by rewrite /N -nrm_sq; have := qL_gt0; move=> h; apply: Rmult_le_compat; lra. Qed.
Lemma p_xB i : (k <= i < m)%N -> Rabs (rv (f i k)) <= qB.
Proof.
move=> hi; apply: Rle_trans HB; have im : (i < m)%N by lia.
by have := @nrm_coord m x i im; rewrite /x /xr hi.
Qed.
Lemma p_eta : INR m * eta32 <= / 2 ^ 10.
Proof.
have h := m_le km kn E1; have e0 := eta32_gt0; have l0 := qL_gt0; have l1 := qL_lt1; have q := qn2.
have h1 : INR m * eta32 <= 2 ^ 18 * eta32 by apply: Rmult_le_compat_r; lra.
have h2 : 2 ^ 18 * eta32 <= eta32 * 2 ^ 21 by rewrite Rmult_comm; apply: Rmult_le_compat_l; [lra|apply: Rle_pow; [lra|lia]].
have h3 : / 2 ^ 10 * (qL * qL) <= / 2 ^ 10 * 1.
  by apply: Rmult_le_compat_l; [left; apply: Rinv_0_lt_compat; apply: p2_gt0|nra].
lra.
Qed.
Lemma p_grow j : (j <= m + 3)%N -> grow j <= 65 / 64.
Proof. exact: grow_le2. Qed.

(** a scalar product of two columns with elements of at most P and qB *)
Lemma p_dot (v w : nat -> b32) P : 0 <= P ->
  (forall i, (k <= i < m)%N -> finite (v i) /\ Rabs (rv (v i)) <= P) ->
  (forall i, (k <= i < m)%N -> finite (w i) /\ Rabs (rv (w i)) <= qB) ->
  2 * (2 ^ 18 * (P * qB) + 1) <= big32 ->
  finite (qdot (S:=B32) m k v w) /\ Rabs (rv (qdot (S:=B32) m k v w)) <= 2 * (2 ^ 18 * (P * qB) + 1).
Proof.
move=> P0 hv hw hb; have b1 := qB_ge1.
have mk : (m - k <= m)%N by lia.
have lm : INR (m - k) <= 2 ^ 18 by apply: Rle_trans (m_le km kn E1); apply: le_INR; lia.
have e0 := eta32_gt0.
have g := @p_grow (m - k) ltac:(lia); have g1 := grow_ge1 (m - k).
have le : INR (m - k) * eta32 <= 1.
  have h : INR (m - k) * eta32 <= INR m * eta32 by apply: Rmult_le_compat_r; [lra|apply: le_INR; lia].
  have := p_eta; have : / 2 ^ 10 <= 1 by rewrite -Rinv_1; apply: Rinv_le_contravar; [lra|apply: pow_R1_Rle; lra].
  lra.
have le0 : 0 <= INR (m - k) * eta32 by apply: Rmult_le_pos; [apply: pos_INR|lra].
have Pb : 0 <= P * qB by apply: Rmult_le_pos; lra.
set s := rsumn (m - k) (fun i => Rabs (rv (v (k + i)%N)) * Rabs (rv (w (k + i)%N))).
have hs : s <= 2 ^ 18 * (P * qB).
  apply: Rle_trans (_ : rsumn (m - k) (fun=> P * qB) <= _).
    apply: rsumn_le => i hi; have h : (k <= k + i < m)%N by lia.
    by apply: Rmult_le_compat; try exact: Rabs_pos; [case: (hv _ h)|case: (hw _ h)].
  have -> : rsumn (m - k) (fun=> P * qB) = INR (m - k) * (P * qB).
    by elim: (m - k)%N => [|d IH]; rewrite ?rsumn0 ?rsumnS ?IH ?S_INR /=; ring.
  exact: Rmult_le_compat_r.
have s0 : 0 <= s by apply: rsumn_ge0 => i _; apply: Rmult_le_pos; apply: Rabs_pos.
have key : grow (m - k) * (s + INR (m - k) * eta32) <= 2 * (2 ^ 18 * (P * qB) + 1).
  by apply: Rmult_le_compat; lra.
have Fd : finite (qdot (S:=B32) m k v w).
  apply: (@dot32_ok (m - k) (fun i => v (k + i)%N) (fun i => w (k + i)%N)); last exact: Rle_trans key hb.
  by move=> i hi; have h : (k <= k + i < m)%N by [lia]; case: (hv _ h); case: (hw _ h).
split=> //; apply: Rle_trans key; exact: (@dot32_abs (m - k) (fun i => v (k + i)%N) (fun i => w (k + i)%N) Fd).
Qed.

Lemma p_big1 P : 0 <= P <= 4 * qB -> 2 * (2 ^ 18 * (P * qB) + 1) <= 2 ^ 22 * (qB * qB).
Proof.
move=> [P0 hP]; have b1 := qB_ge1.
have h1 : P * qB <= 4 * (qB * qB) by nra.
have b2 : 1 <= qB * qB by nra.
have -> : 2 ^ 22 = 2 ^ 18 * 16 by rewrite (pow_add 2 18 4); congr (_ * _); rewrite /=; lra.
have p : 1 <= 2 ^ 18 by apply: pow_R1_Rle; lra.
have h2 : 2 ^ 18 * (P * qB) <= 2 ^ 18 * (4 * (qB * qB)) by apply: Rmult_le_compat_l; lra.
have h3 : 1 * 1 <= 2 ^ 18 * (qB * qB) by apply: Rmult_le_compat; lra.
lra.
Qed.
Lemma p_big2 : 2 ^ 22 * (qB * qB) <= big32.
Proof.
apply: Rle_trans qn1; have b1 := qB_ge1; have p := p2_gt0 22.
have -> : 2 ^ 4 = 16 by rewrite /=; lra.
have v0 : 0 <= 2 ^ 22 * (qB * qB) by apply: Rmult_le_pos; [lra|apply: Rmult_le_pos; lra].
set v := 2 ^ 22 * (qB * qB) in v0 *.
have : v * 1 <= v * (16 * qB) by apply: Rmult_le_compat_l; lra.
lra.
Qed.

Lemma p_fa : finite qa.
Proof.
have b1 := qB_ge1.
have hf i : (k <= i < m)%N -> finite (f i k) /\ Rabs (rv (f i k)) <= qB.
  by move=> hi; split; [apply: ff; lia|apply: p_xB].
have [||Fd _] := @p_dot (fun i => f i k) (fun i => f i k) qB _ hf hf; first lra.
  by apply: Rle_trans p_big2; apply: p_big1; lra.
suff Fr : finite (bsqrt (qdot (S:=B32) m k (fun i => f i k) (fun i => f i k))).
  by rewrite /qa /q_a; case: s_ltb; rewrite // /finite is_finite_Bopp.
apply: sqrt_ok => //.
have [_ h] := @dot32_err (m - k) (fun i => f (k + i)%N k) (fun i => f (k + i)%N k) Fd.
have eN : rsumn (m - k) (fun i => Rabs (rv (f (k + i)%N k)) * Rabs (rv (f (k + i)%N k))) = N.
  rewrite /N -[RHS](@xr_dot m n k km kn f); apply: rsumn_ext => i _.
  by rewrite -Rabs_mult Rabs_pos_eq //; apply: Rle_0_sqr.
have eN2 := @xr_dot m n k km kn f; rewrite -/x -/N in eN2.
rewrite eN eN2 in h; have := Rabs_bound h.
have e1 : err (m - k) <= / 64 by apply: Rle_trans (_ : E <= _); [apply: err_le; lia|lra].
have n0 : 0 <= N by apply: dotr_ge0.
have h1 : err (m - k) * N <= / 64 * N by apply: Rmult_le_compat_r.
have h2 := @w_le m n k km kn E1 (m - k) (m - k) ltac:(lia) ltac:(lia).
have h3 : eta32 * 2 ^ 19 <= eta32 * 2 ^ 21.
  by apply: Rmult_le_compat_l; [left; apply: eta32_gt0|apply: Rle_pow; [lra|lia]].
have h4 := qn2; have h5 := p_NL; have -> : qdot (S:=B32) m k (fun i => f i k) (fun i => f i k) = dot32 b32_zero (m - k) (fun i => f (k + i)%N k) (fun i => f (k + i)%N k) by [].
have h6 : / 2 ^ 10 * (qL * qL) <= / 64 * (qL * qL).
  apply: Rmult_le_compat_r; first by apply: Rmult_le_pos; left; apply: qL_gt0.
  by apply: Rinv_le_contravar; [lra|rewrite /=; lra].
lra.
Qed.

Lemma p_a : nrm m x / 2 <= Rabs a <= 2 * nrm m x.
Proof.
have n0 := nrm_ge0 m x; have e := @a_norm m n k km kn f E1 p_fa.
rewrite -/x -/N -/a -/E in e; have [e1 e2] := Rabs_bound e.
have N0 : 0 <= N by apply: dotr_ge0.
have h1 : E * N <= / 64 * N by apply: Rmult_le_compat_r; lra.
have h3 : eta32 * 2 ^ 19 <= eta32 * 2 ^ 21.
  by apply: Rmult_le_compat_l; [left; apply: eta32_gt0|apply: Rle_pow; [lra|lia]].
have h4 := qn2; have h5 := p_NL.
have h6 : / 2 ^ 10 * (qL * qL) <= / 64 * (qL * qL).
  apply: Rmult_le_compat_r; first by apply: Rmult_le_pos; left; apply: qL_gt0.
  by apply: Rinv_le_contravar; [lra|rewrite /=; lra].
have aa : Rabs a * Rabs a = a * a by rewrite -Rabs_mult Rabs_pos_eq //; apply: Rle_0_sqr.
have nn : nrm m x * nrm m x = N by apply: nrm_sq.
split; apply: sq_le; try lra; exact: Rabs_pos.
Qed.
Lemma p_ra : / 2 ^ 50 <= Rabs a <= 2 ^ 62.
Proof. by have [h1 h2] := p_a; have := qn5; have := qn6; lra. Qed.
Lemma p_aL : qL / 2 <= Rabs a. Proof. by have [h1 _] := p_a; lra. Qed.
Lemma p_aB : Rabs a <= 2 * qB. Proof. by have [_ h2] := p_a; lra. Qed.

Lemma p_qaN : Beqb qa b32_zero = false.
Proof.
apply/negbTE/negP => /(eqa0 p_fa) z; have := p_aL; rewrite /a /qa z Rabs_R0.
by have := qL_gt0; lra.
Qed.

Lemma p_small : eta32 <= / 64 * (qL * qL).
Proof.
have l0 := qL_gt0.
have h3 : eta32 * 1 <= eta32 * 2 ^ 21.
  by apply: Rmult_le_compat_l; [left; apply: eta32_gt0|apply: pow_R1_Rle; lra].
have h4 := qn2.
have h6 : / 2 ^ 10 * (qL * qL) <= / 64 * (qL * qL).
  apply: Rmult_le_compat_r; first by apply: Rmult_le_pos; left; apply: qL_gt0.
  by apply: Rinv_le_contravar; [lra|rewrite /=; lra].
lra.
Qed.

(** the new pivot element of the reflection vector *)
Lemma p_uk : finite (qu k) /\ Rabs a / 2 <= Rabs (rv (qu k)) <= 4 * qB.
Proof.
have hk : (k <= k < m)%N by rewrite leqnn.
have fk : finite (f k k) by apply: ff.
have b1 := qB_ge1; have xb := p_xB hk; have ab := p_aB.
have t : Rabs (rv (f k k) - a) <= 3 * qB.
  by have := Rabs_triang (rv (f k k)) (- a); rewrite Rabs_Ropp /Rminus; lra.
have F : finite (qu k).
  rewrite /qu /q_u eqxx; apply: sub_ok => //; first exact: p_fa.
  rewrite -/qa -/a; apply: Rle_trans t _; apply: Rle_trans qn1.
  have -> : 2 ^ 4 = 16 by rewrite /=; lra.
  have h : 1 * 1 <= 2 ^ 22 * (qB * qB).
    by apply: Rmult_le_compat; [lra|lra|apply: pow_R1_Rle; lra|nra].
  have h2 : 1 * (16 * qB) <= 2 ^ 22 * (qB * qB) * (16 * qB) by apply: Rmult_le_compat_r; lra.
  lra.
split=> //; have := F; rewrite /qu /q_u eqxx => /sub_finite [_ _ ->].
have [[d [hd e]] _] := rnd_add (fmt_rv (f k k)) (generic_format_opp _ _ _ (fmt_rv qa)).
have -> : rnd (rv (f k k) - rv (q_a (S:=B32) bsqrt m k f)) = (rv (f k k) - a) * (1 + d) by rewrite /a /qa; apply: e.
have u1 := u32_lt1; have [d1 d2] := Rabs_bound hd.
have lo : Rabs a <= Rabs (rv (f k k) - a).
  have s := @a_sign m n k km kn f p_fa ff; rewrite /xr hk -/qa -/a in s.
  apply: sq_le; first exact: Rabs_pos.
  rewrite -!Rabs_mult !Rabs_pos_eq; try exact: Rle_0_sqr.
  by have := Rle_0_sqr (rv (f k k)); rewrite /Rsqr; lra.
rewrite Rabs_mult (Rabs_pos_eq (1 + d)); last lra.
have a0 := Rabs_pos (rv (f k k) - a); have a1 := Rabs_pos a.
split.
  apply: Rle_trans (_ : Rabs (rv (f k k) - a) * / 2 <= _); first lra.
  by apply: Rmult_le_compat_l; lra.
apply: Rle_trans (_ : Rabs (rv (f k k) - a) * (4 / 3) <= _); last lra.
by apply: Rmult_le_compat_l; lra.
Qed.
Lemma p_u i : (k <= i < m)%N -> finite (qu i) /\ Rabs (rv (qu i)) <= 4 * qB.
Proof.
move=> hi; have [F [_ h]] := p_uk; have b1 := qB_ge1; case: (altP (i =P k)) => [->|ne] //.
rewrite /qu /q_u (negPf ne); split; first by apply: ff => //; lia.
by have := p_xB hi; lra.
Qed.

Let b := Bmult mode_NE qa (qu k).
Lemma p_b : finite b /\ / 16 * (qL * qL) <= Rabs (rv b).
Proof.
have [F [lo hi]] := p_uk; have b1 := qB_ge1; have ab := p_aB; have al := p_aL; have l0 := qL_gt0.
have Fb : finite b.
  apply: mul_ok32 => //; first exact: p_fa.
  rewrite -/a Rabs_mult.
  apply: Rle_trans (_ : (2 * qB) * (4 * qB) <= _); first by apply: Rmult_le_compat => //; exact: Rabs_pos.
  apply: Rle_trans p_big2.
  have h : 8 <= 2 ^ 22 by apply: Rle_trans (_ : 2 ^ 3 <= _); [rewrite /=; lra|apply: Rle_pow; [lra|lia]].
  have -> : 2 * qB * (4 * qB) = 8 * (qB * qB) by ring.
  by apply: Rmult_le_compat_r => //; nra.
split=> //; have := Fb => /mul_finite [_ _ ->]; rewrite -/a.
have [d [e [hd he ->]]] := rnd_mul (a * rv (qu k)).
have u1 := u32_lt1; have [d1 d2] := Rabs_bound hd.
set t := a * rv (qu k).
have ht : / 8 * (qL * qL) <= Rabs t.
  rewrite /t Rabs_mult.
  have -> : / 8 * (qL * qL) = (qL / 2) * (qL / 4) by field.
  by apply: Rmult_le_compat; lra.
have t1 : Rabs t <= Rabs (t * (1 + d) + e) + Rabs (t * d + e).
  have -> : Rabs t = Rabs ((t * (1 + d) + e) - (t * d + e)) by congr Rabs; ring.
  by rewrite /Rminus; have := Rabs_triang (t * (1 + d) + e) (- (t * d + e)); rewrite Rabs_Ropp.
have t2 := Rabs_triang (t * d) e; rewrite Rabs_mult in t2.
have t3 : Rabs t * Rabs d <= Rabs t * / 1024 by apply: Rmult_le_compat_l; [apply: Rabs_pos|lra].
have ll : 0 < qL * qL by apply: Rmult_lt_0_compat.
by have := p_small; lra.
Qed.

(** the new value of a column whose elements are at most qB *)
Section QCol.
Variable y : nat -> b32.
Hypothesis Hy : forall i, (k <= i < m)%N -> finite (y i) /\ Rabs (rv (y i)) <= qB.
Let s := qdot (S:=B32) m k qu y.
Let fac := bdiv s b.
Lemma p_fac : finite fac /\ Rabs (rv fac) <= 2 ^ 5 * (2 ^ 22 * (qB * qB)) * / (qL * qL).
Proof.
have b1 := qB_ge1; have l0 := qL_gt0; have l1 := qL_lt1.
have [||Fs hs] := @p_dot qu y (4 * qB) _ p_u Hy; first lra.
  by apply: Rle_trans p_big2; apply: p_big1; lra.
have hs' : Rabs (rv s) <= 2 ^ 22 * (qB * qB) by apply: Rle_trans hs _; apply: p_big1; lra.
have [Fb hb] := p_b.
set V := 2 ^ 22 * (qB * qB) in hs' *.
have ll : 0 < qL * qL by nra.
have i1 : 1 <= / (qL * qL) by rewrite -Rinv_1; apply: Rinv_le_contravar; nra.
have V1 : 1 <= V.
  have : 1 * 1 <= 2 ^ 22 * (qB * qB) by apply: Rmult_le_compat; [lra|lra|apply: pow_R1_Rle; lra|nra].
  by rewrite -/V; lra.
have bz : rv b <> 0 by move=> z; move: hb; rewrite z Rabs_R0; lra.
have hq : Rabs (rv s / rv b) <= 16 * (V * / (qL * qL)).
  rewrite /Rdiv Rabs_mult Rabs_inv.
  have -> : 16 * (V * / (qL * qL)) = V * / (/ 16 * (qL * qL)) by field; lra.
  apply: Rmult_le_compat => //; first exact: Rabs_pos.
    by left; apply: Rinv_0_lt_compat; lra.
  by apply: Rinv_le_contravar; lra.
have -> : 2 ^ 5 = 32 by rewrite /=; lra.
have Vi : 1 * 1 <= V * / (qL * qL) by apply: Rmult_le_compat; lra.
have n4 := qn4; rewrite -/V in n4.
have e4 : 2 ^ 4 = 16 by rewrite /=; lra.
have e5 : 2 ^ 5 = 32 by rewrite /=; lra.
rewrite e4 e5 in n4.
have q0 : 1 * (32 * V * / (qL * qL)) <= 16 * qB * (32 * V * / (qL * qL)) by apply: Rmult_le_compat_r; nra.
have Ff : finite fac by apply: div_ok => //; lra.
split=> //; have [_ _ ->] := div_finite Fb Ff.
have h := abs_rnd_le (rv s / rv b); have u1 := u32_lt1; have e0 := p_small; have u0 := u32_gt0.
have h2 : (1 + u32) * Rabs (rv s / rv b) <= (1 + / 1024) * (16 * (V * / (qL * qL))).
  by apply: Rmult_le_compat; [lra|apply: Rabs_pos|lra|lra].
have : / 64 * (qL * qL) <= / 64 * 1 by apply: Rmult_le_compat_l; nra.
lra.
Qed.
Lemma p_col i : (k <= i < m)%N -> finite (Bplus mode_NE (y i) (Bmult mode_NE fac (qu i))).
Proof.
move=> hi; have [Ff hf] := p_fac; have [Fu hu] := p_u hi; have [Fy hy] := Hy hi.
have b1 := qB_ge1; have l0 := qL_gt0; have l1 := qL_lt1.
have n4 := qn4; set W := 2 ^ 5 * (2 ^ 22 * (qB * qB)) * / (qL * qL) in hf n4 *.
have ll : 0 < qL * qL by nra.
have W1 : 1 <= W.
  rewrite /W; have i1 : 1 <= / (qL * qL) by rewrite -Rinv_1; apply: Rinv_le_contravar; nra.
  have h1 : 1 * 1 <= 2 ^ 22 * (qB * qB) by apply: Rmult_le_compat; [lra|lra|apply: pow_R1_Rle; lra|nra].
  have h2 : 1 * 1 <= 2 ^ 5 * (2 ^ 22 * (qB * qB)) by apply: Rmult_le_compat; [lra|lra|rewrite /=; lra|lra].
  have h3 : 1 * 1 <= 2 ^ 5 * (2 ^ 22 * (qB * qB)) * / (qL * qL) by apply: Rmult_le_compat; lra.
  lra.
have e4 : 2 ^ 4 = 16 by rewrite /=; lra.
rewrite e4 in n4.
have WB : 1 * 1 <= W * qB by apply: Rmult_le_compat; lra.
have WB2 : 1 * qB <= W * qB by apply: Rmult_le_compat_r; lra.
have hp : Rabs (rv fac * rv (qu i)) <= 4 * (W * qB).
  rewrite Rabs_mult; have -> : 4 * (W * qB) = W * (4 * qB) by ring.
  by apply: Rmult_le_compat => //; exact: Rabs_pos.
have Fp : finite (Bmult mode_NE fac (qu i)) by apply: mul_ok32 => //; lra.
apply: add_ok => //; have [_ _ ->] := mul_finite Fp.
have h := abs_rnd_le (rv fac * rv (qu i)); have u1 := u32_lt1; have e0 := p_small; have u0 := u32_gt0.
have h2 : (1 + u32) * Rabs (rv fac * rv (qu i)) <= (1 + / 1024) * (4 * (W * qB)).
  by apply: Rmult_le_compat; [lra|apply: Rabs_pos|lra|lra].
have h3 : / 64 * (qL * qL) <= / 64 * 1 by apply: Rmult_le_compat_l; nra.
have := Rabs_triang (rv (y i)) (rnd (rv fac * rv (qu i))); set z := rnd _ in h *; set t := rv fac * rv (qu i) in h h2 hp *; lra.
Qed.
End QCol.

Hypothesis HF : forall i j, (k <= i < m)%N -> (k <= j < n)%N -> Rabs (rv (f i j)) <= qB.
Lemma p_step i j : (i < m)%N -> (j < n)%N -> finite (q_step (S:=B32) bdiv bsqrt m k f i j).
Proof.
move=> hi hj; rewrite /q_step [s_eqb _ _]p_qaN.
case: ifP => [_|jk].
  case: (leqP k i) => ki; first by have [] := @p_u i ltac:(by rewrite ki).
  by rewrite /q_u; have -> : (i == k) = false by [lia]; apply: ff.
case: ifP => [/andP[kj ki]|_]; last exact: ff.
apply: (@p_col (fun i => f i j)); last by rewrite ki.
by move=> l hl; split; [apply: ff; lia|apply: HF => //; rewrite hj ltnW].
Qed.
End QStep.

(** ** linear combinations of columns *)
Lemma trf_sum m (u : nat -> nat -> R) k p (x : nat -> R) (w : nat -> nat -> R) i : (i < m)%N ->
  trf m u k (fun l => rsumn p (fun j => w j l * x j)) i = rsumn p (fun j => trf m u k (w j) i * x j).
Proof.
move=> hi; elim: p => [|p IH].
  by rewrite rsumn0 trf_z // => l _; rewrite rsumn0.
rewrite rsumnS -IH Rmult_comm -trf_lin //; apply: trf_ext => // l _.
by rewrite rsumnS; ring.
Qed.
Lemma nrm_sum m p (w : nat -> nat -> R) (x : nat -> R) :
  nrm m (fun i => rsumn p (fun j => w j i * x j)) <= rsumn p (fun j => Rabs (x j) * nrm m (w j)).
Proof.
elim: p => [|p IH]; first by rewrite rsumn0 nrm_z; [lra|move=> i _; rewrite rsumn0].
rewrite rsumnS (@nrm_ext m _ (fun i => rsumn p (fun j => w j i * x j) + x p * w p i)); last by move=> i _; rewrite rsumnS; ring.
by apply: Rle_trans (nrm_tri _ _ _) _; rewrite nrm_scal; lra.
Qed.

Lemma rsumn_cstq p (z : R) : rsumn p (fun=> z) = INR p * z.
Proof. by elim: p => [|d IH]; rewrite ?rsumn0 ?rsumnS ?IH ?S_INR /=; ring. Qed.

Section Main.
Variables (m n : nat) (a : nat -> nat -> b32) (M sg : R).
Hypothesis nm : (n <= m)%N.
Let F := q_seq (S:=B32) bdiv bsqrt m a.
Let rd := q_rd (S:=B32) bdiv bsqrt m a.
Let E := err (m + 3).
Hypothesis E1 : 64 * E <= 1.
Hypothesis HA : forall i j, (i < m)%N -> (j < n)%N -> finite (a i j).
Hypothesis HM : forall j, (j < n)%N -> nrm m (fun i => rv (a i j)) <= M.
Hypothesis HS : forall x, sg * nrm n x <= nrm m (fun i => rsumn n (fun j => rv (a i j) * x j)).
Let c := 25 * E.
Let e := ((1 + c) ^ n - 1) * M + INR n * ((1 + c) ^ n * om32).
Hypothesis HE : 2 * INR n * e <= sg.
Hypothesis HM2 : 4 * M <= qB.
Hypothesis HS2 : 2 * qL <= sg.

Lemma q_c0 : 0 <= c. Proof. by have := err_ge0 (m + 3); rewrite /c -/E; lra. Qed.
Lemma q_pow k : (k <= n)%N -> 1 <= (1 + c) ^ k <= (1 + c) ^ n.
Proof.
move=> hk; have := q_c0; split; first by apply: pow_R1_Rle; lra.
by apply: Rle_pow; [lra|apply/leP].
Qed.
Lemma q_M0 : (0 < n)%N -> 0 <= M.
Proof. by move=> h; apply: Rle_trans (HM h); apply: nrm_ge0. Qed.
Lemma q_sgM : (0 < n)%N -> sg <= M.
Proof.
move=> h; have := HS (unitv 0 1); rewrite nrm_unitv // Rabs_R1 Rmult_1_r => H; apply: Rle_trans H _.
rewrite (@nrm_ext m _ (fun i => rv (a i 0%N))); first exact: HM.
move=> i _; rewrite (@rsumn_one n (fun j => rv (a i j) * unitv 0 1 j) 0%N h); first by rewrite /unitv /=; ring.
by move=> j hj nj; rewrite /unitv (negPf nj); ring.
Qed.
Lemma q_e : (0 < n)%N -> 0 <= e <= M / 2.
Proof.
move=> h; have h1 := q_sgM h; have m0 := q_M0 h; have [p1 _] := q_pow (leqnn n); have o0 := om_gt0.
have n1 : 1 <= INR n by rewrite -[1]/(INR 1); apply: le_INR; lia.
have e0 : 0 <= e.
  rewrite /e; have : 0 <= ((1 + c) ^ n - 1) * M by apply: Rmult_le_pos; lra.
  have : 0 <= INR n * ((1 + c) ^ n * om32) by apply: Rmult_le_pos; [lra|apply: Rmult_le_pos; lra].
  lra.
split=> //; have : 1 * e <= INR n * e by apply: Rmult_le_compat_r.
lra.
Qed.

(** what the analysis of a prefix gives *)
Section Pre.
Variable k : nat.
Hypothesis kn : (k < n)%N.
Hypothesis FF : forall i j, (i < m)%N -> (j < n)%N -> finite (F k i j).
Hypothesis FR : forall j, (j < k)%N -> finite (rd j).
Hypothesis RN : forall j, (j < k)%N -> sg / 4 <= Rabs (rv (rd j)) <= 4 * M.
Lemma q_n0 : (0 < n)%N. Proof. lia. Qed.
Let n0 := q_n0.
Let W := Wq m a k.
Lemma q_rng j : (j < k)%N -> rv (rd j) = 0 \/ / 2 ^ 50 <= Rabs (rv (rd j)) <= 2 ^ 62.
Proof. by move=> /RN [h1 h2]; right; have := qn5; have := qn6; lra. Qed.
Lemma q_km : (k <= m)%N. Proof. lia. Qed.
Let km := q_km.
Let kn' := ltnW kn.
Let u := @uq_r m k a.
Lemma q_uok l : dotr m (u l) (u l) = 0 -> forall i, u l i = 0.
Proof. exact: (@uq_ok_r m n k a km kn' E1 FF FR q_rng). Qed.
Lemma q_stepk j l : (l < k)%N -> (j < n)%N ->
  nrm m (fun i => Wq m a l.+1 j i - house m (u l) (Wq m a l j) i) <= c * nrm m (Wq m a l j) + om32.
Proof. exact: (@W_step_r m n k a km kn' E1 FF FR q_rng). Qed.
Lemma q_ek j : (j < n)%N -> ((1 + c) ^ k - 1) * nrm m (Wq m a 0 j) + INR k * ((1 + c) ^ k * om32) <= e.
Proof.
move=> hj; have [p1 p2] := q_pow kn'; have o0 := om_gt0; have m0 := q_M0 n0.
have hn : nrm m (Wq m a 0 j) <= M by apply: HM.
have h1 : ((1 + c) ^ k - 1) * nrm m (Wq m a 0 j) <= ((1 + c) ^ n - 1) * M.
  by apply: Rmult_le_compat; try lra; apply: nrm_ge0.
have h2 : INR k * ((1 + c) ^ k * om32) <= INR n * ((1 + c) ^ n * om32).
  apply: Rmult_le_compat; [exact: pos_INR|by apply: Rmult_le_pos; lra|by apply: le_INR; lia|].
  by apply: Rmult_le_compat_r; lra.
by rewrite /e; lra.
Qed.
Lemma q_werr j : (j < n)%N -> nrm m (fun i => Wq m a 0 j i - trf m u k (W j) i) <= e.
Proof.
move=> hj; apply: Rle_trans (q_ek hj).
exact: (@W_err m u q_uok (fun l => Wq m a l j) k c om32 q_c0 (Rlt_le _ _ om_gt0) (fun l hl => @q_stepk j l hl hj) k (leqnn k)).
Qed.
Lemma q_wnrm j : (j < n)%N -> nrm m (W j) <= 2 * M.
Proof.
move=> hj; have h := q_werr hj; have [e0 e1] := q_e n0; have m0 := q_M0 n0.
have h1 := nrm_le_add m (trf m u k (W j)) (Wq m a 0 j).
rewrite (trf_nrm q_uok) in h1.
rewrite (@nrm_ext m (fun i => trf m u k (W j) i - Wq m a 0 j i) (fun i => -1 * (Wq m a 0 j i - trf m u k (W j) i))) in h1; last by move=> i _; ring.
rewrite nrm_scal Rabs_left1 in h1; last lra.
have hn : nrm m (Wq m a 0 j) <= M by apply: HM.
lra.
Qed.
Lemma q_hi j i : (k <= j)%N -> W j i = rv (F k i j).
Proof. by move=> h; rewrite /W /Wq /wfnS ltnNge h. Qed.
Lemma q_xhi : nrm m (xr m k (F k)) <= 2 * M.
Proof.
apply: Rle_trans (q_wnrm kn).
apply: sqrt_le_1_alt; apply: rsumn_le => i hi; rewrite q_hi // /xr.
by case: ifP => _; [lra|rewrite Rmult_0_l; apply: Rle_0_sqr].
Qed.

(** the norm of the pivot column is bounded from below *)
Lemma q_xlo : sg / 2 <= nrm m (xr m k (F k)).
Proof.
have m0 := q_M0 n0; have [e0 e1] := q_e n0; have l0 := qL_gt0.
pose U i j := if (j < i)%N then 0 else W j i.
have Uz i j : (j < i)%N -> U i j = 0 by rewrite /U => ->.
have Ud l : (l < k)%N -> U l l <> 0.
  move=> hl; rewrite /U ltnn /W /Wq /wfnS hl ltnn eqxx => z.
  by have [h _] := RN hl; move: h; rewrite z Rabs_R0; lra.
have [x [_ hx]] := @upper_solve k U (fun i => - W k i) k (leqnn k) Uz Ud.
pose y j := if (j < k)%N then x j else if j == k then 1 else 0.
have yk : y k = 1 by rewrite /y ltnn eqxx.
have cut i : rsumn n (fun j => W j i * y j) = rsumn k (fun j => W j i * x j) + W k i.
  rewrite (rsumn_cut (c := k)) //; last by move=> j hj; rewrite /y; have -> : (j < k)%N = false by [lia]; have -> : (j == k) = false by [lia]; ring.
  by rewrite yk Rmult_1_r; congr (_ + _); apply: rsumn_ext => j hj; rewrite /y hj.
have comb i : (i < m)%N -> rsumn n (fun j => W j i * y j) = xr m k (F k) i.
  move=> hi; rewrite cut /xr hi andbT; case: (leqP k i) => ki.
    rewrite rsumn_z ?Rplus_0_l; first by rewrite q_hi.
    move=> j hj; rewrite /W /Wq /wfnS hj; have -> : (i < j)%N = false by lia.
    by have -> : (i == j) = false by [lia]; rewrite Rmult_0_l.
  have := hx i ki; rewrite (rsumn_ext (g := fun j => W j i * x j)); first by move=> ->; ring.
  move=> j hj; rewrite /U; case: ifP => // ji; rewrite /W /Wq /wfnS hj; have -> : (i < j)%N = false by lia.
  by have -> : (i == j) = false by lia.
have hS := HS y.
have yn : 1 <= nrm n y by have := @nrm_coord n y k kn; rewrite yk Rabs_R1.
rewrite (@nrm_ext m _ (fun i => rsumn n (fun j => (Wq m a 0 j i - trf m u k (W j) i) * y j) + trf m u k (xr m k (F k)) i)) in hS; last first.
  move=> i hi; rewrite -(@trf_ext m u k _ _ comb i hi) trf_sum // -rsumn_add; apply: rsumn_ext => j _.
  by rewrite -[Wq m a 0 j i]/(rv (a i j)); ring.
have h1 := nrm_tri m (fun i => rsumn n (fun j => (Wq m a 0 j i - trf m u k (W j) i) * y j)) (trf m u k (xr m k (F k))).
rewrite (trf_nrm q_uok) in h1.
have h2 := @nrm_sum m n (fun j i => Wq m a 0 j i - trf m u k (W j) i) y.
have h3 : rsumn n (fun j => Rabs (y j) * nrm m (fun i => Wq m a 0 j i - trf m u k (W j) i)) <= INR n * (nrm n y * e).
  rewrite -rsumn_cstq; apply: rsumn_le => j hj.
  by apply: Rmult_le_compat; [apply: Rabs_pos|apply: nrm_ge0|apply: nrm_coord|apply: q_werr].
have h4 : 2 * INR n * e * nrm n y <= sg * nrm n y by apply: Rmult_le_compat_r; lra.
have h5 : sg * 1 <= sg * nrm n y by apply: Rmult_le_compat_l; lra.
have h6 : 2 * INR n * e * nrm n y = 2 * (INR n * (nrm n y * e)) by ring.
lra.
Qed.

Lemma q_next : [/\ forall i j, (i < m)%N -> (j < n)%N -> finite (F k.+1 i j), finite (rd k) & sg / 4 <= Rabs (rv (rd k)) <= 4 * M].
Proof.
have lo := q_xlo; have hi := q_xhi; have l0 := qL_gt0; have m0 := q_M0 n0.
have km' : (k < m)%N by lia.
have HB : nrm m (xr m k (F k)) <= qB by lra.
have HL : qL <= nrm m (xr m k (F k)) by lra.
split.
- apply: (@p_step m n k km' kn (F k) E1 FF HB HL) => i j hi' hj; rewrite -q_hi; last by lia.
  have im : (i < m)%N by lia.
  have jn : (j < n)%N by lia.
  by have := @nrm_coord m (W j) i im; have := q_wnrm jn; lra.
- exact: (@p_fa m n k km' kn (F k) E1 FF HB HL).
- by have := @p_a m n k km' kn (F k) E1 FF HB HL; rewrite -[rv (rd k)]/(rv (q_a (S:=B32) bsqrt m k (F k))); lra.
Qed.
End Pre.

Lemma q_main k : (k <= n)%N ->
  [/\ forall i j, (i < m)%N -> (j < n)%N -> finite (F k i j), forall j, (j < k)%N -> finite (rd j) &
      forall j, (j < k)%N -> sg / 4 <= Rabs (rv (rd j)) <= 4 * M].
Proof.
elim: k => [|k IH] hk; first by split.
have [h1 h2 h3] := IH (ltnW hk); have [g1 g2 g3] := q_next hk h1 h2 h3.
by split=> // j; rewrite ltnS leq_eqVlt => /orP[/eqP -> //|hj]; [apply: h2|apply: h3].
Qed.

(** get_q *)
Hypothesis n0 : (0 < n)%N.
Lemma q_mn : minn m n = n. Proof. exact/minn_idPr. Qed.
Local Notation mn := (minn m n).
Lemma q_FF i j : (i < m)%N -> (j < n)%N -> finite (F mn i j).
Proof. by rewrite q_mn; case: (q_main (leqnn n)) => h _ _; apply: h. Qed.
Lemma q_FR k : (k < mn)%N -> finite (rd k).
Proof. by rewrite q_mn; case: (q_main (leqnn n)) => _ h _; apply: h. Qed.
Lemma q_RN k : (k < mn)%N -> sg / 4 <= Rabs (rv (rd k)) <= 4 * M.
Proof. by rewrite q_mn; case: (q_main (leqnn n)) => _ _ h; apply: h. Qed.
Lemma q_nz k : (k < mn)%N -> rv (rd k) <> 0.
Proof. by move=> /q_RN [h _] z; move: h; rewrite z Rabs_R0; have := qL_gt0; lra. Qed.
Lemma q_RNG k : (k < mn)%N -> rv (rd k) = 0 \/ / 2 ^ 50 <= Rabs (rv (rd k)) <= 2 ^ 62.
Proof. by move=> /q_RN [h1 h2]; right; have := qn5; have := qn6; lra. Qed.

Let G := q_gs (S:=B32) bdiv m n (F mn) rd.
Lemma q_gbound t : (t <= n)%N -> (1 + c) ^ t * (1 + INR t * om32) <= qB.
Proof.
move=> ht; have [p1 p2] := q_pow ht; have o0 := om_gt0; have [e0 e1] := q_e n0; have b4 := qB_ge4.
have m1 : 0 < M by have := q_sgM n0; have := qL_gt0; lra.
have h1 : (1 + c) ^ n <= 3 / 2.
  have h : ((1 + c) ^ n - 1) * M <= / 2 * M.
    have : 0 <= INR n * ((1 + c) ^ n * om32) by apply: Rmult_le_pos; [apply: pos_INR|apply: Rmult_le_pos; lra].
    by rewrite /e in e1; lra.
  by have := Rmult_le_reg_r _ _ _ m1 h; lra.
have h2 : INR t * ((1 + c) ^ t * om32) <= INR n * ((1 + c) ^ n * om32).
  apply: Rmult_le_compat; [exact: pos_INR|by apply: Rmult_le_pos; lra|by apply: le_INR; lia|].
  by apply: Rmult_le_compat_r; lra.
have h3 : 0 <= ((1 + c) ^ n - 1) * M by apply: Rmult_le_pos; lra.
have -> : (1 + c) ^ t * (1 + INR t * om32) = (1 + c) ^ t + INR t * ((1 + c) ^ t * om32) by ring.
by rewrite /e in e1; lra.
Qed.

Lemma q_G t : (t <= n)%N ->
  (forall i j, (i < m)%N -> (j < m)%N -> finite (G t i j)) /\
  forall j, (j < m)%N -> nrm m (fun i => rv (G t i j)) <= (1 + c) ^ t * (1 + INR t * om32).
Proof.
elim: t => [|t IH] ht.
  split=> [i j _ _|j hj]; first by rewrite /G /=; case: ifP.
  apply: Rle_trans (_ : nrm m (unitv j 1) <= _); last by rewrite nrm_unitv // Rabs_R1 /=; lra.
  apply: sqrt_le_1_alt; apply: rsumn_le => i hi.
  have -> : G 0 i j = if (i == j) && (i < mn)%N then b32_int 1 else b32_zero by [].
  rewrite /unitv; case: (i == j); last by rewrite andFb [rv b32_zero]/(0%R); lra.
  by case: (i < mn)%N; rewrite ?rv_int1 ?[rv b32_zero]/(0%R); lra.
have [IF IN] := IH (ltnW ht); set k := (mn - t.+1)%N.
have tm : (t < mn)%N by rewrite q_mn.
have hk : (k < mn)%N by rewrite /k; lia.
have km : (k < m)%N by lia.
have kn : (k < n)%N by lia.
have kmn : (k.+1 <= n)%N by [].
have [Fk Frd Rk] := q_main (ltnW kn); have [Fk1 _ _] := q_main kmn.
have lo := q_xlo kn Fk Frd Rk; have hi := q_xhi kn Fk Frd Rk; have l0 := qL_gt0; have m0 := q_M0 n0.
have HB : nrm m (xr m k (F k)) <= qB by lra.
have HL : qL <= nrm m (xr m k (F k)) by lra.
have Glo i j : ((i < k) || (j < k))%N -> G t.+1 i j = G t i j by exact: back_lo.
have Ghi i j : (k <= i)%N -> (k <= j)%N -> G t.+1 i j =
  Bplus mode_NE (G t i j) (Bmult mode_NE (bdiv (qdot (S:=B32) m k (q_u (S:=B32) bsqrt m k (F k)) (fun l => G t l j))
    (Bmult mode_NE (q_a (S:=B32) bsqrt m k (F k)) (q_u (S:=B32) bsqrt m k (F k) k))) (q_u (S:=B32) bsqrt m k (F k) i)).
  by move=> ki kj; apply: (@back_hi m n a E1 q_FF q_FR k (G t) i j hk (q_nz hk)).
have GF i j : (i < m)%N -> (j < m)%N -> finite (G t.+1 i j).
  move=> im jm; case: (leqP k i) => ki; last by rewrite Glo ?ki //; apply: IF.
  case: (leqP k j) => kj; last by rewrite Glo ?kj ?orbT //; apply: IF.
  rewrite Ghi //; apply: (@p_col m n k km kn (F k) E1 Fk HB HL (fun l => G t l j)); last by rewrite ki.
  move=> l hl; have lm : (l < m)%N by lia.
  split; first exact: IF.
  apply: Rle_trans (q_gbound (ltnW ht)); apply: Rle_trans (IN j jm).
  exact: (@nrm_coord m (fun i => rv (G t i j)) l lm).
split=> // j jm; have o0 := om_gt0; have c0 := q_c0; have hj := IN j jm.
have [p1 p2] := q_pow (ltnW ht); have n1 := pos_INR t.
have up : (1 + c) * ((1 + c) ^ t * (1 + INR t * om32)) + om32 <= (1 + c) ^ t.+1 * (1 + INR t.+1 * om32).
  rewrite S_INR -tech_pow_Rmult.
  have h4 : om32 <= (1 + c) * (1 + c) ^ t * om32.
    rewrite -{1}[om32]Rmult_1_l; apply: Rmult_le_compat_r; first lra.
    by have : 1 * 1 <= (1 + c) * (1 + c) ^ t by [apply: Rmult_le_compat; lra]; lra.
  lra.
set nj := nrm m (fun i => rv (G t i j)) in hj *.
have nj0 : 0 <= nj by apply: nrm_ge0.
have h3 : (1 + c) * nj <= (1 + c) * ((1 + c) ^ t * (1 + INR t * om32)) by apply: Rmult_le_compat_l; lra.
case: (leqP k j) => kj; last first.
  rewrite (@nrm_ext m _ (fun i => rv (G t i j))); last by move=> i _; rewrite Glo ?kj ?orbT.
  have : 0 <= c * nj by apply: Rmult_le_pos.
  by rewrite -/nj; lra.
have h1 := @col_err m n k km kn (F k) E1 (q_FR hk) (q_RNG hk) Fk Fk1 (q_nz hk) (fun i => G t i j) (fun i => G t.+1 i j)
   (fun i hi => @Ghi i j (proj1 (andP hi)) kj) (fun i ik => @Glo i j (introT orP (or_introl ik))) (fun i hi => GF i j hi jm).
have h2 := nrm_le_add m (fun i => rv (G t.+1 i j)) (house m (ug m k (F k)) (fun i => rv (G t i j))).
rewrite house_nrm in h2; last first.
  by move=> z; exfalso; have := @ug_pos m n k km kn (F k) E1 (q_FR hk) (q_RNG hk) Fk Fk1 (q_nz hk); rewrite z; lra.
by rewrite -/nj -/E -/c in h1 h2; lra.
Qed.
End Main.
