(** * (generated by tools/gen32.py from FloatCholThms.v) Float32CholThms: Cholesky decomposition and solve in f32 (C53) *)
From Coq Require Import ZArith Reals Lra Psatz.
From Flocq Require Import Core BinarySingleNaN.
From mathcomp Require Import all_ssreflect all_algebra zify.
From Verif Require Import Base Scalar Hoare ModelMatrix ModelCholesky Spec MatrixProofs MatrixProofs2 LUProofs LUEval CholEval B32 SpecFloat32 Float32Base Float32LU Float32Chol.

Set Implicit Arguments.
Unset Strict Implicit.
Unset Printing Implicit Defensive.
Local Open Scope R_scope.

Lemma bdiv_tot (x y : B32) : n_div x y = Ok (bdiv x y). Proof. by []. Qed.
Lemma bsqrt_tot (x : B32) : s_sqrt x = Ok (bsqrt x). Proof. by []. Qed.

Lemma rsum_rsumn n (F : 'I_n -> R) (G : nat -> R) : (forall i : 'I_n, F i = G i) -> \rsum_(i < n) F i = rsumn n G.
Proof. by move=> h; apply: eq_bigr. Qed.

Definition mxn m n (f : nat -> nat -> b32) : 'M[b32]_(m, n) := (\matrix_(i, j) f i j)%R.

Lemma ok_some_inj (T : Type) (x y : T) : Ok (Some x) = Ok (Some y) -> x = y. Proof. by case. Qed.

Lemma chol32 g n (A : 'M[b32]_n.+1) :
  (exists f, chol_new (S:=B32) g (mat_of A) = Ok (Some (mat_of (mxn n.+1 n.+1 f))) /\
     ch_rows (S:=B32) bdiv bsqrt n.+1 (fn b32_zero A) n.+1 f) \/
  chol_new (S:=B32) g (mat_of A) = Ok None /\ ch_fail (S:=B32) bdiv bsqrt n.+1 (fn b32_zero A).
Proof.
have /wp_ex [[M|] e] := chol_new_ev bdiv_tot bsqrt_tot (mat_of_rep b32_zero A) g (ltn0Sn n).
  by case=> f HM Hf; left; exists f; rewrite e (rep_matrix HM).
by right.
Qed.

(*@section C62 (C53 in f32) Cholesky decomposition in f32 @*)

(*@doc C62 (C53 in f32): for every square f32 matrix (NaN and infinities included) CholeskyDecomposition::new returns None or a lower
  triangular L, and the same one whatever the uninitialised memory contains.  When L is finite, the matrix is finite and
  symmetric, the diagonal of L is positive and L L' reproduces the matrix up to (1+u)^(n+1) - 1 relative to |L||L'|,
  plus an underflow term. *)
Lemma chol_rounding_f32_L : forall g n (A : 'M[b32]_n.+1),
  chol_new (S:=B32) g (mat_of A) = Ok None \/
  exists L : 'M[b32]_n.+1,
  [/\ chol_new (S:=B32) g (mat_of A) = Ok (Some (mat_of L)),
      forall i j : 'I_n.+1, (i < j)%N -> L i j = b32_zero &
  (forall i j, finite (L i j)) ->
  [/\ forall i j, finite (A i j), forall i j, rv (A i j) = rv (A j i), forall i, 0 < rv (L i i) &
      forall i j, Rabs (rv (A i j) - (\rsum_(l < n.+1) (rv (L i l) * rv (L j l)))) <=
        err n.+2 * (\rsum_(l < n.+1) (Rabs (rv (L i l)) * Rabs (rv (L j l)))) +
        grow n.+2 * eta32 * (INR n.+1 + rv (L j j) + rv (L i i))]].
Proof.
move=> g n A; case: (chol32 g A) => [[f [e Hf]]|[e _]]; last by left.
right; exists (mxn n.+1 n.+1 f); split=> //.
  by move=> i j ij; rewrite mxE (ch_upper0 Hf).
move=> FL; have FF i k : (i < n.+1)%N -> (k < n.+1)%N -> finite (f i k).
  by move=> hi hk; have := FL (Ordinal hi) (Ordinal hk); rewrite mxE.
have sy (i j : 'I_n.+1) : finite (A i j) /\ rv (A i j) = rv (A j i).
  case: (leqP i j) => ij; first by have := ch_sym Hf FF (ltn_ord j) ij; rewrite !fnE.
  by have := ch_sym Hf FF (ltn_ord i) (ltnW ij); have := ch_a_fin Hf FF (ltn_ord i) (ltnW ij); rewrite !fnE => ? [].
split.
- by move=> i j; case: (sy i j).
- by move=> i j; case: (sy i j).
- by move=> i; rewrite mxE; apply: (ch_pos Hf FF).
move=> i j; have := ch_back_sym Hf FF (ltn_ord i) (ltn_ord j); rewrite fnE !mxE.
rewrite (rsum_rsumn (G := fun l => rv (f i l) * rv (f j l))); last by move=> l; rewrite !mxE.
by rewrite (rsum_rsumn (G := fun l => Rabs (rv (f i l)) * Rabs (rv (f j l)))); last by move=> l; rewrite !mxE.
Qed.

(** Cauchy-Schwarz *)
Lemma cs_rsumn n (p q : nat -> R) :
  rsumn n (fun i => p i * q i) * rsumn n (fun i => p i * q i) <= rsumn n (fun i => p i * p i) * rsumn n (fun i => q i * q i).
Proof.
elim: n => [|n IH]; first by rewrite !rsumn0; lra.
rewrite !rsumnS; have A0 : 0 <= rsumn n (fun i => p i * p i) by apply: rsumn_ge0 => i _; nra.
have B0 : 0 <= rsumn n (fun i => q i * q i) by apply: rsumn_ge0 => i _; nra.
set x := p n; set y := q n; move: IH A0 B0.
set P := rsumn n (fun i => p i * q i); set A := rsumn n (fun i => p i * p i); set B := rsumn n (fun i => q i * q i) => IH A0 B0.
suff : 2 * (P * (x * y)) <= A * (y * y) + (x * x) * B by nra.
case: (Req_dec A 0) => [z|z].
  have P0 : P = 0 by rewrite z Rmult_0_l in IH; nra.
  by rewrite P0; nra.
apply: (Rmult_le_reg_l A); first lra.
have : 0 <= (A * y - P * x) * (A * y - P * x) by apply: Rle_0_sqr.
have : 0 <= (A * B - P * P) * (x * x) by apply: Rmult_le_pos; [lra|apply: Rle_0_sqr].
lra.
Qed.

Lemma rsumn_sq n (p : nat -> R) : rsumn n p * rsumn n p = rsumn n (fun i => rsumn n (fun j => p i * p j)).
Proof. by rewrite -{1}rsumn_scal; apply: rsumn_ext => i _; rewrite Rmult_comm -rsumn_scal. Qed.

(** a quadratic form from its factors *)
Lemma quad_low n (a L : nat -> nat -> R) (e w : R) (x : nat -> R) :
  0 <= e -> 0 <= w ->
  (forall i j, (i < n)%N -> (j < n)%N ->
     Rabs (a i j - rsumn n (fun l => L i l * L j l)) <= e * rsumn n (fun l => Rabs (L i l) * Rabs (L j l)) + w) ->
  - ((e * rsumn n (fun i => rsumn n (fun l => L i l * L i l)) + INR n * w) * rsumn n (fun i => x i * x i)) <=
  rsumn n (fun i => rsumn n (fun j => x i * a i j * x j)).
Proof.
move=> e0 w0 h; set X := rsumn n (fun i => x i * x i).
have X0 : 0 <= X by apply: rsumn_ge0 => i _; nra.
pose s l := rsumn n (fun i => L i l * x i).
pose sa l := rsumn n (fun i => Rabs (L i l) * Rabs (x i)).
have H1 : rsumn n (fun i => rsumn n (fun j => x i * rsumn n (fun l => L i l * L j l) * x j)) = rsumn n (fun l => s l * s l).
  rewrite (rsumn_ext (f := fun l => s l * s l) (g := fun l => rsumn n (fun i => rsumn n (fun j => (L i l * x i) * (L j l * x j))))); last by move=> l _; rewrite /s rsumn_sq.
  rewrite [RHS]rsumn_swap; apply: rsumn_ext => i _; rewrite [RHS]rsumn_swap; apply: rsumn_ext => j _.
  rewrite -rsumn_scal Rmult_comm -rsumn_scal; apply: rsumn_ext => l _; ring.
have H2 : rsumn n (fun i => rsumn n (fun j => Rabs (x i) * rsumn n (fun l => Rabs (L i l) * Rabs (L j l)) * Rabs (x j))) = rsumn n (fun l => sa l * sa l).
  rewrite (rsumn_ext (f := fun l => sa l * sa l) (g := fun l => rsumn n (fun i => rsumn n (fun j => (Rabs (L i l) * Rabs (x i)) * (Rabs (L j l) * Rabs (x j)))))); last by move=> l _; rewrite /sa rsumn_sq.
  rewrite [RHS]rsumn_swap; apply: rsumn_ext => i _; rewrite [RHS]rsumn_swap; apply: rsumn_ext => j _.
  rewrite -rsumn_scal Rmult_comm -rsumn_scal; apply: rsumn_ext => l _; ring.
have sq y : Rabs y * Rabs y = y * y by rewrite -Rabs_mult Rabs_pos_eq //; nra.
have H3 : rsumn n (fun l => sa l * sa l) <= rsumn n (fun i => rsumn n (fun l => L i l * L i l)) * X.
  rewrite rsumn_swap Rmult_comm -rsumn_scal; apply: rsumn_le => l _; rewrite Rmult_comm.
  apply: Rle_trans (cs_rsumn _ _ _) _.
  rewrite (rsumn_ext (g := fun i => L i l * L i l)); last by move=> i _; rewrite sq.
  rewrite (rsumn_ext (f := fun i => Rabs (x i) * Rabs (x i)) (g := fun i => x i * x i)); last by move=> i _; rewrite sq.
  exact: Rle_refl.
have H4 : rsumn n (fun i => Rabs (x i)) * rsumn n (fun i => Rabs (x i)) <= INR n * X.
  have := cs_rsumn n (fun _ => 1) (fun i => Rabs (x i)).
  have -> : rsumn n (fun i => 1 * Rabs (x i)) = rsumn n (fun i => Rabs (x i)) by apply: rsumn_ext => i _; ring.
  have -> : rsumn n (fun i => Rabs (x i) * Rabs (x i)) = X by apply: rsumn_ext => i _; rewrite sq.
  suff -> : rsumn n (fun _ => 1 * 1) = INR n by [].
  by elim: (n) => [|m IH]; rewrite ?rsumn0 // rsumnS IH S_INR; ring.
set Q := rsumn n (fun i => rsumn n (fun j => x i * a i j * x j)).
have H5 : rsumn n (fun i => rsumn n (fun j => x i * rsumn n (fun l => L i l * L j l) * x j)) -
   (e * rsumn n (fun i => rsumn n (fun j => Rabs (x i) * rsumn n (fun l => Rabs (L i l) * Rabs (L j l)) * Rabs (x j))) +
    w * (rsumn n (fun i => Rabs (x i)) * rsumn n (fun i => Rabs (x i)))) <= Q.
  rewrite rsumn_sq -!rsumn_scal -rsumn_add -rsumn_sub; apply: rsumn_le => i hi.
  rewrite -!rsumn_scal -rsumn_add -rsumn_sub; apply: rsumn_le => j hj.
  have hij := h i j hi hj; set p := rsumn n _ in hij *; set q := rsumn n _ in hij *.
  have -> : x i * a i j * x j = x i * p * x j + (a i j - p) * (x i * x j) by ring.
  have xx : 0 <= Rabs (x i * x j) by apply: Rabs_pos.
  have := abs_mul_le hij (Rle_refl (Rabs (x i * x j))).
  move=> /Rabs_bound [h1 _]; rewrite Rabs_mult in h1; lra.
rewrite H1 H2 in H5.
have S0 : 0 <= rsumn n (fun l => s l * s l) by apply: rsumn_ge0 => l _; nra.
have := Rmult_le_compat_l _ _ _ e0 H3; have := Rmult_le_compat_l _ _ _ w0 H4; lra.
Qed.

(*@doc C62 (C53 in f32): what Some means: the matrix is positive semidefinite up to rounding, with a tolerance relative to its trace t:
  x'Ax >= -(2 err (t + w) + underflow) |x|^2 for every real vector x, where err = (1+u)^(n+1) - 1 and w is an underflow term. *)
Lemma chol_some_f32_L : forall g n (A L : 'M[b32]_n.+1),
  chol_new (S:=B32) g (mat_of A) = Ok (Some (mat_of L)) -> (forall i j, finite (L i j)) -> 4 * err n.+2 <= 1 ->
  let t := \rsum_(i < n.+1) rv (A i i) in let N := INR n.+1 in
  let w := 3 * N * N * eta32 in
  forall x : 'I_n.+1 -> R,
  - ((2 * err n.+2 * (t + w) + 2 * eta32 * N * (N + 1 + 2 * (t + w))) * (\rsum_(i < n.+1) (x i * x i))) <=
  (\rsum_(i < n.+1) (\rsum_(j < n.+1) (x i * rv (A i j) * x j))).
Proof.
move=> g n A L e FL er; case: (chol_rounding_f32_L g A) => [|[L' [e' _ H]]]; first by rewrite e.
move: e'; rewrite e => h; have /mat_of_inj eL := ok_some_inj h; rewrite -eL in H => {eL h}.
have {H} [_ _ pos Hb] := H FL => t N w x.
pose Lf (i l : nat) := rv (fn b32_zero L i l); pose af (i l : nat) := rv (fn b32_zero A i l).
pose xf (i : nat) := if insub i is Some o then x o else 0.
have xfE (i : 'I_n.+1) : xf i = x i by rewrite /xf valK.
have LfE (i j : 'I_n.+1) : Lf i j = rv (L i j) by rewrite /Lf fnE.
have afE (i j : 'I_n.+1) : af i j = rv (A i j) by rewrite /af fnE.
have u0 := u32_gt0; have et0 := eta32_gt0; have g1 := grow_ge1 n.+2; have er0 := err_ge0 n.+2.
have et1 : eta32 <= / 8.
  have -> : / 8 = / 2 ^ 3 by congr (/ _); ring.
  apply: Rinv_le_contravar; first by apply: pow_lt; lra.
  by apply: Rle_pow; [lra|apply/leP].
have gE : grow n.+2 = 1 + err n.+2 by rewrite /err; ring.
have N1 : 1 <= N by rewrite /N S_INR; have := pos_INR n; lra.
pose T := rsumn n.+1 (fun i => rsumn n.+1 (fun l => Lf i l * Lf i l)).
have Lp (i : nat) : (i < n.+1)%N -> 0 < Lf i i.
  by move=> hi; have := pos (Ordinal hi); rewrite -LfE.
have Lii (i : nat) : (i < n.+1)%N -> Lf i i * Lf i i <= rsumn n.+1 (fun l => Lf i l * Lf i l).
  by move=> hi; apply: (@rsumn_term n.+1 (fun l => Lf i l * Lf i l)) => // l _; nra.
have LT (i : nat) : (i < n.+1)%N -> Lf i i * Lf i i <= T.
  move=> hi; apply: Rle_trans (Lii i hi) _.
  apply: (@rsumn_term n.+1 (fun i => rsumn n.+1 (fun l => Lf i l * Lf i l))) => // l _.
  by apply: rsumn_ge0 => p _; nra.
have T0 : 0 <= T by apply: rsumn_ge0 => i _; apply: rsumn_ge0 => p _; nra.
have B (i j : nat) : (i < n.+1)%N -> (j < n.+1)%N ->
   Rabs (af i j - rsumn n.+1 (fun l => Lf i l * Lf j l)) <=
   err n.+2 * rsumn n.+1 (fun l => Rabs (Lf i l) * Rabs (Lf j l)) + grow n.+2 * eta32 * (N + Lf j j + Lf i i).
  move=> hi hj; have := Hb (Ordinal hi) (Ordinal hj).
  rewrite -!LfE -afE /=.
  rewrite (rsum_rsumn (G := fun l => Lf i l * Lf j l)); last by move=> l; rewrite -!LfE.
  by rewrite (rsum_rsumn (G := fun l => Rabs (Lf i l) * Rabs (Lf j l))); last by move=> l; rewrite -!LfE.
have ge : 0 <= grow n.+2 * eta32 by apply: Rmult_le_pos; lra.
have ge4 : grow n.+2 * eta32 <= 5 / 4 * eta32 by apply: Rmult_le_compat_r; lra.
(* the trace *)
have tE : t = rsumn n.+1 (fun i => af i i) by apply: rsum_rsumn => i; rewrite afE.
have hT : T <= 2 * (t + w).
  have h1 : (1 - err n.+2 - grow n.+2 * eta32) * T <= t + grow n.+2 * eta32 * (N * N + N).
    have -> : (1 - err n.+2 - grow n.+2 * eta32) * T = rsumn n.+1 (fun i => (1 - err n.+2 - grow n.+2 * eta32) * rsumn n.+1 (fun l => Lf i l * Lf i l)) by rewrite rsumn_scal.
    have cst c : rsumn n.+1 (fun _ => c) = N * c.
      by rewrite /N; elim: (n.+1) => [|m IH]; rewrite ?rsumn0 ?rsumnS ?IH ?S_INR; [rewrite /=; ring|ring].
    have -> : t + grow n.+2 * eta32 * (N * N + N) = rsumn n.+1 (fun i => af i i + grow n.+2 * eta32 * (N + 1)).
      by rewrite rsumn_add cst tE; ring.
    apply: rsumn_le => i hi; have := B i i hi hi; have := Lii i hi; have := Lp i hi.
    have -> : rsumn n.+1 (fun l => Rabs (Lf i l) * Rabs (Lf i l)) = rsumn n.+1 (fun l => Lf i l * Lf i l).
      by apply: rsumn_ext => l _; rewrite -Rabs_mult Rabs_pos_eq //; nra.
    set S := rsumn n.+1 _ => p1 p2 /Rabs_bound [p3 _].
    have p4 : Lf i i + Lf i i <= 1 + S by have := Rle_0_sqr (Lf i i - 1); rewrite /Rsqr; lra.
    have := Rmult_le_compat_l _ _ _ ge p4; lra.
  have h2 : / 2 * T <= (1 - err n.+2 - grow n.+2 * eta32) * T by apply: Rmult_le_compat_r => //; lra.
  have h3 : grow n.+2 * eta32 * (N * N + N) <= w.
    have -> : w = 3 / 2 * eta32 * (N * N + N * N) by rewrite /w; field.
    have NN : N * 1 <= N * N by apply: Rmult_le_compat_l; lra.
    by apply: Rmult_le_compat => //; lra.
  lra.
have tw : 0 <= t + w by lra.
have quad := @quad_low n.+1 af Lf (err n.+2) (2 * eta32 * (N + 1 + 2 * (t + w))) xf er0.
have h0 : 0 <= 2 * eta32 * (N + 1 + 2 * (t + w)) by apply: Rmult_le_pos; lra.
have hB i j : (i < n.+1)%N -> (j < n.+1)%N -> Rabs (af i j - rsumn n.+1 (fun l => Lf i l * Lf j l)) <=
    err n.+2 * rsumn n.+1 (fun l => Rabs (Lf i l) * Rabs (Lf j l)) + 2 * eta32 * (N + 1 + 2 * (t + w)).
  move=> hi hj; apply: Rle_trans (B i j hi hj) _; apply: Rplus_le_compat_l.
  have p1 := Lp i hi; have p2 := Lp j hj; have q1 := LT i hi; have q2 := LT j hj.
  have p3 : N + Lf j j + Lf i i <= N + 1 + 2 * (t + w).
    by have := Rle_0_sqr (Lf i i - 1); have := Rle_0_sqr (Lf j j - 1); rewrite /Rsqr; lra.
  by apply: Rmult_le_compat => //; lra.
have := quad h0 hB.
rewrite -(rsum_rsumn (F := fun i => x i * x i) (G := fun i => xf i * xf i)); last by move=> i; rewrite xfE.
rewrite -(rsum_rsumn (F := fun i => \rsum_(j < n.+1) (x i * rv (A i j) * x j)) (G := fun i => rsumn n.+1 (fun j => xf i * af i j * xf j))); last first.
  by move=> i; apply: rsum_rsumn => j; rewrite !xfE afE.
rewrite -/T -/N; set X := \rsum_(i < n.+1) (x i * x i).
have X0 : 0 <= X by apply: rsum_ge0 => i; nra.
move=> hq; apply: Rle_trans hq; apply: Ropp_le_contravar.
apply: Rmult_le_compat_r => //.
have := Rmult_le_compat_l _ _ _ er0 hT; lra.
Qed.

(*@doc C62 (C53 in f32): solve with a finite factor: it never panics, and when the result is finite the residual B - A X is bounded
  componentwise by ((1+u)^(3n+1) - 1) |L||L'||X| plus an underflow term. *)
Lemma chol_solve_rounding_f32_L : forall g n k (A L : 'M[b32]_n.+1) (B : 'M[b32]_(n.+1, k.+1)),
  chol_new (S:=B32) g (mat_of A) = Ok (Some (mat_of L)) ->
  exists X : 'M[b32]_(n.+1, k.+1), chol_solve (S:=B32) (mat_of L) (mat_of B) = Ok (mat_of X) /\
  ((forall i j, finite (L i j)) -> (forall i j, finite (X i j)) ->
   (forall i j, finite (B i j)) /\ forall i j,
   Rabs (rv (B i j) - (\rsum_(l < n.+1) (rv (A i l) * rv (X l j)))) <=
     err (3 * n.+1 + 1) * (\rsum_(l < n.+1) (Rabs (rv (L i l)) * (\rsum_(p < n.+1) (Rabs (rv (L p l)) * Rabs (rv (X p j)))))) +
     grow (2 * n.+1 + 1) * eta32 *
       (INR n.+1 + rv (L i i) + (\rsum_(l < n.+1) (Rabs (rv (L i l)) * (INR n.+1 + rv (L l l)))) +
        (\rsum_(p < n.+1) ((INR n.+1 + rv (L p p) + rv (L i i)) * Rabs (rv (X p j)))))).
Proof.
move=> g n k A L B; case: (chol32 g A) => [[f [-> Hf]] h|[-> //]].
have /mat_of_inj <- := ok_some_inj h.
have HL : rep n.+1 n.+1 (mat_of (mxn n.+1 n.+1 f)) f.
  by have := mat_of_rep b32_zero (mxn n.+1 n.+1 f) => -[h1 h2]; split=> //; apply: repr_ext h2 _ => i j hi hj; rewrite (fn_lt _ _ hi hj) mxE.
have [X [y [z [e HX Hy Hz]]]] := chol_solve_ev bdiv_tot (ltn0Sn n) (ltn0Sn k) HL (mat_of_rep b32_zero B).
exists (mxn n.+1 k.+1 z); rewrite e (rep_matrix HX); split=> // FL FX.
have FF i p : (i < n.+1)%N -> (p < n.+1)%N -> finite (f i p).
  by move=> hi hk; have := FL (Ordinal hi) (Ordinal hk); rewrite mxE.
have Fz i p : (i < n.+1)%N -> (p < k.+1)%N -> finite (z i p).
  by move=> hi hk; have := FX (Ordinal hi) (Ordinal hk); rewrite mxE.
have yj (j : 'I_k.+1) i' : (i' < n.+1)%N -> y i' j = bdiv (chain (S:=B32) (fn b32_zero B i' j) (iota 0 i') (fun l => y l j) (f i')) (f i' i').
  by move=> hi; apply: Hy.
have zj (j : 'I_k.+1) i' : (i' < n.+1)%N -> z i' j = bdiv (chain (S:=B32) (y i' j) (iota i'.+1 (n.+1 - i'.+1)) (fun l => z l j) (fun l => f l i')) (f i' i').
  by move=> hi; apply: Hz.
have fj (j : 'I_k.+1) i' : (i' < n.+1)%N -> finite (z i' j) by move=> hi; apply: Fz.
split.
  by move=> i j; have := ch_b_fin FF (yj j) (zj j) (fj j) (ltn_ord i); rewrite fnE.
move=> i j; have := ch_solve_err Hf FF (yj j) (zj j) (fj j) (ltn_ord i); rewrite fnE !mxE.
rewrite (rsum_rsumn (G := fun l => rv (fn b32_zero A i l) * rv (z l j))); last by move=> l; rewrite fnE !mxE.
rewrite (rsum_rsumn (G := fun l => Rabs (rv (f i l)) * rsumn n.+1 (fun p => Rabs (rv (f p l)) * Rabs (rv (z p j))))); last first.
  by move=> l; rewrite mxE; congr (_ * _); apply: rsum_rsumn => p; rewrite !mxE.
rewrite (rsum_rsumn (G := fun l => Rabs (rv (f i l)) * (INR n.+1 + rv (f l l)))); last by move=> l; rewrite !mxE.
by rewrite (rsum_rsumn (G := fun p => (INR n.+1 + rv (f p p) + rv (f i i)) * Rabs (rv (z p j)))); last by move=> p; rewrite !mxE.
Qed.

(** NaN propagates *)
Lemma nan_addl (x y : b32) : is_nan x -> is_nan (Bplus mode_NE x y). Proof. by case: x. Qed.
Lemma nan_mull (x y : b32) : is_nan x -> is_nan (Bmult mode_NE x y). Proof. by case: x. Qed.
Lemma nan_subl (x y : b32) : is_nan x -> is_nan (Bminus mode_NE x y). Proof. by case: x. Qed.
Lemma nan_subr (x y : b32) : is_nan y -> is_nan (Bminus mode_NE x y). Proof. by case: y => //; case: x. Qed.
Lemma nan_addr (x y : b32) : is_nan y -> is_nan (Bplus mode_NE x y). Proof. by case: y => //; case: x. Qed.
Lemma nan_divr (x y : b32) : is_nan y -> is_nan (Bdiv mode_NE x y). Proof. by case: y => //; case: x. Qed.
Lemma nan_divl (x y : b32) : is_nan x -> is_nan (Bdiv mode_NE x y). Proof. by case: x. Qed.
Lemma nan_sqrt (x : b32) : is_nan x -> is_nan (Bsqrt mode_NE x). Proof. by case: x. Qed.
Lemma nan_leb (x y : b32) : is_nan x -> Bleb x y = false. Proof. by case: x. Qed.
Lemma nan_dot k f g : (0 < k)%N -> is_nan (f 0%N) -> is_nan (dot32 b32_zero k f g).
Proof.
move=> k0 h; elim: k k0 => // -[|k] IH _; rewrite dot32S; last by apply: nan_addl; apply: IH.
by apply: nan_addr; apply: nan_mull.
Qed.

(*@doc C62 (C53 in f32), finding: "Some iff positive definite" does not extend to NaN.  A matrix whose first diagonal element is NaN (and
  whose other elements are symmetric numbers) is accepted, because NaN <= 0 is false; the factor consists of NaN. *)
Lemma chol_nan_refuted_f32_L : forall g n (A : 'M[b32]_n.+1),
  is_nan (A ord0 ord0) -> (forall i j, i != j -> Beqb (A i j) (A j i)) ->
  exists L : 'M[b32]_n.+1, chol_new (S:=B32) g (mat_of A) = Ok (Some (mat_of L)) /\
    forall i j : 'I_n.+1, (j <= i)%N -> is_nan (L i j).
Proof.
move=> g n A nn sy; set a := fn b32_zero A.
have a00 : is_nan (a 0%N 0%N) by have := fnE b32_zero A ord0 ord0; rewrite /a => /= ->.
(* column 0 is NaN, so everything is *)
have num_nan f j k : (k <= j)%N -> (k = 0%N -> j = 0%N) -> (0 < k -> is_nan (f k 0%N))%N -> is_nan (ch_num (S:=B32) a f j k).
  case: k => [|k] hk h0 hf; first by rewrite h0 //; apply: nan_subl.
  by apply: nan_subr; apply: nan_dot => //; apply: hf.
have row0 f m : (0 < m)%N -> ch_rows (S:=B32) bdiv bsqrt n.+1 a m f -> is_nan (f 0%N 0%N).
  by move=> m0 [H _ _]; rewrite H // /ch_entry /=; apply: nan_sqrt; apply: num_nan.
have col0 f m j : ch_rows (S:=B32) bdiv bsqrt n.+1 a m f -> (j < m)%N -> is_nan (f j 0%N).
  move=> Hr hj; have m0 : (0 < m)%N by lia.
  have h0 := row0 f m m0 Hr; case: (posnP j) => [-> //|j0]; case: Hr => H _ _.
  by rewrite H // /ch_entry j0; apply: nan_divr.
case: (chol32 g A) => [[f [-> Hf]]|[_]]; last case.
- exists (mxn n.+1 n.+1 f); split=> // i j ji; rewrite mxE.
  have [H _ _] := Hf; rewrite H // /ch_entry; case: ltnP => lt; last first.
    have -> : j = i :> nat by lia.
    rewrite eqxx; apply: nan_sqrt; apply: num_nan => // _; exact: col0 Hf _.
  case: (posnP j) => [j0|j0]; first by rewrite j0; apply: nan_divr; apply: row0 Hf.
  by apply: nan_divl; apply: num_nan => //; [lia|move=> _; apply: col0 Hf _].
- case=> i [k [ki hi]]; have hk : (k < n.+1)%N by lia.
  rewrite /a (fn_lt _ _ hk hi) (fn_lt _ _ hi hk) => /negP []; apply: sy.
  by rewrite -val_eqE /=; lia.
case=> j [f [hj [Hr Hp]]] h; exfalso; move: h; apply/negP.
suff h : is_nan (ch_num (S:=B32) a f j j) by have := nan_leb b32_zero h => /= ->.
apply: num_nan => // j0.
have [-> _] := Hp 0%N j0; rewrite /ch_entry j0; apply: nan_divr.
by apply: row0 Hr.
Qed.

(*@example
(** the hypotheses are met: a 3 x 3 matrix whose factor is computed with rounding (1/3), and the solution of a system *)
Definition mx33 : 'M[b32]_3 := (\matrix_(i, j) b32_int (Z.of_nat (if i == j then 9 else 3)%N))%R.
Definition ch_fin (M : mat b32) : bool := all (@is_finite b_prec b_emax) (data M).
Lemma mx33E : mat_of mx33 = Mat 3 [seq b32_int (Z.of_nat k) | k <- [:: 9; 3; 3; 3; 9; 3; 3; 3; 9]%N].
Proof.
apply/esym/(@rep_mat_of _ 3 3 _ (fun i j => nth b32_zero [seq b32_int (Z.of_nat k) | k <- [:: 9; 3; 3; 3; 9; 3; 3; 3; 9]%N] (i * 3 + j))).
  by split=> //; split=> // -[|[|[|i]]] // [|[|[|j]]].
by move=> [[|[|[|i]]] hi] [[|[|[|j]]] hj] //; rewrite mxE.
Qed.
Example chol_rounding_example :
  match chol_new (S:=B32) (fun=> B754_nan) (mat_of mx33) with
  | Ok (Some L) => ch_fin L && match chol_solve (S:=B32) L (mat_of mx33) with Ok X => ch_fin X | _ => false end
  | _ => false
  end.
Proof. by rewrite mx33E; vm_cast_no_check (erefl true). Qed.
Example chol_some_example : 4 * err 4 <= 1.
Proof. by have := u32_lt1; have := u32_gt0; rewrite /err /grow /=; nra. Qed.
@*)
