(** * FloatSolveFinThms: solve and inverse of a well-conditioned f64 matrix do not overflow (C66) *)
From Coq Require Import ZArith Reals Lra Psatz.
From Flocq Require Import Core BinarySingleNaN.
From mathcomp Require Import all_ssreflect all_algebra zify.
From mathcomp Require Import fingroup perm.
From Verif Require Import Base Scalar Hoare ModelMatrix ModelLU Spec MatrixProofs MatrixProofs2 LUProofs LUEval B64 SpecFloat64 FloatBase FloatLU SpecFloatPrio FloatLUThms FloatPrio FloatPrioThms FloatSolveFin.

Set Implicit Arguments.
Unset Strict Implicit.
Unset Printing Implicit Defensive.
Local Open Scope R_scope.

Lemma solve_fin gp g n k (A : 'M[b64]_n.+1) (b : nat -> nat -> b64) Mb M V K bb : let N := n.+1 in let W := lu_bound N M n in
  let Y := lu_bound N bb n in let Z := sol_bound N K W Y in
  rep n.+1 k.+1 Mb b ->
  (forall i j, finite (A i j) /\ Rabs (rv (A i j)) <= M) -> W <= big64 ->
  left_inverse V A -> (forall i, \rsum_(l < N) Rabs (V i l) <= K) -> K * (INR N * lu_error N W) <= / 4 ->
  (forall i j, (i < N)%N -> (j < k.+1)%N -> finite (b i j) /\ Rabs (rv (b i j)) <= bb) ->
  Z <= big64 -> grow N.+1 * (Y + INR N * (W * Z + eta64)) <= big64 ->
  exists d, lu_new (S:=B64) gp (mat_of A) = Ok d /\
  exists X : 'M[b64]_(n.+1, k.+1), [/\ lu_solve (S:=B64) g d Mb = Ok (Some (mat_of X)),
    forall i j, finite (X i j) /\ Rabs (rv (X i j)) <= Z &
    forall (i : 'I_n.+1) (j : 'I_k.+1),
      Rabs (rv (X i j) - \rsum_(l < N) (V i l * rv (b l j))) <= K * solve_error N W (\rsum_(l < N) Rabs (rv (X l j)))].
Proof.
move=> N W Y Z HB hA hW hV hK hC hb hZ hYZ.
have hC1 : K * (INR N * lu_error N W) < 1 by lra.
have [d [ed [_ [X [EX HX]]]]] := @solve_cond gp g n k A b Mb M V K HB hA hW hV hK hC1.
exists d; split=> //; exists X.
have [d' [s [f [q [e Hd Hp Hq [Hf Hpv FB]]]]]] := @lu_prio64 gp n n A M hA ltac:(by rewrite minnn).
move: e; rewrite ed => -[dd]; rewrite -{d'}dd in Hd Hp.
have [d' [s' [f' [e Hd' FW dz]]]] := @diag64 gp n A M V K hA hW hV hK hC1.
move: e; rewrite ed => -[dd]; rewrite -{d'}dd in Hd'.
have ff i j : (i < N)%N -> (j < N)%N -> f' i j = f i j.
  by move=> hi hj; have := rep_get i j Hd; rewrite (rep_get i j Hd') hi hj /= => -[].
suff HF : forall i j, finite (X i j) /\ Rabs (rv (X i j)) <= Z.
  by split=> //; apply: HX => i j; have [] := HF i j.
have M0 := bound_ge0 hA; have W0 : 0 <= W by apply: lu_bound_ge0.
have fW i k' : (i < N)%N -> (k' < N)%N -> finite (f i k') /\ (if (i <= k')%N then Rabs (rv (f i k')) <= W else Rabs (rv (f i k')) <= 1).
  by move=> hi hk; rewrite -ff //; apply: FW.
have := lu_solve_ev (S:=B64) bdivE g erefl (ltn0Sn n) (ltn0Sn k) Hd Hp Hq HB.
case: ifP => _; last by rewrite EX.
move=> [X' [y [z [E HX' Hy Hz]]]] i j.
move: E; rewrite EX => -[EX']; rewrite -{X'}EX' in HX'.
have xz i' : (i' < N)%N -> rv (X (inord i') j) = rv (z i' j) /\ X (inord i') j = z i' j.
  move=> hi; have := rep_get i' j HX'; rewrite (rep_get i' j (mat_of_rep b64_zero X)) hi (ltn_ord j) /= => -[].
  by rewrite -{1}[i'](inordK hi) fnE => ->.
have [_ {}xz] := xz i (ltn_ord i); rewrite inord_val in xz; rewrite xz.
have Ebb0 : 0 <= bb by have [_] := hb 0%N 0%N (ltn0Sn n) (ltn0Sn k); have := Rabs_pos (rv (b 0%N 0%N)); lra.
have K0 : 0 <= K by apply: Rle_trans (hK ord0); apply: rsum_ge0 => l; apply: Rabs_pos.
have qs i' : (i' < N)%N -> (q i' < N)%N by move=> hi; rewrite -[i']/(val (Ordinal hi)) Hq.
have := @z_prio N f (fun i => b (q i) j) (fun i => y i j) (fun i => z i j) (fun i j => rv (fn b64_zero A (q i) j))
  (fun i l => fnR V i (q l)) W bb K (lu_error N W) fW _ _ _ _ _ _ _ _ hC hZ hYZ Ebb0 W0 K0 N (leqnn _) i.
apply.
- by move=> k' hk; rewrite -ff //; apply: dz.
- by move=> i' hi; apply: hb => //; apply: qs.
- by move=> i' hi; apply: Hy.
- by move=> i' hi; apply: Hz.
- move=> i' j' hi hj; have fF a c : (a < N)%N -> (c < N)%N -> finite (f a c) by move=> h1 h2; have [] := fW a c h1 h2.
  have hl l : (l < N)%N -> Rabs (rv (lfnS (S:=B64) f i' l)) <= 1 by move=> hl'; exact: (@LW N f W fW i' l hi hl').
  have hu l : (l < N)%N -> Rabs (rv (ufnS (S:=B64) f l j')) <= W by move=> hl'; exact: (@UW N f W fW W0 l j' hl' hj).
  have h := lu_back Hf Hpv fF hi hj; rewrite minnn -/N in h; apply: Rle_trans h _; rewrite /lu_error.
  have s1 : rsumn N (fun l => Rabs (rv (lfnS (S:=B64) f i' l)) * Rabs (rv (ufnS (S:=B64) f l j'))) <= INR N * W.
    rewrite -rsumn_cst; apply: rsumn_le => l hl'; rewrite -[X in _ <= X]Rmult_1_l.
    by apply: Rmult_le_compat; [exact: Rabs_pos|exact: Rabs_pos|apply: hl|apply: hu].
  have s2 : rsumn N (fun l => Rabs (rv (ufnS (S:=B64) f l j'))) <= INR N * W by rewrite -rsumn_cst; apply: rsumn_le => l hl'; apply: hu.
  have e1 := Rmult_le_compat_l _ _ _ (err_ge0 N) s1.
  have ge : 0 <= grow N * eta64 by have := grow_ge1 N; have := eta64_gt0; nra.
  have e2 := Rmult_le_compat_l _ _ _ ge s2.
  lra.
- move=> i' j' hi hj; rewrite -[i']/(val (Ordinal hi)) -[j']/(val (Ordinal hj)).
  rewrite -(rsum_rsumn (F := fun l => V (Ordinal hi) (s l) * rv (A (s l) (Ordinal hj)))); last by move=> l; rewrite Hq fnRE fnE.
  by rewrite (rsum_perm s (fun l => V (Ordinal hi) l * rv (A l (Ordinal hj)))) hV.
- move=> i' hi; rewrite -[i']/(val (Ordinal hi)).
  rewrite -(rsum_rsumn (F := fun l => Rabs (V (Ordinal hi) (s l)))); last by move=> l; rewrite Hq fnRE.
  by rewrite (rsum_perm s (fun l => Rabs (V (Ordinal hi) l))).
- rewrite /lu_error; have ge : 0 <= grow N * eta64 by have := grow_ge1 N; have := eta64_gt0; nra.
  have n0 := pos_INR N; have : 0 <= INR N * (grow N * eta64 * (1 + W)) by apply: Rmult_le_pos => //; apply: Rmult_le_pos; lra.
  lra.
by rewrite subnn leq0n ltn_ord.
Qed.

(*@section C66 well-conditioned systems are solved without overflow @*)

(*@doc C66: let A be an f64 matrix with |A| <= M, V its (real) inverse with absolute row sums at most K, B a right-hand side
  with |B| <= b.  If K times the rounding error of the factors is at most 1/4 and the numbers that bound the intermediate
  results (W for U, Y for the forward and Z for the back substitution) stay below 2^1023, then solve returns a matrix X, X is
  finite, |X| <= Z, and X differs from the exact solution V B by at most K times the residual bound: nothing about the
  result is assumed. *)
Lemma solve_no_overflow_L : forall gp g n k (A : 'M[b64]_n.+1) (B : 'M[b64]_(n.+1, k.+1)) M V K b,
  let N := n.+1 in let W := lu_bound N M n in let Y := lu_bound N b n in let Z := sol_bound N K W Y in
  (forall i j, finite (A i j) /\ Rabs (rv (A i j)) <= M) -> (forall i j, finite (B i j) /\ Rabs (rv (B i j)) <= b) ->
  left_inverse V A -> (forall i, \rsum_(l < N) Rabs (V i l) <= K) -> K * (INR N * lu_error N W) <= / 4 ->
  W <= 2 ^ 1023 -> Z <= 2 ^ 1023 -> grow N.+1 * (Y + INR N * (W * Z + eta64)) <= 2 ^ 1023 ->
  exists X : 'M[b64]_(n.+1, k.+1), [/\ solve (S:=B64) gp g (mat_of A) (mat_of B) = Ok (Some (mat_of X)),
    forall i j, finite (X i j) /\ Rabs (rv (X i j)) <= Z &
    forall i j, Rabs (rv (X i j) - \rsum_(l < N) (V i l * rv (B l j))) <=
      K * solve_error N W (\rsum_(l < N) Rabs (rv (X l j)))].
Proof.
move=> gp g n k A B M V K b N W Y Z hA hB hV hK hC hW hZ hYZ.
have [|d [e [X [eX fX hX]]]] := @solve_fin gp g n k A _ _ M V K b (mat_of_rep b64_zero B) hA hW hV hK hC _ hZ hYZ.
  by move=> i j hi hj; rewrite -[i]/(val (Ordinal hi)) -[j]/(val (Ordinal hj)) fnE.
exists X; split=> //; first by rewrite /solve e; cbn [bind].
move=> i j; have := hX i j.
by rewrite (eq_bigr (fun l => V i l * rv (B l j))) => [//|l _]; rewrite fnE.
Qed.

(*@doc C66: the same for inverse, whose right-hand side is the identity (b = 1). *)
Lemma inverse_no_overflow_L : forall gp g1 g2 n (A : 'M[b64]_n.+1) M V K,
  let N := n.+1 in let W := lu_bound N M n in let Y := lu_bound N 1 n in let Z := sol_bound N K W Y in
  (forall i j, finite (A i j) /\ Rabs (rv (A i j)) <= M) ->
  left_inverse V A -> (forall i, \rsum_(l < N) Rabs (V i l) <= K) -> K * (INR N * lu_error N W) <= / 4 ->
  W <= 2 ^ 1023 -> Z <= 2 ^ 1023 -> grow N.+1 * (Y + INR N * (W * Z + eta64)) <= 2 ^ 1023 ->
  exists X : 'M[b64]_n.+1, [/\ inverse (S:=B64) gp g1 g2 (mat_of A) = Ok (Some (mat_of X)),
    forall i j, finite (X i j) /\ Rabs (rv (X i j)) <= Z &
    forall i j, Rabs (rv (X i j) - V i j) <= K * solve_error N W (\rsum_(l < N) Rabs (rv (X l j)))].
Proof.
move=> gp g1 g2 n A M V K N W Y Z hA hV hK hC hW hZ hYZ.
have /wp_ex [I eI HI] := rep_id (N:=B64) g1 n.+1 n.+1.
have [|d [e [X [eX fX hX]]]] := @solve_fin gp g2 n n A _ _ M V K 1 HI hA hW hV hK hC _ hZ hYZ.
  move=> i j _ _; case: eqP => _; first by rewrite [n_one _]/(b64_int 1) rv_int1 Rabs_R1; split=> //; lra.
  by split=> //; rewrite Rabs_R0; lra.
exists X; split=> //.
  rewrite /inverse (rep_cols (mat_of_rep b64_zero A)) //; cbn [bind]; rewrite (rep_no_rows (mat_of_rep b64_zero A)) eqxx.
  by cbn [require]; rewrite e; cbn [bind]; rewrite eI.
move=> i j; have := hX i j.
rewrite (eq_bigr (fun l => V i l * (if l == j then 1 else 0))) => [|l _]; last first.
  by rewrite -val_eqE; case: (val l == val j) => //; rewrite [n_one _]/(b64_int 1) rv_int1.
rewrite (bigD1 j) //= eqxx big1 => [|l /negbTE ->]; last by rewrite Rmult_0_r.
by rewrite Rmult_1_r Rplus_0_r.
Qed.

(*@example
From Verif Require Import PropFloatPrio.
(** the hypotheses are met by A = [0 1; 1 1] (with inverse [-1 1; 1 0], M = 1, K = 2) and right-hand sides up to 1 *)
Example solve_no_overflow_example : let W := lu_bound 2 1 1 in let Y := lu_bound 2 1 1 in let Z := sol_bound 2 2 W Y in
  [/\ 2 * (INR 2 * lu_error 2 W) <= / 4, W <= 2 ^ 1023, Z <= 2 ^ 1023 & grow 3 * (Y + INR 2 * (W * Z + eta64)) <= 2 ^ 1023].
Proof.
have [g3 _] := prio_grow; have g1 := grow_ge1 3; have e0 := eta64_gt0; have u0 := u64_gt0.
have uS : u64 <= / 2 ^ 20 by apply: Rinv_le_contravar; [apply: pow_lt; lra|apply: Rle_pow; [lra|lia]].
have ue : eta64 <= / 2 ^ 20 by apply: Rinv_le_contravar; [apply: pow_lt; lra|apply: Rle_pow; [lra|lia]].
have p20 : / 2 ^ 20 <= / 1000000 by apply: Rinv_le_contravar; [lra|rewrite /=; lra].
have W6 : lu_bound 2 1 1 <= 7.
  rewrite /lu_bound pow_1 (_ : INR 3 = 3); last by rewrite /=; ring.
  apply: Rle_trans (_ : 2 * 3 * (1 + 3 * / 1000000) <= 7); last lra.
  by apply: Rmult_le_compat; [nra|lra| |lra]; apply: Rmult_le_compat; lra.
have W0 : 0 <= lu_bound 2 1 1.
  by rewrite /lu_bound pow_1; apply: Rmult_le_pos; [nra|have := pos_INR 3; nra].
have I2 : INR 2 = 2 by rewrite /=; ring.
have g2 : grow 2 <= grow 3 by apply: grow_le.
have g20 := grow_ge1 2.
have e2 : err 2 <= 3 * / 1000000 by rewrite /err /grow /=; nra.
have e20 := err_ge0 2.
have big (x : R) : x <= 1024 -> x <= 2 ^ 1023.
  move=> h; apply: Rle_trans h _; apply: Rle_trans (_ : 2 ^ 10 <= _); first by rewrite /=; lra.
  by apply: Rle_pow; [lra|lia].
have ge : grow 2 * eta64 <= 2 * / 1000000 by apply: Rmult_le_compat; lra.
have ge0 : 0 <= grow 2 * eta64 by apply: Rmult_le_pos; lra.
have Z60 : 0 <= sol_bound 2 2 (lu_bound 2 1 1) (lu_bound 2 1 1) <= 57.
  rewrite /sol_bound I2; set w := lu_bound 2 1 1 in W6 W0 *.
  have a1 : grow 2 * eta64 * (2 + w) <= 2 * / 1000000 * 9 by apply: Rmult_le_compat; lra.
  have a2 : 0 <= grow 2 * eta64 * (2 + w) by apply: Rmult_le_pos; lra.
  split; lra.
move=> W Y Z; have w6 : W <= 7 := W6; have w0 : 0 <= W := W0; have y6 : Y <= 7 := W6; have y0 : 0 <= Y := W0.
have [z0 z57] : 0 <= Z <= 57 := Z60.
have a1 : err 2 * W <= 3 * / 1000000 * 7 by apply: Rmult_le_compat.
have a2 : grow 2 * eta64 * (1 + W) <= 2 * / 1000000 * 8 by apply: Rmult_le_compat; lra.
split.
- by rewrite /lu_error I2; lra.
- by apply: big; lra.
- by apply: big; lra.
apply: Rle_trans (_ : 2 * (7 + 2 * (7 * 57 + 1)) <= _); last by apply: Rle_trans (_ : 2 ^ 11 <= _); [rewrite /=; lra|apply: Rle_pow; [lra|lia]].
rewrite I2.
have wz : W * Z <= 7 * 57 by apply: Rmult_le_compat.
have wz0 : 0 <= W * Z by apply: Rmult_le_pos.
apply: Rmult_le_compat; lra.
Qed.
@*)
