(** * FloatPrioThms: a priori guarantees for LU, solve and inverse in f64 (C63) *)
From Coq Require Import ZArith Reals Lra Psatz.
From Flocq Require Import Core BinarySingleNaN.
From mathcomp Require Import all_ssreflect all_algebra zify.
From mathcomp Require Import fingroup perm.
From Verif Require Import Base Scalar Hoare ModelMatrix ModelLU Spec MatrixProofs MatrixProofs2 LUProofs LUEval B64 SpecFloat64 FloatBase FloatLU SpecFloatPrio FloatLUThms FloatPrio.

Set Implicit Arguments.
Unset Strict Implicit.
Unset Printing Implicit Defensive.
Local Open Scope R_scope.

Lemma lu_bound_le r M i j : 0 <= M -> (i <= j)%N -> lu_bound r M i <= lu_bound r M j.
Proof.
move=> M0 ij; rewrite /lu_bound; have g1 := grow_ge1 r.+1; have e0 := eta64_gt0; have n0 := pos_INR r.+1.
apply: Rmult_le_compat_r; first nra.
apply: Rmult_le_compat_l; first lra.
by apply: Rle_pow; [lra|apply/leP].
Qed.
Lemma lu_bound_ge0 r M i : 0 <= M -> 0 <= lu_bound r M i.
Proof.
move=> M0; rewrite /lu_bound; have g1 := grow_ge1 r.+1; have e0 := eta64_gt0; have n0 := pos_INR r.+1.
apply: Rmult_le_pos; last nra.
by apply: Rmult_le_pos; [lra|apply: pow_le; lra].
Qed.

Lemma bound_ge0 m n (A : 'M[b64]_(m.+1, n.+1)) M : (forall i j, finite (A i j) /\ Rabs (rv (A i j)) <= M) -> 0 <= M.
Proof. by move=> h; have [_] := h ord0 ord0; have := Rabs_pos (rv (A ord0 ord0)); lra. Qed.

(** what is left behind, when nothing overflows *)
Lemma lu_prio64 gp m n (A : 'M[b64]_(m.+1, n.+1)) M : let r := minn m.+1 n.+1 in
  (forall i j, finite (A i j) /\ Rabs (rv (A i j)) <= M) -> lu_bound r M r.-1 <= big64 ->
  exists d (s : 'S_m.+1) (f : nat -> nat -> b64) (q : nat -> nat),
  [/\ lu_new (S:=B64) gp (mat_of A) = Ok d, rep m.+1 n.+1 (lu d) f, piv d = perm_list s, (forall i : 'I_m.+1, q i = s i) &
  [/\ forall i k, (i < m.+1)%N -> (k < n.+1)%N -> f i k = lu_entry (S:=B64) bdiv (fn b64_zero A) f q i k,
      forall i k, (k < n.+1)%N -> (k <= i < m.+1)%N ->
        ~~ Bltb (Babs (lu_num (S:=B64) (fn b64_zero A) f q k k)) (Babs (lu_num (S:=B64) (fn b64_zero A) f q i k)) &
      forall i k, (i < m.+1)%N -> (k < n.+1)%N ->
        finite (f i k) /\ (if (i <= k)%N then Rabs (rv (f i k)) <= lu_bound r M i else Rabs (rv (f i k)) <= 1)]].
Proof.
move=> r hA hB; have [d [s [f [q [e Hd Hp Hq [Hf Hpv _]]]]]] := lu_new64 gp A.
exists d, s, f, q; split=> //; split=> // i k hi hk.
apply: (@lu_prio m.+1 n.+1 (fn b64_zero A) f q M Hf Hpv _ hB (bound_ge0 hA) k i hk hi).
by move=> i' k' hi' hk'; rewrite -[i']/(val (Ordinal hi')) Hq -[k']/(val (Ordinal hk')) fnE.
Qed.

(*@section C63 no overflow in the LU decomposition @*)

(*@doc C63: if the elements of A are at most M in absolute value, and the growth that partial pivoting allows keeps them
  below 2^1023, then L and U are finite, |L| <= 1, and row i of U is bounded by (1+u)^(r+1) (1 + (1+u)^(r+1))^i (M + ...). *)
Lemma lu_no_overflow_L : forall gp m n (A : 'M[b64]_(m.+1, n.+1)) M, let r := minn m.+1 n.+1 in
  (forall i j, finite (A i j) /\ Rabs (rv (A i j)) <= M) -> lu_bound r M r.-1 <= 2 ^ 1023 ->
  exists (d : lu_decomp B64) (L : 'M[b64]_(m.+1, r)) (U : 'M[b64]_(r, n.+1)),
  [/\ lu_new (S:=B64) gp (mat_of A) = Ok d,
      forall g, lu_get_l g d = Ok (mat_of L),
      forall g, lu_get_u g d = Ok (mat_of U),
      forall i j, finite (L i j) /\ Rabs (rv (L i j)) <= 1 &
      forall i j, finite (U i j) /\ Rabs (rv (U i j)) <= lu_bound r M i].
Proof.
move=> gp m n A M r hA hB; have [d [s [f [q [e Hd Hp Hq [Hf Hpv FB]]]]]] := @lu_prio64 gp m n A M hA hB.
exists d, (lmx _ _ f), (umx _ _ f); split=> //.
- by move=> g; apply: wp_mat_of (lu_get_l_ev Hd _ _ g) _ => // i j; rewrite mxE.
- by move=> g; apply: wp_mat_of (lu_get_u_ev Hd _ _ g) _ => // i j; rewrite mxE.
- move=> i j; rewrite mxE /lfnS; case: (ltnP j i) => ji.
    have := FB i j (ltn_ord i) _; have -> : (i <= j)%N = false by lia.
    by apply; have := ltn_ord j; rewrite /r; lia.
  case: eqP => _; first by rewrite [n_one _]/(b64_int 1) rv_int1 Rabs_R1; split=> //; lra.
  by split=> //; rewrite Rabs_R0; lra.
move=> i j; rewrite mxE /ufnS; case: (leqP i j) => ij.
  have := FB i j _ (ltn_ord j); rewrite ij; apply; have := ltn_ord i; rewrite /r; lia.
by split=> //; rewrite Rabs_R0; apply: lu_bound_ge0; apply: bound_ge0 hA.
Qed.

(** ** matrices far from singular *)
Definition fnR n (V : 'I_n.+1 -> 'I_n.+1 -> R) (i j : nat) : R := V (inord i) (inord j).
Lemma fnRE n (V : 'I_n.+1 -> 'I_n.+1 -> R) (i j : 'I_n.+1) : fnR V i j = V i j.
Proof. by rewrite /fnR !inord_val. Qed.
Lemma rsum_perm n (s : 'S_n) (F : 'I_n -> R) : \rsum_(i < n) F (s i) = \rsum_(i < n) F i.
Proof. by rewrite [RHS](reindex_inj (@perm_inj _ s)). Qed.

Lemma diag64 gp n (A : 'M[b64]_n.+1) M V K : let N := n.+1 in let W := lu_bound N M n in
  (forall i j, finite (A i j) /\ Rabs (rv (A i j)) <= M) -> W <= big64 ->
  left_inverse V A -> (forall i, \rsum_(l < N) Rabs (V i l) <= K) -> K * (INR N * lu_error N W) < 1 ->
  exists d (s : 'S_n.+1) (f : nat -> nat -> b64),
  [/\ lu_new (S:=B64) gp (mat_of A) = Ok d, rep n.+1 n.+1 (lu d) f,
      forall i k, (i < N)%N -> (k < N)%N -> finite (f i k) /\ (if (i <= k)%N then Rabs (rv (f i k)) <= W else Rabs (rv (f i k)) <= 1) &
      forall k, (k < N)%N -> rv (f k k) <> 0].
Proof.
move=> N W hA hB hV hK hC.
have [d [s [f [q [e Hd Hp Hq [Hf Hpv FB]]]]]] := @lu_prio64 gp n n A M hA ltac:(by rewrite minnn).
rewrite minnn in FB; have M0 := bound_ge0 hA; have W0 : 0 <= W by apply: lu_bound_ge0.
have FW i k : (i < N)%N -> (k < N)%N -> finite (f i k) /\ (if (i <= k)%N then Rabs (rv (f i k)) <= W else Rabs (rv (f i k)) <= 1).
  move=> hi hk; have [h1 h2] := FB i k hi hk; split=> //; case: ifP h2 => // _ h2.
  by apply: Rle_trans h2 (lu_bound_le _ M0 _).
exists d, s, f; split=> //.
have FF i k : (i < N)%N -> (k < N)%N -> finite (f i k) by move=> hi hk; have [] := FW i k hi hk.
pose L i l := rv (lfnS (S:=B64) f i l); pose U l k := rv (ufnS (S:=B64) f l k).
have hL i l : (i < N)%N -> (l < N)%N -> Rabs (L i l) <= 1.
  move=> hi hl; rewrite /L /lfnS; case: (ltnP l i) => li.
    by have [_] := FW i l hi hl; have -> : (i <= l)%N = false by [lia].
  case: eqP => _; first by rewrite [n_one _]/(b64_int 1) rv_int1 Rabs_R1; lra.
  by rewrite Rabs_R0; lra.
have hU l k : (l < N)%N -> (k < N)%N -> Rabs (U l k) <= W.
  move=> hl hk; rewrite /U /ufnS; case: (leqP l k) => lk; last by rewrite Rabs_R0.
  by have [_] := FW l k hl hk; rewrite lk.
have nW : rsumn N (fun=> W) = INR N * W by elim: (N) => [|c IH]; rewrite ?rsumn0 ?rsumnS ?IH ?S_INR /=; ring.
have := @diag_nonzero N (fun i j => rv (fn b64_zero A (q i) j)) L U (fun i l => fnR V i (q l)) (lu_error N W) K.
move=> H k hk; have := H _ _ _ _ hC k hk; rewrite /U /ufnS leqnn; apply.
- by move=> i j ji; rewrite /U /ufnS leqNgt ji.
- move=> i j hi hj; have := lu_back Hf Hpv FF hi hj; rewrite minnn -/N => h.
  have {}h : Rabs (rv (fn b64_zero A (q i) j) - rsumn N (fun l => L i l * U l j)) <=
     err N * rsumn N (fun l => Rabs (L i l) * Rabs (U l j)) + grow N * eta64 * (INR N + rsumn N (fun l => Rabs (U l j))) by exact: h.
  apply: Rle_trans h _; rewrite /lu_error.
  have s1 : rsumn N (fun l => Rabs (L i l) * Rabs (U l j)) <= INR N * W.
    rewrite -nW; apply: rsumn_le => l hl; rewrite -[X in _ <= X]Rmult_1_l.
    by apply: Rmult_le_compat; [exact: Rabs_pos|exact: Rabs_pos|apply: hL|apply: hU].
  have s2 : rsumn N (fun l => Rabs (U l j)) <= INR N * W by rewrite -nW; apply: rsumn_le => l hl; apply: hU.
  have e1 := Rmult_le_compat_l _ _ _ (err_ge0 N) s1.
  have ge : 0 <= grow N * eta64 by have := grow_ge1 N; have := eta64_gt0; nra.
  have e2 := Rmult_le_compat_l _ _ _ ge s2.
  lra.
- move=> i j hi hj; rewrite -[i]/(val (Ordinal hi)) -[j]/(val (Ordinal hj)).
  rewrite -(rsum_rsumn (F := fun l => V (Ordinal hi) (s l) * rv (A (s l) (Ordinal hj)))); last by move=> l; rewrite Hq fnRE fnE.
  by rewrite (rsum_perm s (fun l => V (Ordinal hi) l * rv (A l (Ordinal hj)))) hV.
move=> i hi; rewrite -[i]/(val (Ordinal hi)).
rewrite -(rsum_rsumn (F := fun l => Rabs (V (Ordinal hi) (s l)))); last by move=> l; rewrite Hq fnRE.
by rewrite (rsum_perm s (fun l => Rabs (V (Ordinal hi) l))).
Qed.

(*@section C63 well-conditioned systems are solved @*)

Lemma resid_le n k (L U : 'M[b64]_n.+1) (X : 'M[b64]_(n.+1, k.+1)) W i j : let N := n.+1 in 0 <= W ->
  (forall i j, Rabs (rv (L i j)) <= 1) -> (forall i j, Rabs (rv (U i j)) <= W) ->
  err (3 * n.+1) * (\rsum_(l < n.+1) (Rabs (rv (L i l)) * (\rsum_(p < n.+1) (Rabs (rv (U l p)) * Rabs (rv (X p j)))))) +
       grow (2 * n.+1) * eta64 *
         (INR n.+1 + (\rsum_(l < n.+1) (Rabs (rv (L i l)) * (INR n.+1 + Rabs (rv (U l l))))) +
          (\rsum_(p < n.+1) ((INR n.+1 + (\rsum_(l < n.+1) Rabs (rv (U l p)))) * Rabs (rv (X p j))))) <=
  solve_error N W (\rsum_(p < N) Rabs (rv (X p j))).
Proof.
move=> N W0 hL hU; set S := \rsum_(p < N) _.
have nC (c : R) : \rsum_(l < N) c = INR N * c.
  by rewrite -/(rsumn N (fun=> c)); elim: (N) => [|d IH]; rewrite ?rsumn0 ?rsumnS ?IH ?S_INR /=; ring.
have sC (c : R) : \rsum_(p < N) (c * Rabs (rv (X p j))) = c * S.
  by rewrite (rsum_rsumn (G := fun p => c * Rabs (rv (X (inord p) j)))) ?rsumn_scal => [|p]; rewrite ?inord_val // -(rsum_rsumn (F := fun p : 'I_N => Rabs (rv (X p j)))) // => p; rewrite inord_val.
have S0 : 0 <= S by apply: rsum_ge0 => p; apply: Rabs_pos.
have n0 := pos_INR N.
have a1 (l : 'I_N) : \rsum_(p < N) (Rabs (rv (U l p)) * Rabs (rv (X p j))) <= W * S.
  by rewrite -sC; apply: rsum_le => p; apply: Rmult_le_compat_r; [apply: Rabs_pos|apply: hU].
have b1 : \rsum_(l < N) (Rabs (rv (L i l)) * (\rsum_(p < N) (Rabs (rv (U l p)) * Rabs (rv (X p j))))) <= INR N * (W * S).
  rewrite -nC; apply: rsum_le => l; rewrite -[X in _ <= X]Rmult_1_l; apply: Rmult_le_compat => //; first exact: Rabs_pos.
  by apply: rsum_ge0 => p; apply: Rmult_le_pos; apply: Rabs_pos.
have b2 : \rsum_(l < N) (Rabs (rv (L i l)) * (INR N + Rabs (rv (U l l)))) <= INR N * (INR N + W).
  rewrite -nC; apply: rsum_le => l; rewrite -[X in _ <= X]Rmult_1_l; apply: Rmult_le_compat => //; first exact: Rabs_pos.
    by have := Rabs_pos (rv (U l l)); lra.
  by have := hU l l; lra.
have b3 : \rsum_(p < N) ((INR N + (\rsum_(l < N) Rabs (rv (U l p)))) * Rabs (rv (X p j))) <= (INR N + INR N * W) * S.
  rewrite -sC; apply: rsum_le => p; apply: Rmult_le_compat_r; first exact: Rabs_pos.
  by apply: Rplus_le_compat_l; rewrite -nC; apply: rsum_le => l.
have ge : 0 <= grow (2 * N) * eta64 by have := grow_ge1 (2 * N); have := eta64_gt0; nra.
have c1 := Rmult_le_compat_l _ _ _ (err_ge0 (3 * N)) b1.
have b23 := Rplus_le_compat _ _ _ _ (Rplus_le_compat_l (INR N) _ _ b2) b3.
have c2 := Rmult_le_compat_l _ _ _ ge b23.
apply: Rle_trans (Rplus_le_compat _ _ _ _ c1 c2) _; rewrite /solve_error; lra.
Qed.

Lemma rsum_scal n c (F : 'I_n -> R) : \rsum_(i < n) (c * F i) = c * \rsum_(i < n) F i.
Proof. by elim/big_rec2: _ => [|i x y _ ->]; ring. Qed.
Lemma rsum_sub n (F G : 'I_n -> R) : \rsum_(i < n) (F i - G i) = \rsum_(i < n) F i - \rsum_(i < n) G i.
Proof. by elim/big_rec3: _ => [|i x y z _ ->]; ring. Qed.

(** from the residual to the error *)
Lemma forward n k (A : 'M[b64]_n.+1) (B X : 'I_n.+1 -> 'I_k.+1 -> R) V K E (j : 'I_k.+1) :
  left_inverse V A -> (forall i, \rsum_(l < n.+1) Rabs (V i l) <= K) ->
  (forall i, Rabs (B i j - \rsum_(l < n.+1) (rv (A i l) * X l j)) <= E) ->
  forall i, Rabs (X i j - \rsum_(l < n.+1) (V i l * B l j)) <= K * E.
Proof.
move=> hV hK hE i.
have E0 : 0 <= E by apply: Rle_trans (Rabs_pos _) (hE ord0).
have ex : X i j = \rsum_(l < n.+1) (V i l * \rsum_(p < n.+1) (rv (A l p) * X p j)).
  have -> : \rsum_(l < n.+1) (V i l * \rsum_(p < n.+1) (rv (A l p) * X p j)) =
            \rsum_(l < n.+1) \rsum_(p < n.+1) (X p j * (V i l * rv (A l p))).
    by apply: eq_bigr => l _; rewrite -rsum_scal; apply: eq_bigr => p _; ring.
  rewrite exchange_big /= (eq_bigr (fun p => X p j * (if i == p then 1 else 0))); last first.
    by move=> p _; rewrite rsum_scal hV.
  rewrite (bigD1 i) //= eqxx big1 => [|p /negbTE np]; first by ring.
  by rewrite eq_sym np; ring.
have -> : X i j - \rsum_(l < n.+1) (V i l * B l j) = \rsum_(l < n.+1) (V i l * - (B l j - \rsum_(p < n.+1) (rv (A l p) * X p j))).
  by rewrite {1}ex -rsum_sub; apply: eq_bigr => l _; ring.
apply: Rle_trans (rsum_abs _) _.
apply: Rle_trans (_ : \rsum_(l < n.+1) (E * Rabs (V i l)) <= _).
  apply: rsum_le => l; rewrite Rmult_comm Rabs_mult Rabs_Ropp (Rmult_comm E); rewrite (Rmult_comm (Rabs _)).
  by apply: Rmult_le_compat_l; [apply: Rabs_pos|apply: hE].
rewrite rsum_scal.
by rewrite (Rmult_comm K); apply: Rmult_le_compat_l.
Qed.

(** solve and inverse at once *)
Lemma solve_cond gp g n k (A : 'M[b64]_n.+1) (b : nat -> nat -> b64) Mb M V K : let N := n.+1 in let W := lu_bound N M n in
  rep n.+1 k.+1 Mb b ->
  (forall i j, finite (A i j) /\ Rabs (rv (A i j)) <= M) -> W <= big64 ->
  left_inverse V A -> (forall i, \rsum_(l < N) Rabs (V i l) <= K) -> K * (INR N * lu_error N W) < 1 ->
  exists d, lu_new (S:=B64) gp (mat_of A) = Ok d /\ lu_is_non_singular d = Ok true /\
  exists X : 'M[b64]_(n.+1, k.+1), lu_solve (S:=B64) g d Mb = Ok (Some (mat_of X)) /\
    ((forall i j, finite (X i j)) -> forall (i : 'I_n.+1) (j : 'I_k.+1),
      Rabs (rv (X i j) - \rsum_(l < N) (V i l * rv (b l j))) <= K * solve_error N W (\rsum_(l < N) Rabs (rv (X l j)))).
Proof.
move=> N W HB hA hW hV hK hC.
have [d [s' [f [ed Hd FW dz]]]] := @diag64 gp n A M V K hA hW hV hK hC.
have [d' [s [L [U [ed' el eu H]]]]] := @solve64 gp g n k A b Mb HB.
move: ed'; rewrite ed => -[dd]; rewrite -dd in el eu H.
have W0 : 0 <= W by apply/lu_bound_ge0/(bound_ge0 hA).
have EL : L = lmx _ _ f.
  have := lu_get_l_ev Hd (ltn0Sn n) (ltn0Sn n) (fun=> b64_zero); rewrite minnn => hl.
  have h : lu_get_l (S:=B64) (fun=> b64_zero) d = Ok (mat_of (lmx n.+1 n.+1 f)) by apply: wp_mat_of hl _ => // i j; rewrite mxE.
  by move: (el (fun=> b64_zero)); rewrite h => -[]; rewrite -/(mat_of _) => h'; apply/esym/mat_of_inj; congr Mat.
have EU : U = umx _ _ f.
  have := lu_get_u_ev Hd (ltn0Sn n) (ltn0Sn n) (fun=> b64_zero); rewrite minnn => hl.
  have h : lu_get_u (S:=B64) (fun=> b64_zero) d = Ok (mat_of (umx n.+1 n.+1 f)) by apply: wp_mat_of hl _ => // i j; rewrite mxE.
  by move: (eu (fun=> b64_zero)); rewrite h => -[]; rewrite -/(mat_of _) => h'; apply/esym/mat_of_inj; congr Mat.
have fF i j : (i < N)%N -> (j < N)%N -> finite (f i j) by move=> hi hj; have [] := FW i j hi hj.
have nz j : (j < N)%N -> ~~ Beqb (f j j) b64_zero.
  by move=> hj; rewrite eqb0; [rewrite Req_bool_false //; apply: dz|exact: fF].
exists d; split=> //; split.
  rewrite (lu_is_non_singular_ev Hd) //; congr Ok; apply/allP => j; rewrite mem_iota => /andP [_ hj]; exact: nz.
have yes : [forall i, ~~ Beqb (U i i) b64_zero] by apply/forallP => i; rewrite EU mxE /ufnS leqnn; apply: nz.
rewrite yes in H; have [X [EX HX]] := H; exists X; split=> // fX i j.
have fL i' j' : finite (L i' j') /\ Rabs (rv (L i' j')) <= 1.
  rewrite EL mxE /lfnS; case: (ltnP j' i') => ji.
    by have := FW i' j' (ltn_ord i') (ltn_ord j'); have -> : (i' <= j')%N = false by [lia].
  case: eqP => _; first by rewrite [n_one _]/(b64_int 1) rv_int1 Rabs_R1; split=> //; lra.
  by split=> //; rewrite Rabs_R0; lra.
have fU i' j' : finite (U i' j') /\ Rabs (rv (U i' j')) <= W.
  rewrite EU mxE /ufnS; case: (leqP i' j') => ij; last by split=> //; rewrite Rabs_R0.
  by have := FW i' j' (ltn_ord i') (ltn_ord j'); rewrite ij.
have [_ hr] := HX (fun i j => (fL i j).1) (fun i j => (fU i j).1) fX.
apply: (@forward n k A (fun i j => rv (b i j)) (fun i j => rv (X i j)) V K _ j hV hK) => i'.
rewrite -(permKV s i'); have [_ h] := hr ((s^-1)%g i') j; apply: Rle_trans h _.
by apply: (resid_le X _ _ W0) => // i0 j0; [have [] := fL i0 j0|have [] := fU i0 j0].
Qed.

(*@doc C63: let A be an f64 matrix with |A| <= M and V its (real) inverse, with absolute row sums at most K.  If the growth
  that partial pivoting allows keeps W = lu_bound below 2^1023 and K times the rounding error of the factors is below 1
  (A is not singular to working accuracy), then the LU decomposition reports A as non-singular, solve returns a matrix X,
  and, when X is finite, X differs from the exact solution V B by at most K times the residual bound. *)
Lemma solve_well_conditioned_L : forall gp g n k (A : 'M[b64]_n.+1) (B : 'M[b64]_(n.+1, k.+1)) M V K,
  let W := lu_bound n.+1 M n in
  (forall i j, finite (A i j) /\ Rabs (rv (A i j)) <= M) -> W <= 2 ^ 1023 ->
  left_inverse V A -> (forall i, \rsum_(l < n.+1) Rabs (V i l) <= K) -> K * (INR n.+1 * lu_error n.+1 W) < 1 ->
  (exists d, lu_new (S:=B64) gp (mat_of A) = Ok d /\ lu_is_non_singular d = Ok true) /\
  exists X : 'M[b64]_(n.+1, k.+1), solve (S:=B64) gp g (mat_of A) (mat_of B) = Ok (Some (mat_of X)) /\
    ((forall i j, finite (X i j)) -> forall i j,
      Rabs (rv (X i j) - \rsum_(l < n.+1) (V i l * rv (B l j))) <=
      K * solve_error n.+1 W (\rsum_(l < n.+1) Rabs (rv (X l j)))).
Proof.
move=> gp g n k A B M V K W hA hW hV hK hC.
have [d [e [ens [X [eX hX]]]]] := @solve_cond gp g n k A _ _ M V K (mat_of_rep b64_zero B) hA hW hV hK hC.
split; first by exists d.
exists X; split; first by rewrite /solve e; cbn [bind].
move=> fX i j; have := hX fX i j.
by rewrite (eq_bigr (fun l => V i l * rv (B l j))) => [//|l _]; rewrite fnE.
Qed.

(*@doc C63: the same for inverse: its result is close to the inverse of A. *)
Lemma inverse_well_conditioned_L : forall gp g1 g2 n (A : 'M[b64]_n.+1) M V K,
  let W := lu_bound n.+1 M n in
  (forall i j, finite (A i j) /\ Rabs (rv (A i j)) <= M) -> W <= 2 ^ 1023 ->
  left_inverse V A -> (forall i, \rsum_(l < n.+1) Rabs (V i l) <= K) -> K * (INR n.+1 * lu_error n.+1 W) < 1 ->
  exists X : 'M[b64]_n.+1, inverse (S:=B64) gp g1 g2 (mat_of A) = Ok (Some (mat_of X)) /\
    ((forall i j, finite (X i j)) -> forall i j,
      Rabs (rv (X i j) - V i j) <= K * solve_error n.+1 W (\rsum_(l < n.+1) Rabs (rv (X l j)))).
Proof.
move=> gp g1 g2 n A M V K W hA hW hV hK hC.
have /wp_ex [I eI HI] := rep_id (N:=B64) g1 n.+1 n.+1.
have [d [e [ens [X [eX hX]]]]] := @solve_cond gp g2 n n A _ _ M V K HI hA hW hV hK hC.
exists X; split.
  rewrite /inverse (rep_cols (mat_of_rep b64_zero A)) //; cbn [bind]; rewrite (rep_no_rows (mat_of_rep b64_zero A)) eqxx.
  by cbn [require]; rewrite e; cbn [bind]; rewrite eI.
move=> fX i j; have := hX fX i j.
rewrite (eq_bigr (fun l => V i l * (if l == j then 1 else 0))) => [|l _]; last first.
  by rewrite -val_eqE; case: (val l == val j) => //; rewrite [n_one _]/(b64_int 1) rv_int1.
rewrite (bigD1 j) //= eqxx big1 => [|l /negbTE ->]; last by rewrite Rmult_0_r.
by rewrite Rmult_1_r Rplus_0_r.
Qed.

(*@example
(** the hypotheses are met by a matrix that needs a pivot: A = [0 1; 1 1], with inverse V = [-1 1; 1 0], M = 1 and K = 2 *)
Definition prio_mx : 'M[b64]_2 := (\matrix_(i, j) if (i == ord0) && (j == ord0) then b64_zero else b64_int 1)%R.
Definition prio_inv (i j : 'I_2) : R := if i == ord0 then (if j == ord0 then -1 else 1) else (if j == ord0 then 1 else 0).
Lemma prio_rv i j : rv (prio_mx i j) = if (i == ord0) && (j == ord0) then 0 else 1.
Proof. by rewrite mxE; case: ifP => _; rewrite ?rv_int1. Qed.
Lemma prio_grow : grow 3 <= 2 /\ err 2 <= / 256.
Proof. have := u64_lt1; have := u64_gt0; rewrite /err /grow /=; split; nra. Qed.
Example solve_well_conditioned_example : let W := lu_bound 2 1 1 in
  [/\ forall i j, finite (prio_mx i j) /\ Rabs (rv (prio_mx i j)) <= 1, W <= 2 ^ 1023,
      left_inverse prio_inv prio_mx, forall i, \rsum_(l < 2) Rabs (prio_inv i l) <= 2 & 2 * (INR 2 * lu_error 2 W) < 1].
Proof.
have [g3 e2] := prio_grow; have g1 := grow_ge1 3; have e0 := eta64_gt0.
have ue : eta64 <= / 1024 by apply: Rle_trans (Rlt_le _ _ u64_lt1); apply: Rinv_le_contravar; [apply: pow_lt; lra|apply: Rle_pow; [lra|lia]].
have W6 : lu_bound 2 1 1 <= 7.
  rewrite /lu_bound pow_1 (_ : INR 3 = 3); last by rewrite /=; ring.
  apply: Rle_trans (_ : 2 * 3 * (1 + 3 * / 1024) <= 7); last lra.
  by apply: Rmult_le_compat; [nra|lra| |lra]; apply: Rmult_le_compat; lra.
have W0 : 0 <= lu_bound 2 1 1.
  by rewrite /lu_bound pow_1; apply: Rmult_le_pos; [nra|have := pos_INR 3; nra].
have I2 : INR 2 = 2 by rewrite /=; ring.
split.
- move=> i j; split; first by rewrite mxE; case: ifP.
  by rewrite prio_rv; case: ifP => _; rewrite ?Rabs_R0 ?Rabs_R1; lra.
- apply: Rle_trans W6 _; apply: Rle_trans (_ : 2 ^ 3 <= _); first by rewrite /=; lra.
  by apply: Rle_pow; [lra|lia].
- move=> i j; rewrite big_ord_recl big_ord1 !prio_rv.
  by case: i => -[|[|i]] hi //; case: j => -[|[|j]] hj //; rewrite /prio_inv /=; lra.
- move=> i; rewrite big_ord_recl big_ord1.
  by case: i => -[|[|i]] hi //; rewrite /prio_inv /= ?Rabs_Ropp ?Rabs_R1 ?Rabs_R0; lra.
have g2 : grow 2 <= grow 3 by apply: grow_le.
have g20 := grow_ge1 2.
have e20 := err_ge0 2.
rewrite I2 /lu_error I2.
have a1 : err 2 * lu_bound 2 1 1 <= / 256 * 7 by apply: Rmult_le_compat.
have a2 : grow 2 * eta64 <= 2 * / 1024 by apply: Rmult_le_compat; lra.
have a3 : grow 2 * eta64 * (1 + lu_bound 2 1 1) <= 2 * / 1024 * 8.
  by apply: Rmult_le_compat; [apply: Rmult_le_pos; lra|lra|lra|lra].
lra.
Qed.
@*)
