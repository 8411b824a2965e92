(** * CholThms: proofs of the property theorems about cholesky.rs (restated in PropChol.v). *)
From mathcomp Require Import all_ssreflect all_algebra zify ring.
From mathcomp Require Import fingroup perm.
From Verif Require Import Base Scalar Hoare ModelMatrix ModelLU ModelCholesky Spec MatrixProofs MatrixThms LUProofs LUThms CholProofs.

Set Implicit Arguments.
Unset Strict Implicit.
Unset Printing Implicit Defensive.
Import Order.TTheory GRing.Theory Num.Theory.
Local Open Scope ring_scope.

Section Aux.
Variable F : rcfType.

Lemma chol_rows_factor n (A : 'M[F]_n) f : chol_rows n (fn 0 A) n f -> chol_factor A (mxf n n f).
Proof.
move=> [Hz Hpos Ha]; split.
- by move=> i j ij; rewrite mxE Hz // ij ltn_ord.
- by move=> i; rewrite mxE Hpos.
- have main (i k : 'I_n) : (k <= i)%N ->
     \sum_(l < n) f i l * f k l = A i k.
    move=> ki; rewrite (sum_fn n (fun l => f i l * f k l)) (@big_cat_nat _ _ _ k.+1) //=.
    rewrite [X in _ + X]big_nat [X in _ + X]big1 ?addr0; last first.
      by move=> l hl; rewrite (Hz k l) ?mulr0 //; lia.
    have hki : (k <= i < n)%N by rewrite ki ltn_ord.
    by have [<- _] := Ha i k hki; rewrite fnE.
  apply/matrixP => i k; rewrite mxE.
  rewrite (eq_bigr (fun l : 'I_n => f i l * f k l)); last by move=> l _; rewrite !mxE.
  case: (leqP k i) => ki; first exact: main.
  rewrite (eq_bigr (fun l : 'I_n => f k l * f i l)); last by move=> l _; rewrite mulrC.
  rewrite main; last exact: ltnW.
  have [|_ ] := Ha k i _; first by rewrite (ltnW ki) ltn_ord.
  by rewrite !fnE.
Qed.

Lemma factor_unit n (A L : 'M[F]_n) : chol_factor A L -> L \in unitmx.
Proof.
move=> [Hl Hp _]; rewrite unitmxE unitfE det_trig; last by apply/is_trig_mxP.
by apply/prodf_neq0 => i _; rewrite gt_eqF.
Qed.

Lemma sqnorm_gt0 n (x : 'rV[F]_n) : x != 0 -> 0 < (x *m x^T) 0 0.
Proof.
move=> x0; rewrite mxE lt_neqAle sumr_ge0 ?andbT; last first.
  by move=> i _; rewrite mxE -expr2 sqr_ge0.
rewrite eq_sym; apply: contra x0 => /eqP h.
have /psumr_eq0P H : forall i : 'I_n, true -> 0 <= x 0 i * x^T i 0.
  by move=> i _; rewrite mxE -expr2 sqr_ge0.
apply/eqP/matrixP => i j; rewrite ord1 mxE.
by have := H h j isT; rewrite mxE -expr2 => /eqP; rewrite sqrf_eq0 => /eqP.
Qed.

Lemma factor_posdef n (A L : 'M[F]_n) : chol_factor A L -> posdef A.
Proof.
move=> HL; have Lu := factor_unit HL; case: HL => _ _ <-; split.
  by rewrite trmx_mul trmxK.
move=> x x0; rewrite mulmxA -mulmxA -trmx_mul; apply: sqnorm_gt0.
apply: contra x0 => /eqP /(congr1 (mulmx^~ (invmx L))).
by rewrite mulmxK // mul0mx => /eqP.
Qed.

(** solving a lower triangular system from the right *)
Lemma tri_solve j (f : nat -> nat -> F) (w : nat -> F) :
  (forall i k, (i < j)%N -> (i < k < j)%N -> f i k = 0) -> (forall i, (i < j)%N -> 0 < f i i) ->
  exists y : nat -> F, forall l, (l < j)%N -> \sum_(0 <= k < j) y k * f k l = w l.
Proof.
move=> Hz Hp; pose L := mxf j j f.
have Lu : L \in unitmx.
  rewrite unitmxE unitfE det_trig.
    by apply/prodf_neq0 => i _; rewrite mxE gt_eqF ?Hp.
  by apply/is_trig_mxP => i k ik; rewrite mxE Hz // ik ltn_ord.
have [Y HY] : exists Y : 'rV[F]_j, Y *m L = \row_l w l.
  by exists ((\row_l w l) *m invmx L); rewrite mulmxKV.
exists (fun k => fn 0 Y 0%N k) => l hl.
move/matrixP/(_ ord0 (Ordinal hl)): HY; rewrite !mxE /= => <-.
rewrite -(sum_fn j (fun k => fn 0 Y 0%N k * f k l)).
by apply: eq_bigr => k _; rewrite !mxE -(fnE 0 Y).
Qed.

Lemma fail_not_posdef n (A : 'M[F]_n) : chol_fail n (fn 0 A) -> ~ posdef A.
Proof.
case=> [[i [k [hi hk asym]]] [/matrixP sym _]|[j [f [jn [[Hz Hpos Ha] Hp] hle]]] [_ pd]].
  move/eqP: asym; apply; rewrite (fn_lt _ _ hi hk) (fn_lt _ _ hk hi).
  by rewrite -[RHS]sym mxE.
set a := fn 0 A in Ha Hp hle.
have [y Hy] : exists y : nat -> F, forall l, (l < j)%N -> \sum_(0 <= k < j) y k * f k l = - f j l.
  by apply: tri_solve => // i k ij hk; apply: Hz => //; lia.
have aE i k : (i < j)%N -> (k < j)%N -> a i k = \sum_(0 <= l < j) f i l * f k l.
  have main i' k' : (i' < j)%N -> (k' <= i')%N -> a i' k' = \sum_(0 <= l < j) f i' l * f k' l.
    move=> hi hk; have [|-> _] := Ha i' k' _; first by rewrite hk.
    rewrite [RHS](@big_cat_nat _ _ _ k'.+1) //=; last by lia.
    rewrite [X in _ + X]big_nat [X in _ + X]big1 ?addr0 // => l hl.
    by rewrite (Hz k' l) ?mulr0 //; lia.
  move=> hi hk; case: (leqP k i) => ki; first exact: main.
  have [|_ <-] := Ha k i _; first by lia.
  by rewrite main //; [apply: eq_bigr => l _; rewrite mulrC|lia].
have ajE k : (k < j)%N -> a j k = \sum_(0 <= l < j) f j l * f k l /\ a j k = a k j.
  move=> hk; have [e1 e2] := Hp k hk; split=> //; rewrite e1.
  rewrite [RHS](@big_cat_nat _ _ _ k.+1) //=.
  rewrite [X in _ + X]big_nat [X in _ + X]big1 ?addr0 // => l hl.
  by rewrite (Hz k l) ?mulr0 //; lia.
pose x : 'rV[F]_n := \row_k (if (k < j)%N then y k else (k == j :> nat)%:R).
have sumx (g : nat -> F) : \sum_(k < n) x 0 k * g k = \sum_(0 <= k < j) y k * g k + g j.
  rewrite (eq_bigr (fun k : 'I_n => (if (k < j)%N then y k else (k == j :> nat)%:R) * g k)); last first.
    by move=> k _; rewrite mxE.
  rewrite (sum_fn n (fun k => (if (k < j)%N then y k else (k == j)%:R) * g k)).
  rewrite (@big_cat_nat _ _ _ j) //=; last exact: ltnW.
  congr (_ + _); first by apply: eq_big_nat => l /andP[_ ->].
  rewrite big_ltn // ltnn eqxx mul1r big_nat big1 ?addr0 // => l hl.
  by have -> : (l < j)%N = false by [lia]; have -> : (l == j) = false by [lia]; rewrite mul0r.
have x0 : x != 0.
  apply/eqP => /matrixP/(_ ord0 (Ordinal jn)); rewrite !mxE /= ltnn eqxx => /eqP.
  by rewrite oner_eq0.
have := pd x x0; suff -> : (x *m A *m x^T) 0 0 = a j j - \sum_(0 <= l < j) f j l * f j l.
  by rewrite subr_gt0 ltNge hle.
have swap (g : nat -> F) : \sum_(0 <= k < j) y k * (\sum_(0 <= l < j) g l * f k l) =
     - \sum_(0 <= l < j) g l * f j l.
  under eq_bigr do rewrite mulr_sumr.
  rewrite exchange_big /= -sumrN; apply: eq_big_nat => l /andP[_ hl].
  rewrite -mulrN -(Hy l hl) mulr_sumr; apply: eq_bigr => k _.
  by rewrite mulrCA.
rewrite -mulmxA mxE.
have -> : \sum_(i < n) x 0 i * (A *m x^T) i 0 = \sum_(i < n) x 0 i * (\sum_(k < n) x 0 k * a i k).
  apply: eq_bigr => i _; congr (_ * _); rewrite mxE; apply: eq_bigr => k _.
  by rewrite mxE mulrC /a fnE.
rewrite (sumx (fun i => \sum_(k < n) x 0 k * a i k)) big_nat big1 ?add0r.
  rewrite (sumx (fun k => a j k)) addrC; congr (_ + _).
  rewrite -(swap (fun l => f j l)); apply: eq_big_nat => k /andP[_ hk].
  by have [-> _] := ajE k hk.
move=> i /andP[_ hi]; rewrite (sumx (fun k => a i k)).
have -> : \sum_(0 <= k < j) y k * a i k = - \sum_(0 <= l < j) f i l * f j l.
  rewrite -(swap (fun l => f i l)); apply: eq_big_nat => k /andP[_ hk].
  by rewrite aE.
have [e1 <-] := ajE i hi; rewrite e1.
by rewrite (eq_bigr (fun l => f j l * f i l)) ?addNr ?mulr0 // => l _; rewrite mulrC.
Qed.

Lemma factor_uniq n (A L L' : 'M[F]_n) : chol_factor A L -> chol_factor A L' -> L = L'.
Proof.
move=> [Hl Hp HA] [Hl' Hp' HA'].
have sumL (K : 'M[F]_n) (i k : 'I_n) : lower K -> (k <= i)%N ->
    (K *m K^T) i k = \sum_(l < n | (l < k)%N) K i l * K k l + K i k * K k k.
  move=> HK ki; rewrite mxE (eq_bigr (fun l => K i l * K k l)); last by move=> l _; rewrite mxE.
  rewrite (bigID (fun l : 'I_n => (l < k)%N)) /=; congr (_ + _).
  rewrite (bigD1 k) ?ltnn //= big1 ?addr0 // => l /andP[h1 h2].
  by rewrite (HK k l) ?mulr0 //; move: h1 h2; rewrite -val_eqE /=; lia.
suff main : forall N (i : 'I_n), (i < N)%N -> forall N' (k : 'I_n), (k < N')%N -> L i k = L' i k.
  by apply/matrixP => i k; apply: (main i.+1 i _ k.+1 k).
elim=> [//|N IH] i hi; elim=> [//|N' IH'] k hk.
case: (ltnP i k) => ik; first by rewrite Hl // Hl'.
have E : (L *m L^T) i k = (L' *m L'^T) i k by rewrite HA HA'.
rewrite !sumL // in E.
have E1 : \sum_(l < n | (l < k)%N) L i l * L k l = \sum_(l < n | (l < k)%N) L' i l * L' k l.
  apply: eq_bigr => l hl; rewrite (IH' l); last by lia.
  case: (altP (k =P i)) => [->|ne]; first by rewrite (IH' l) //; lia.
  rewrite (IH k _ n l) //; move: ne ik hi; rewrite -val_eqE /=; lia.
rewrite E1 in E; move/addrI: E => E.
case: (altP (k =P i)) E => [->|ne] E.
  have /eqP : L i i ^+ 2 = L' i i ^+ 2 by rewrite !expr2.
  by rewrite eqr_expn2 // ?ltW // => /eqP.
have Ek : L k k = L' k k.
  apply: (IH k _ n k) => //; move: ne ik hi; rewrite -val_eqE /=; lia.
by rewrite Ek in E; apply: (mulIf _ E); rewrite gt_eqF.
Qed.

End Aux.

(*@section C23 Cholesky factorisation @*)
(*@doc C23: a decomposition is returned exactly when a Cholesky factor exists, and it is that factor
    (so it is unique). *)
Lemma chol_some_L : forall (F : rcfType) (eps tiny : F) n (A : 'M[F]_n.+1) g M,
  chol_new (S:=exactE eps tiny) g (mat_of A) = Ok (Some M) <->
  exists2 L : 'M[F]_n.+1, chol_get_l M = mat_of L & chol_factor A L.
Proof.
move=> F eps tiny n A g M.
have /wp_ex [r -> H] := @chol_new_ok F eps tiny _ _ _ (mat_of_rep 0 A) g (ltn0Sn _).
split.
  case=> e; move: H; rewrite e => -[f HL Hr]; exists (mxf n.+1 n.+1 f); first exact: rep_matrix.
  exact: chol_rows_factor.
case=> L e HL; case: r H => [L'|] H; last by case: (fail_not_posdef H); apply: factor_posdef HL.
case: H => f HL' Hr; congr (Ok (Some _)).
rewrite (rep_matrix HL'); move: e; rewrite /chol_get_l => ->.
by congr mat_of; apply: factor_uniq (chol_rows_factor Hr) HL.
Qed.

(*@doc C23: None is returned exactly when the matrix is not symmetric positive definite. *)
Lemma chol_none_L : forall (F : rcfType) (eps tiny : F) n (A : 'M[F]_n.+1) g,
  chol_new (S:=exactE eps tiny) g (mat_of A) = Ok None <-> ~ posdef A.
Proof.
move=> F eps tiny n A g.
have /wp_ex [r -> H] := @chol_new_ok F eps tiny _ _ _ (mat_of_rep 0 A) g (ltn0Sn _).
split; first by case=> e; move: H; rewrite e; apply: fail_not_posdef.
case: r H => [L [f HL Hr]|//] npd; case: npd.
exact: factor_posdef (chol_rows_factor Hr).
Qed.

(*@doc C23: it always returns one or the other (no panic, no division by zero, no root of a negative number). *)
Lemma chol_total_L : forall (F : rcfType) (eps tiny : F) n (A : 'M[F]_n.+1) g,
  exists r, chol_new (S:=exactE eps tiny) g (mat_of A) = Ok r.
Proof.
move=> F eps tiny n A g.
by have /wp_ex [r -> _] := @chol_new_ok F eps tiny _ _ _ (mat_of_rep 0 A) g (ltn0Sn _); exists r.
Qed.

(*@doc C23: positive definite matrices are exactly those with a Cholesky factor. *)
Lemma posdef_iff_L : forall (F : rcfType) n (A : 'M[F]_n.+1),
  posdef A <-> exists L, chol_factor A L.
Proof.
move=> F n A; split; last by case=> L; apply: factor_posdef.
move=> pd; have [r e] := @chol_total_L F 0 0 n A (fun _ => 0).
case: r e => [M|] e; last by move/chol_none_L: e.
by move/chol_some_L: e => [L _ HL]; exists L.
Qed.

(*@doc C23: non-square matrices give None. *)
Lemma chol_nonsquare_L : forall (S : scalar) m n (A : 'M[S]_(m.+1, n.+1)) g,
  m <> n -> chol_new g (mat_of A) = Ok None.
Proof.
move=> S m n A g ne; rewrite /chol_new (rep_cols (mat_of_rep (n_zero S) A)) //=.
by rewrite eqSS; case: eqP.
Qed.

(*@doc C23: the factor is unique. *)
Lemma chol_unique_L : forall (F : rcfType) n (A L L' : 'M[F]_n),
  chol_factor A L -> chol_factor A L' -> L = L'.
Proof. exact: factor_uniq. Qed.

(*@section C24 Cholesky solve @*)
(*@doc C24: solve returns the solution of A X = B. *)
Lemma chol_solve_ok_L : forall (F : rcfType) (eps tiny : F) n k (A : 'M[F]_n.+1) (B : 'M[F]_(n.+1, k.+1)) g M,
  chol_new (S:=exactE eps tiny) g (mat_of A) = Ok (Some M) ->
  exists2 X : 'M[F]_(n.+1, k.+1), chol_solve M (mat_of B) = Ok (mat_of X) & A *m X = B.
Proof.
move=> F eps tiny n k A B g M /chol_some_L [L]; rewrite /chol_get_l => -> HL.
have [Hlow Hpos HA] := HL.
have Hl := mat_of_rep 0 L; have HB := mat_of_rep 0 B.
case: (Hl) => _ Hl'; case: (HB) => _ HB'.
have nz i : (i < n.+1)%N -> fn 0 L i i != 0 by move=> hi; rewrite (fn_lt _ _ hi hi) gt_eqF.
suff /wp_ex [X -> [Z HX HZ]] : wp (chol_solve (S:=exactE eps tiny) (mat_of L) (mat_of B))
    (fun M => exists2 X : 'M[F]_(n.+1, k.+1), M = mat_of X & A *m X = B) by exists Z; rewrite ?HX.
rewrite /chol_solve (rep_cols HB) // /rows (rep_no_rows Hl) (rep_no_rows HB) eqxx.
cbn [bind require].
have H1 := @chol_forward_ok F eps tiny _ _ _ _ Hl' nz _ _ HB'.
apply: wpe_bind; apply: wpe_mono H1 => x1 [y Hy Ey].
have H2 := @chol_backward_ok F eps tiny _ _ _ _ Hl' nz _ _ Hy.
apply: wpe_bind; apply: wpe_mono H2 => x2 [z Hz Ez].
apply: wpe_mono (new_rep (ltn0Sn _) (ltn0Sn _) Hz) => X HX.
exists (mxf _ _ z); first exact: rep_matrix.
rewrite -HA -mulmxA; have -> : L^T *m mxf n.+1 k.+1 z = mxf n.+1 k.+1 y.
  apply/matrixP => i j; rewrite !mxE (Ez i j) //.
  rewrite (eq_bigr (fun l : 'I_n.+1 => fn 0 L l i * z l j)); last by move=> l _; rewrite !mxE fnE.
  rewrite (sum_fn n.+1 (fun l => fn 0 L l i * z l j)) [LHS](@big_cat_nat _ _ _ i) //=; last exact: ltnW.
  rewrite big_nat big1 ?add0r // => l /andP[_ hl].
  have hl' : (l < n.+1)%N by have := ltn_ord i; lia.
  by rewrite (fn_lt _ _ hl' (ltn_ord i)) Hlow ?mul0r.
apply/matrixP => i j; rewrite mxE; have := Ey i j (ltn_ord i) (ltn_ord j); rewrite fnE => ->.
rewrite (eq_bigr (fun l : 'I_n.+1 => fn 0 L i l * y l j)); last by move=> l _; rewrite !mxE fnE.
rewrite (sum_fn n.+1 (fun l => fn 0 L i l * y l j)) [LHS](@big_cat_nat _ _ _ i.+1) //=.
rewrite [X in _ + X]big_nat [X in _ + X]big1 ?addr0 // => l hl.
have hl' : (l < n.+1)%N by lia.
by rewrite (fn_lt _ _ (ltn_ord i) hl') Hlow ?mul0r //=; lia.
Qed.

(*@doc C24: solve panics iff the row counts differ. *)
Lemma chol_solve_panics_L : forall (S : scalar) n m k (L : 'M[S]_n.+1) (B : 'M[S]_(m, k)),
  m <> n.+1 -> chol_solve (mat_of L) (mat_of B) = Err Panic.
Proof. by move=> S n m k L B ne; rewrite /chol_solve /= eq_sym; case: eqP. Qed.

(*@doc C24, C45: Cholesky and LU agree on positive definite systems. *)
Lemma chol_solve_lu_L : forall (F : rcfType) (eps tiny : F) n k (A : 'M[F]_n.+1) (B : 'M[F]_(n.+1, k.+1)) g gp g' M,
  chol_new (S:=exactE eps tiny) g (mat_of A) = Ok (Some M) ->
  solve (S:=exactE eps tiny) gp g' (mat_of A) (mat_of B) =
  bind (chol_solve M (mat_of B)) (fun X => Ok (Some X)).
Proof.
move=> F eps tiny n k A B g gp g' M HM; have [X -> /= HX] := chol_solve_ok_L B HM.
apply/solve_sound_L; split; last by exists X.
move/chol_some_L: HM => [L _ HL]; have Lu := factor_unit HL; case: HL => _ _ <-.
by rewrite det_mulmx det_tr mulf_neq0 // -unitfE -unitmxE.
Qed.

(*@doc C45: the determinant of a positive definite matrix from its Cholesky factor. *)
Lemma chol_det_L : forall (F : rcfType) (eps tiny : F) n (A L : 'M[F]_n.+1) g gp,
  chol_new (S:=exactE eps tiny) g (mat_of A) = Ok (Some (mat_of L)) ->
  det (S:=exactE eps tiny) gp (mat_of A) = Ok ((\prod_i L i i) ^+ 2).
Proof.
move=> F eps tiny n A L g gp /chol_some_L [L']; rewrite /chol_get_l => /mat_of_inj <- [Hl _ <-].
by rewrite det_ok_L det_mulmx det_tr expr2 det_trig //; apply/is_trig_mxP.
Qed.

(*@example
(** the hypotheses are met: the decomposition of a non-diagonal positive definite matrix [4 2; 2 2] is [2 0; 1 1] *)
Example chol_example (F : rcfType) (eps tiny : F) g :
  let L : 'M[F]_2 := \matrix_(i, j) (if (j <= i)%N then if (val i == 0)%N then 2%:R else 1 else 0) in
  chol_new (S:=exactE eps tiny) g (mat_of (L *m L^T)) = Ok (Some (mat_of L)).
Proof.
move=> L; apply/chol_some; exists L => //; split=> //.
- by move=> i j ij; rewrite mxE leqNgt ij.
- by move=> i; rewrite mxE leqnn; case: ifP; rewrite ?ltr0n ?ltr01.
Qed.
Example chol_example_none (F : rcfType) (eps tiny : F) g :
  chol_new (S:=exactE eps tiny) g (mat_of (0 : 'M[F]_2)) = Ok None.
Proof.
apply/chol_none => -[_ /(_ (const_mx 1))].
rewrite mulmx0 mul0mx mxE ltxx => H; suff : false by []; apply: H.
apply/eqP => /matrixP/(_ ord0 ord0); rewrite !mxE => /eqP; by rewrite oner_eq0.
Qed.
@*)
