(** * (generated by tools/gen32.py from FloatLUThms.v) Float32LUThms: LU decomposition, solve and inverse in f32 (C51, C52) *)
From Coq Require Import ZArith Reals Lra Psatz.
From Flocq Require Import Core BinarySingleNaN.
From mathcomp Require Import all_ssreflect all_algebra zify.
From mathcomp Require Import fingroup perm.
From Verif Require Import Base Scalar Hoare ModelMatrix ModelLU Spec MatrixProofs MatrixProofs2 LUProofs LUEval B32 SpecFloat32 Float32Base Float32LU.

Set Implicit Arguments.
Unset Strict Implicit.
Unset Printing Implicit Defensive.
Local Open Scope R_scope.

Lemma b32_lt_irrS (x : B32) : ~~ s_ltb x x. Proof. exact: b32_lt_irr. Qed.
Lemma b32_lt_trS (a b c : B32) : s_ltb a b -> ~~ s_ltb a c -> ~~ s_ltb b c. Proof. exact: b32_lt_tr. Qed.

(** what lu_new leaves behind *)
Lemma lu_new64 gp m n (A : 'M[b32]_(m.+1, n.+1)) :
  exists d (s : 'S_m.+1) (f : nat -> nat -> b32) (q : nat -> nat),
  [/\ lu_new (S:=B32) gp (mat_of A) = Ok d,
      rep m.+1 n.+1 (lu d) f, piv d = perm_list s, (forall i : 'I_m.+1, q i = s i) &
  [/\ forall i k, (i < m.+1)%N -> (k < n.+1)%N -> f i k = lu_entry (S:=B32) bdiv (fn b32_zero A) f q i k,
      forall i k, (k < n.+1)%N -> (k <= i < m.+1)%N ->
        ~~ Bltb (Babs (lu_num (S:=B32) (fn b32_zero A) f q k k)) (Babs (lu_num (S:=B32) (fn b32_zero A) f q i k)) &
      pospivsign d = ~~ odd_perm s]].
Proof.
have H := mat_of_rep b32_zero A.
have /wp_ex [d e [s [f [q [H1 H2 H3 H4 [H5 H6]]]]]] :=
  lu_new_ev (S:=B32) bdivE b32_lt_irrS b32_lt_trS gp H (ltn0Sn m) (ltn0Sn n).
by exists d, s, f, q.
Qed.

Definition lmx m n (f : nat -> nat -> b32) : 'M[b32]_(m, n) := (\matrix_(i, j) lfnS (S:=B32) f i j)%R.
Definition umx m n (f : nat -> nat -> b32) : 'M[b32]_(m, n) := (\matrix_(i, j) ufnS (S:=B32) f i j)%R.

Lemma f_finite m n f : (forall i j, finite (lmx m (minn m n) f i j)) -> (forall i j, finite (umx (minn m n) n f i j)) ->
  forall i k, (i < m)%N -> (k < n)%N -> finite (f i k).
Proof.
move=> fl fu i k hi hk; case: (leqP i k) => ik.
  have h : (i < minn m n)%N by lia.
  by have := fu (Ordinal h) (Ordinal hk); rewrite mxE /ufnS /= ik.
have h : (k < minn m n)%N by lia.
by have := fl (Ordinal hi) (Ordinal h); rewrite mxE /lfnS /= ik.
Qed.

Lemma rsum_rsumn n (F : 'I_n -> R) (G : nat -> R) : (forall i : 'I_n, F i = G i) -> \rsum_(i < n) F i = rsumn n G.
Proof. by move=> h; apply: eq_bigr. Qed.

(*@section C62 (C51 in f32) LU decomposition in f32 @*)

(*@doc C62 (C51 in f32): for every f32 matrix (NaN and infinities included) LUDecomposition::new and the getters succeed; L is unit
  lower trapezoidal and U upper trapezoidal.  When the elements of L and U are finite, so are those of A, |L| <= 1, and the
  product L U reproduces the permuted matrix with the error bound of the standard backward error analysis: relative to
  |L||U| by (1+u)^r - 1, r = min(m,n), plus an underflow term. *)
Lemma lu_rounding_f32_L : forall gp m n (A : 'M[b32]_(m.+1, n.+1)),
  exists (d : lu_decomp B32) (s : 'S_m.+1)
         (L : 'M[b32]_(m.+1, minn m.+1 n.+1)) (U : 'M[b32]_(minn m.+1 n.+1, n.+1)),
  [/\ lu_new (S:=B32) gp (mat_of A) = Ok d,
      forall g, lu_get_l g d = Ok (mat_of L),
      forall g, lu_get_u g d = Ok (mat_of U),
      lu_get_piv d = perm_list s &
  [/\ forall (i : 'I_m.+1) (j : 'I_(minn m.+1 n.+1)), (i < j)%N -> L i j = b32_zero,
      forall (i : 'I_m.+1) (j : 'I_(minn m.+1 n.+1)), i = j :> nat -> L i j = b32_int 1,
      forall (i : 'I_(minn m.+1 n.+1)) (j : 'I_n.+1), (j < i)%N -> U i j = b32_zero &
  (forall i j, finite (L i j)) -> (forall i j, finite (U i j)) ->
  let r := minn m.+1 n.+1 in
  [/\ forall i j, finite (A i j), forall i j, Rabs (rv (L i j)) <= 1 &
      forall i j, Rabs (rv (A (s i) j) - (\rsum_(l < r) (rv (L i l) * rv (U l j)))) <=
        err r * (\rsum_(l < r) (Rabs (rv (L i l)) * Rabs (rv (U l j)))) +
        grow r * eta32 * (INR r + (\rsum_(l < r) Rabs (rv (U l j))))]]].
Proof.
move=> gp m n A; have [d [s [f [q [e Hd Hp Hq [Hf Hpv _]]]]]] := lu_new64 gp A.
exists d, s, (lmx _ _ f), (umx _ _ f); split=> //.
- by move=> g; apply: wp_mat_of (lu_get_l_ev Hd _ _ g) _ => // i j; rewrite mxE.
- by move=> g; apply: wp_mat_of (lu_get_u_ev Hd _ _ g) _ => // i j; rewrite mxE.
split.
- move=> i j ij; rewrite mxE /lfnS ltnNge ltnW //=.
  by have -> : (i == j :> nat) = false by lia.
- by move=> i j ij; rewrite mxE /lfnS ij ltnn eqxx.
- by move=> i j ij; rewrite mxE /ufnS leqNgt ij.
move=> fl fu r; have FF := f_finite fl fu; split.
- move=> i j; rewrite -(permKV s i); have := @a_fin _ _ _ _ _ Hf Hpv FF (s^-1 i)%g j (ltn_ord _) (ltn_ord _).
  by rewrite Hq fnE.
- move=> i j; rewrite mxE /lfnS; case: (ltnP j i) => ji.
    by apply: (l_le1 Hf Hpv FF) => //; have := ltn_ord j; lia.
  case: eqP => _; first by rewrite [n_one _]/(b32_int 1) rv_int1 Rabs_R1; lra.
  by rewrite Rabs_R0; lra.
move=> i j; have := lu_back Hf Hpv FF (ltn_ord i) (ltn_ord j); rewrite Hq fnE.
rewrite (rsum_rsumn (G := fun l => rv (lfnS (S:=B32) f i l) * rv (ufnS (S:=B32) f l j))); last by move=> l; rewrite !mxE.
rewrite (rsum_rsumn (G := fun l => Rabs (rv (lfnS (S:=B32) f i l)) * Rabs (rv (ufnS (S:=B32) f l j)))); last by move=> l; rewrite !mxE.
by rewrite (rsum_rsumn (G := fun l => Rabs (rv (ufnS (S:=B32) f l j)))); last by move=> l; rewrite !mxE.
Qed.

(*@section C62 (C52 in f32) solve and inverse in f32 @*)

(** the residual of one right-hand side *)
Lemma solve64 gp g n k (A : 'M[b32]_n.+1) (b : nat -> nat -> b32) M : rep n.+1 k.+1 M b ->
  exists (d : lu_decomp B32) (s : 'S_n.+1) (L U : 'M[b32]_n.+1),
  [/\ lu_new (S:=B32) gp (mat_of A) = Ok d,
      forall g, lu_get_l g d = Ok (mat_of L),
      forall g, lu_get_u g d = Ok (mat_of U) &
  if [forall i, ~~ Beqb (U i i) b32_zero] then
    exists X : 'M[b32]_(n.+1, k.+1), lu_solve (S:=B32) g d M = Ok (Some (mat_of X)) /\
    ((forall i j, finite (L i j)) -> (forall i j, finite (U i j)) -> (forall i j, finite (X i j)) ->
     (forall i j, finite (A i j)) /\ forall (i : 'I_n.+1) (j : 'I_k.+1), finite (b (s i) j) /\
     Rabs (rv (b (s i) j) - (\rsum_(l < n.+1) (rv (A (s i) l) * rv (X l j)))) <=
       err (3 * n.+1) * (\rsum_(l < n.+1) (Rabs (rv (L i l)) * (\rsum_(p < n.+1) (Rabs (rv (U l p)) * Rabs (rv (X p j)))))) +
       grow (2 * n.+1) * eta32 *
         (INR n.+1 + (\rsum_(l < n.+1) (Rabs (rv (L i l)) * (INR n.+1 + Rabs (rv (U l l))))) +
          (\rsum_(p < n.+1) ((INR n.+1 + (\rsum_(l < n.+1) Rabs (rv (U l p)))) * Rabs (rv (X p j))))))
  else lu_solve (S:=B32) g d M = Ok None].
Proof.
move=> HB; have [d [s [f [q [e Hd Hp Hq [Hf Hpv _]]]]]] := lu_new64 gp A.
exists d, s, (lmx _ _ f), (umx _ _ f); split=> //.
- move=> g'; have := lu_get_l_ev Hd (ltn0Sn n) (ltn0Sn n) g'; rewrite minnn => hl.
  by apply: wp_mat_of hl _ => // i j; rewrite mxE.
- move=> g'; have := lu_get_u_ev Hd (ltn0Sn n) (ltn0Sn n) g'; rewrite minnn => hu.
  by apply: wp_mat_of hu _ => // i j; rewrite mxE.
have := lu_solve_ev (S:=B32) bdivE g erefl (ltn0Sn n) (ltn0Sn k) Hd Hp Hq HB.
have -> : all (fun j => ~~ s_eqb (s:=B32) (f j j) (n_zero B32)) (iota 0 n.+1) = [forall i, ~~ Beqb (umx n.+1 n.+1 f i i) b32_zero].
  apply/allP/forallP => [h i|h i]; first by rewrite mxE /ufnS leqnn; apply: h; rewrite mem_iota /=.
  by rewrite mem_iota add0n => /= hi; have := h (Ordinal hi); rewrite mxE /ufnS leqnn.
case: (boolP [forall i, _]) => // nz [X [y [z [E HX Hy Hz]]]].
exists (\matrix_(i, j) z i j)%R; rewrite -(rep_matrix HX); split=> // fl fu fx.
have FF : forall i k, (i < n.+1)%N -> (k < n.+1)%N -> finite (f i k).
  by apply: f_finite; rewrite minnn.
have Fz i j : (i < n.+1)%N -> (j < k.+1)%N -> finite (z i j).
  by move=> hi hj; have := fx (Ordinal hi) (Ordinal hj); rewrite mxE.
split.
  move=> i j; rewrite -(permKV s i); have := @a_fin _ _ _ _ _ Hf Hpv FF (s^-1 i)%g j (ltn_ord _) (ltn_ord _).
  by rewrite Hq fnE.
move=> i j; pose bb i := b (q i) j.
have Hy' i' : (i' < n.+1)%N -> y i' j = chain (S:=B32) (bb i') (iota 0 i') (fun l => y l j) (f i').
  by move=> hi; apply: Hy.
have Hz' i' : (i' < n.+1)%N -> z i' j = bdiv (chain (S:=B32) (y i' j) (rev (iota i'.+1 (n.+1 - i'.+1))) (fun l => z l j) (f i')) (f i' i').
  by move=> hi; apply: Hz.
have Fz' i' : (i' < n.+1)%N -> finite (z i' j) by move=> hi; apply: Fz.
split; first by have := @b_fin n.+1 f bb (fun l => y l j) (fun l => z l j) FF Hy' Hz' Fz' i (ltn_ord i); rewrite /bb Hq.
have := @solve_err n.+1 (fn b32_zero A) f q bb (fun l => y l j) (fun l => z l j) Hf Hpv FF Hy' Hz' Fz' i (ltn_ord i).
rewrite /bb Hq.
rewrite (rsum_rsumn (G := fun l => rv (fn b32_zero A (s i) l) * rv (z l j))); last by move=> l; rewrite fnE !mxE.
rewrite (rsum_rsumn (G := fun l => Rabs (rv (lfnS (S:=B32) f i l)) * rsumn n.+1 (fun p => Rabs (rv (ufnS (S:=B32) f l p)) * Rabs (rv (z p j))))); last first.
  by move=> l; rewrite mxE; congr (_ * _); apply: rsum_rsumn => p; rewrite !mxE.
rewrite (rsum_rsumn (G := fun l => Rabs (rv (lfnS (S:=B32) f i l)) * (INR n.+1 + Rabs (rv (ufnS (S:=B32) f l l))))); last by move=> l; rewrite !mxE.
rewrite (rsum_rsumn (G := fun p => (INR n.+1 + rsumn n.+1 (fun l => Rabs (rv (ufnS (S:=B32) f l p)))) * Rabs (rv (z p j)))) //.
by move=> p; rewrite mxE; congr ((_ + _) * _); apply: rsum_rsumn => l; rewrite !mxE.
Qed.

(*@doc C62 (C52 in f32): for every f32 square matrix A and right-hand side B (NaN and infinities included) solve never panics: it
  returns None exactly when a diagonal element of U is zero, and otherwise a matrix X.  When L, U and X are finite, every
  element of the residual B - A X is small relative to (|L||U||X|): by (1+u)^(3n) - 1, plus an underflow term. *)
Lemma solve_rounding_f32_L : forall gp g n k (A : 'M[b32]_n.+1) (B : 'M[b32]_(n.+1, k.+1)),
  exists (d : lu_decomp B32) (s : 'S_n.+1) (L U : 'M[b32]_n.+1),
  [/\ lu_new (S:=B32) gp (mat_of A) = Ok d,
      forall g, lu_get_l g d = Ok (mat_of L),
      forall g, lu_get_u g d = Ok (mat_of U) &
  if [forall i, ~~ Beqb (U i i) b32_zero] then
    exists X : 'M[b32]_(n.+1, k.+1), solve (S:=B32) gp g (mat_of A) (mat_of B) = Ok (Some (mat_of X)) /\
    ((forall i j, finite (L i j)) -> (forall i j, finite (U i j)) -> (forall i j, finite (X i j)) ->
     [/\ forall i j, finite (A i j), forall i j, finite (B i j) & forall i j,
     Rabs (rv (B (s i) j) - (\rsum_(l < n.+1) (rv (A (s i) l) * rv (X l j)))) <=
       err (3 * n.+1) * (\rsum_(l < n.+1) (Rabs (rv (L i l)) * (\rsum_(p < n.+1) (Rabs (rv (U l p)) * Rabs (rv (X p j)))))) +
       grow (2 * n.+1) * eta32 *
         (INR n.+1 + (\rsum_(l < n.+1) (Rabs (rv (L i l)) * (INR n.+1 + Rabs (rv (U l l))))) +
          (\rsum_(p < n.+1) ((INR n.+1 + (\rsum_(l < n.+1) Rabs (rv (U l p)))) * Rabs (rv (X p j)))))])
  else solve (S:=B32) gp g (mat_of A) (mat_of B) = Ok None].
Proof.
move=> gp g n k A B.
have [d [s [L [U [e e1 e2 H]]]]] := solve64 gp g A (mat_of_rep b32_zero B).
exists d, s, L, U; split=> //; rewrite /solve e; cbn [bind].
case: ifP H => // _ [X [EX H]]; exists X; split=> // fl fu fx; have [fa fb] := H fl fu fx; split=> //.
  by move=> i j; have [] := fb (s^-1 i)%g j; rewrite permKV fnE.
by move=> i j; have [_] := fb i j; rewrite fnE.
Qed.

(*@doc C62 (C52 in f32): the same for inverse, whose right-hand side is the identity matrix. *)
Lemma inverse_rounding_f32_L : forall gp g1 g2 n (A : 'M[b32]_n.+1),
  exists (d : lu_decomp B32) (s : 'S_n.+1) (L U : 'M[b32]_n.+1),
  [/\ lu_new (S:=B32) gp (mat_of A) = Ok d,
      forall g, lu_get_l g d = Ok (mat_of L),
      forall g, lu_get_u g d = Ok (mat_of U) &
  if [forall i, ~~ Beqb (U i i) b32_zero] then
    exists X : 'M[b32]_n.+1, inverse (S:=B32) gp g1 g2 (mat_of A) = Ok (Some (mat_of X)) /\
    ((forall i j, finite (L i j)) -> (forall i j, finite (U i j)) -> (forall i j, finite (X i j)) ->
     (forall i j, finite (A i j)) /\ forall i j,
     Rabs ((if s i == j then 1 else 0) - (\rsum_(l < n.+1) (rv (A (s i) l) * rv (X l j)))) <=
       err (3 * n.+1) * (\rsum_(l < n.+1) (Rabs (rv (L i l)) * (\rsum_(p < n.+1) (Rabs (rv (U l p)) * Rabs (rv (X p j)))))) +
       grow (2 * n.+1) * eta32 *
         (INR n.+1 + (\rsum_(l < n.+1) (Rabs (rv (L i l)) * (INR n.+1 + Rabs (rv (U l l))))) +
          (\rsum_(p < n.+1) ((INR n.+1 + (\rsum_(l < n.+1) Rabs (rv (U l p)))) * Rabs (rv (X p j))))))
  else inverse (S:=B32) gp g1 g2 (mat_of A) = Ok None].
Proof.
move=> gp g1 g2 n A.
have /wp_ex [I eI HI] := rep_id (N:=B32) g1 n.+1 n.+1.
have [d [s [L [U [e e1 e2 H]]]]] := solve64 gp g2 A HI.
exists d, s, L, U; split=> //.
have -> : inverse (S:=B32) gp g1 g2 (mat_of A) = lu_solve (S:=B32) g2 d I.
  rewrite /inverse (rep_cols (mat_of_rep b32_zero A)) //; cbn [bind]; rewrite (rep_no_rows (mat_of_rep b32_zero A)) eqxx.
  by cbn [require]; rewrite e; cbn [bind]; rewrite eI.
case: ifP H => // _ [X [EX H]]; exists X; split=> // fl fu fx; have [fa fb] := H fl fu fx; split=> //.
move=> i j; have [_] := fb i j; rewrite -val_eqE.
by case: eqP => _; rewrite ?[n_one _]/(b32_int 1) ?rv_int1.
Qed.

(*@example
(** the hypotheses are met by a system that needs a pivot and rounds: L, U and X are finite and no pivot is zero *)
Definition mx22 : 'M[b32]_2 := (\matrix_(i, j) b32_int (1 + 2 * Z.of_nat i + Z.of_nat j))%R.
Lemma mx22E : mat_of mx22 = Mat 2 [:: b32_int 1; b32_int 2; b32_int 3; b32_int 4].
Proof.
apply/esym/(@rep_mat_of _ 2 2 _ (fun i j => nth b32_zero [:: b32_int 1; b32_int 2; b32_int 3; b32_int 4] (i * 2 + j))).
  by split=> //; split=> // -[|[|i]] // [|[|j]].
by move=> [[|[|i]] hi] [[|[|j]] hj] //; rewrite mxE.
Qed.
Definition fin_all (M : mat b32) : bool := all (@is_finite b_prec b_emax) (data M).
Example lu_rounding_example :
  let g : nat -> B32 := fun=> B754_nan in
  match lu_new (S:=B32) (fun=> 7%N) (mat_of mx22), inverse (S:=B32) (fun=> 7%N) g g (mat_of mx22) with
  | Ok d, Ok (Some X) =>
      match lu_get_l g d, lu_get_u g d with
      | Ok L, Ok U => [&& fin_all L, fin_all U, fin_all X & lu_get_piv d == [:: 1; 0]%N]
      | _, _ => false
      end
  | _, _ => false
  end.
Proof. by rewrite mx22E; vm_cast_no_check (erefl true). Qed.
@*)
