(** * LUThms: proofs of the property theorems about lu.rs, det, solve,
    inverse and the singularity tests (restated in PropLU.v). *)
From mathcomp Require Import all_ssreflect all_algebra zify.
From mathcomp Require Import fingroup perm.
From Verif Require Import Base Scalar Hoare ModelMatrix ModelLU Spec MatrixProofs MatrixProofs2 MatrixThms LUProofs.

Set Implicit Arguments.
Unset Strict Implicit.
Unset Printing Implicit Defensive.
Import GRing.Theory Num.Theory.
Local Open Scope ring_scope.

Section Aux.
Variable F : rcfType.
Variables eps tiny : F.
Local Notation S := (exactE eps tiny).

Lemma sum_fn (n : nat) (G : nat -> F) : \sum_(l < n) G l = \sum_(0 <= l < n) G l.
Proof. by rewrite big_mkord. Qed.

Definition mxf m n (f : nat -> nat -> F) : 'M[F]_(m, n) := \matrix_(i, j) f i j.

Lemma lu_post_mx m n (A : 'M[F]_(m, n)) d (s : 'S_m) (f : nat -> nat -> F) r : minn m n = r ->
  (forall (i : 'I_m) k, (k < n)%N -> fn 0 A (s i) k =
        \sum_(0 <= l < minn i k.+1) f i l * f l k + (if (i <= k)%N then f i k else 0)) ->
  row_perm s A = mxf m r (lfn f) *m mxf r n (ufn f) /\ d = d :> lu_decomp S.
Proof.
move=> er H; split=> //; apply/matrixP => i k; rewrite !mxE -(fnE 0) H //.
rewrite -(@lu_sum _ f r i k).
- rewrite -(sum_fn r (fun l => lfn f i l * ufn f l k)).
  by apply: eq_bigr => l _; rewrite !mxE.
- by have := ltn_ord i; have := ltn_ord k; lia.
- by have := ltn_ord i; have := ltn_ord k; lia.
Qed.

Lemma unit_lower_l m r f : unit_lower (mxf m r (lfn f)).
Proof.
move=> i j; rewrite mxE /lfn; split=> [ij|->]; last by rewrite ltnn eqxx.
have -> : (j < i)%N = false by lia.
by have -> : (i == j :> nat) = false by lia.
Qed.

Lemma upper_u r n f : upper (mxf r n (ufn f)).
Proof. by move=> i j ji; rewrite mxE /ufn leqNgt ji. Qed.

Lemma det_l n f : \det (mxf n n (lfn f)) = 1.
Proof.
rewrite det_trig; first by rewrite big1 // => i _; rewrite mxE /lfn ltnn eqxx.
by apply/is_trig_mxP => i j ij; rewrite (proj1 (unit_lower_l f i j)).
Qed.

Lemma det_u n f : \det (mxf n n (ufn f)) = \prod_(0 <= j < n) f j j.
Proof.
rewrite -det_tr det_trig; last first.
  by apply/is_trig_mxP => i j ij; rewrite mxE upper_u.
by rewrite big_mkord; apply: eq_bigr => i _; rewrite !mxE /ufn leqnn.
Qed.

(** everything the square case needs *)
Lemma lu_square n (A : 'M[F]_n.+1) gp : exists d (s : 'S_n.+1) f,
  [/\ lu_new (S:=S) gp (mat_of A) = Ok d,
      rep n.+1 n.+1 (lu d) f, piv d = perm_list s, pospivsign d = ~~ odd_perm s &
      row_perm s A = mxf n.+1 n.+1 (lfn f) *m mxf n.+1 n.+1 (ufn f)].
Proof.
have /wp_ex [d e [s [f [Hd Hp Hs [Hlu Hle]]]]] :=
  lu_new_ok eps tiny gp (mat_of_rep 0 A) (ltn0Sn _) (ltn0Sn _).
exists d, s, f; split=> //.
by have [] := @lu_post_mx _ _ A d s f n.+1 (minnn _) Hlu.
Qed.

Lemma det_prod n (A : 'M[F]_n.+1) (s : 'S_n.+1) f :
  row_perm s A = mxf n.+1 n.+1 (lfn f) *m mxf n.+1 n.+1 (ufn f) ->
  (if ~~ odd_perm s then 1 else -1) * \prod_(0 <= j < n.+1) f j j = \det A.
Proof.
rewrite row_permE => e; have := congr1 (fun M => \det M) e.
rewrite !det_mulmx det_perm det_l det_u mul1r => <-.
by rewrite mulrA; case: (odd_perm s) => /=; rewrite ?expr1 ?expr0 ?mulrNN ?mul1r.
Qed.

Lemma diag_unit n (A : 'M[F]_n.+1) (s : 'S_n.+1) f :
  row_perm s A = mxf n.+1 n.+1 (lfn f) *m mxf n.+1 n.+1 (ufn f) ->
  all (fun j => f j j != 0) (iota 0 n.+1) = (A \in unitmx).
Proof.
move=> e; rewrite unitmxE unitfE -(det_prod e) mulf_eq0.
have -> : ((if ~~ odd_perm s then 1 else -1) == 0 :> F) = false.
  by case: (odd_perm s); rewrite /= ?oppr_eq0 oner_eq0.
by rewrite /= prodf_seq_neq0 /index_iota subn0.
Qed.

(** the right-hand side, permuted *)
Lemma lu_copy_rhs_ok m k (d : lu_decomp S) (s : 'S_m) B b xd : piv d = perm_list s ->
  rep m k B b -> size xd = (m * k)%N ->
  wp (lu_copy_rhs d B k xd) (fun x => repr m k x (fun i j => b (nth 0%N (perm_list s) i) j)).
Proof.
move=> ep HB sz.
have szp : size (perm_list s) = m by rewrite size_map size_enum_ord.
rewrite /lu_copy_rhs ep szp.
set G := (fun i j => b _ j); pose Fk q := G (q %/ k)%N (q %% k)%N.
apply: wpe_bind.
apply: (wpe_for (fun i st => pre1 (m * k) (i * k) st.1 Fk /\ st.2 = (i * k)%N)) => //.
- move=> i [x dest] /= hi [Hx ->].
  apply: (wpe_for (fun j st => pre1 (m * k) (i * k + j) st.1 Fk /\ st.2 = (i * k + j)%N)) => //.
  + by rewrite addn0.
  + move=> j [x' dest'] /= hj [Hx' ->].
    rewrite (vgetE 0%N) ?szp //= /get_data (rep_vget HB) //=; last first.
      by rewrite (nth_map (Ordinal hi)) ?size_enum_ord //; apply: ltn_ord.
    apply: wpe_bind; apply: (wpe_pre1_set Hx'); [exact: idx_lt|by rewrite /Fk flat_at|].
    by move=> v Hv /=; rewrite addn1 addnS.
  + by case=> x' dest' /= [Hx' ->]; rewrite mulSn addnC.
by case=> x dest /= [Hx _]; apply: pre1_repr.
Qed.

Lemma lu_solve_square n k (A : 'M[F]_n.+1) (B : 'M[F]_(n.+1, k.+1)) g (d : lu_decomp S) (s : 'S_n.+1) (f : nat -> nat -> F) :
  rep n.+1 n.+1 (lu d) f -> piv d = perm_list s ->
  row_perm s A = mxf n.+1 n.+1 (lfn f) *m mxf n.+1 n.+1 (ufn f) ->
  lu_solve (S:=S) g d (mat_of B) =
    Ok (if A \in unitmx then Some (mat_of (invmx A *m B)) else None).
Proof.
move=> Hd Hp e; have HB := mat_of_rep 0 B.
rewrite /lu_solve (rep_cols HB) // (rep_cols Hd) // [bind _ _]/= /rows (rep_no_rows Hd) eqxx /=.
rewrite (lu_is_non_singular_ok Hd) // (diag_unit e) /=.
case: (boolP (A \in unitmx)) => Au; last by [].
rewrite [~~ _]/=.
have nz i : (i < n.+1)%N -> f i i != 0.
  move=> hi; move: Au; rewrite -(diag_unit e) => /allP/(_ i); rewrite mem_iota /=; apply.
  by rewrite add0n.
suff H : wp (xdata <-- lu_copy_rhs d (mat_of B) k.+1 (alloc_dirty_vec g (n.+1 * k.+1)) ;;
    xdata <-- lu_forward (get_data (lu d)) n.+1 k.+1 xdata ;;
    xdata <-- lu_backward (get_data (lu d)) n.+1 k.+1 xdata ;;
    x <-- new n.+1 k.+1 xdata ;;
    Ok (Some x)) (fun r => r = Some (mat_of (invmx A *m B))).
  by move/wp_ex: H => [r -> ->].
have H0 := lu_copy_rhs_ok Hp HB (size_alloc (T:=S) g (n.+1 * k.+1)).
apply: wpe_bind; apply: wpe_mono H0.
move=> x1 H1; case: (Hd) => _ Hl.
have H1' := @lu_forward_ok F eps tiny _ _ _ _ _ Hl (leqnn _) _ _ H1.
apply: wpe_bind; apply: wpe_mono H1'.
move=> x2 [y [H2 Hy _]].
have H2' := @lu_backward_ok F eps tiny _ _ _ _ _ Hl (leqnn _) _ _ H2 nz.
apply: wpe_bind; apply: wpe_mono H2'.
move=> x3 [z [H3 Hz _]].
apply: wpe_bind; apply: wpe_mono (new_rep (ltn0Sn _) (ltn0Sn _) H3) => X HX.
congr Some; rewrite (rep_matrix HX) -/(mxf _ _ z); congr mat_of.
apply: (can_inj (mulKmx Au)); rewrite mulKVmx //.
have inj (C D : 'M[F]_(n.+1, k.+1)) : row_perm s C = row_perm s D -> C = D.
  by move/(congr1 (row_perm s^-1%g)); rewrite -!row_permM mulVg !row_perm1.
apply: inj; rewrite [LHS]row_permE mulmxA -row_permE e.
have -> : row_perm s B = mxf n.+1 n.+1 (lfn f) *m mxf n.+1 k.+1 y.
  apply/matrixP => i j; rewrite !mxE; have := Hy i j (ltn_ord i) (ltn_ord j).
  rewrite (nth_map i) ?size_enum_ord // nth_ord_enum fnE => ->.
  rewrite (eq_bigr (fun l : 'I_n.+1 => lfn f i l * y l j)); last by move=> l _; rewrite !mxE.
  rewrite (sum_fn n.+1 (fun l => lfn f i l * y l j)) [RHS](@big_cat_nat _ _ _ i) //=; last by apply: ltnW.
  congr (_ + _); first by apply: eq_big_nat => l /andP[_ hl]; rewrite /lfn hl.
  rewrite big_ltn // big_nat big1 ?addr0; first by rewrite /lfn ltnn eqxx mul1r.
  move=> l hl; rewrite /lfn; have -> : (l < i)%N = false by lia.
  by have -> : (i == l :> nat) = false by [lia]; rewrite mul0r.
rewrite -mulmxA; congr (_ *m _).
apply/matrixP => i j; rewrite !mxE (Hz i j (ltn_ord i) (ltn_ord j)).
rewrite (eq_bigr (fun l : 'I_n.+1 => ufn f i l * z l j)); last by move=> l _; rewrite !mxE.
rewrite (sum_fn n.+1 (fun l => ufn f i l * z l j)) [LHS](@big_cat_nat _ _ _ i) //=; last by apply: ltnW.
rewrite big_nat big1 ?add0r; last first.
  by move=> l /andP[_ hl]; rewrite /ufn leqNgt hl mul0r.
by apply: eq_big_nat => l /andP[hl _]; rewrite /ufn hl.
Qed.

End Aux.

Lemma mul_exact (F : rcfType) (eps tiny : F) g m n p (A : 'M[F]_(m, n)) (B : 'M[F]_(n, p)) :
  (0 < m)%N -> (0 < n)%N ->
  mul (N := exactE eps tiny) g (mat_of A) (mat_of B) = Ok (mat_of (A *m B)).
Proof. exact: (@mul_ok_L F). Qed.

(*@section C18 LU factorisation @*)
(*@doc C18: for every matrix of any shape, new succeeds; L is unit lower trapezoidal with entries
    bounded by 1, U upper trapezoidal, P the permutation matrix of the pivot list, and P A = L U. *)
Lemma lu_factorisation_L : forall (F : rcfType) (eps tiny : F) m n (A : 'M[F]_(m.+1, n.+1)) gp,
  exists (d : lu_decomp (exactE eps tiny)) (s : 'S_m.+1)
         (L : 'M[F]_(m.+1, minn m.+1 n.+1)) (U : 'M[F]_(minn m.+1 n.+1, n.+1)),
  [/\ lu_new (S:=exactE eps tiny) gp (mat_of A) = Ok d,
      forall g, lu_get_l g d = Ok (mat_of L),
      forall g, lu_get_u g d = Ok (mat_of U),
      forall g1 g2, lu_get_p g1 g2 d = Ok (mat_of (perm_mx s)) &
  [/\ lu_get_piv d = perm_list s, unit_lower L, (forall i j, `|L i j| <= 1), upper U &
      perm_mx s *m A = L *m U]].
Proof.
move=> F eps tiny m n A gp.
have /wp_ex [d e [s [f [Hd Hp Hs [Hlu Hle]]]]] :=
  lu_new_ok eps tiny gp (mat_of_rep 0 A) (ltn0Sn _) (ltn0Sn _).
exists d, s, (mxf _ _ (lfn f)), (mxf _ _ (ufn f)); split=> //.
- move=> g; apply: wp_mat_of (lu_get_l_ok Hd _ _ g) _ => // i j; by rewrite mxE.
- move=> g; apply: wp_mat_of (lu_get_u_ok Hd _ _ g) _ => // i j; by rewrite mxE.
- move=> g1 g2; rewrite /lu_get_p Hp.
  have szp : size (perm_list s) = m.+1 by rewrite size_map size_enum_ord.
  rewrite szp; have /wp_ex [I -> HI] := rep_id (N:=exactE eps tiny) g1 m.+1 m.+1.
  rewrite [bind _ _]/=.
  have ok : all (fun k => (k < m.+1)%N) (perm_list s).
    by apply/allP => k /mapP[i _ ->]; apply: ltn_ord.
  have := rep_permute_rows g2 HI (ltn0Sn _) ok; rewrite szp => H.
  apply: wp_mat_of H _ => i j; rewrite (nth_map i) ?size_enum_ord // nth_ord_enum.
  by rewrite !mxE -val_eqE /=; case: eqP.
split=> //.
- exact: unit_lower_l.
- move=> i j; rewrite mxE /lfn; case: ifP => ji.
    by apply: Hle; have := ltn_ord i; have := ltn_ord j; lia.
  by case: eqP => _; rewrite ?normr1 // normr0 ler01.
- exact: upper_u.
- by rewrite -row_permE; have [] := @lu_post_mx _ eps tiny _ _ A d s f _ erefl Hlu.
Qed.

(*@section C19 determinant @*)
(*@doc C19: det is the determinant. *)
Lemma det_ok_L : forall (F : rcfType) (eps tiny : F) n (A : 'M[F]_n.+1) gp,
  det (S:=exactE eps tiny) gp (mat_of A) = Ok (\det A).
Proof.
move=> F eps tiny n A gp; have [d [s [f [e Hd Hp Hs Hlu]]]] := lu_square eps tiny A gp.
rewrite /det (rep_cols (mat_of_rep 0 A)) // [bind _ _]/= eqxx /= e [bind _ _]/=.
by rewrite (lu_det_ok Hd) // Hs (det_prod Hlu).
Qed.

(*@doc C19: det panics exactly on non-square matrices. *)
Lemma det_panics_L : forall (F : rcfType) (eps tiny : F) m n (A : 'M[F]_(m.+1, n.+1)) gp,
  m != n -> det (S:=exactE eps tiny) gp (mat_of A) = Err Panic.
Proof.
move=> F eps tiny m n A gp ne; rewrite /det (rep_cols (mat_of_rep 0 A)) //=.
by rewrite eqSS eq_sym (negPf ne).
Qed.

(*@doc C19: consequences: the determinant of the product and of the transpose as computed. *)
Lemma det_mul_L : forall (F : rcfType) (eps tiny : F) n (A B : 'M[F]_n.+1) g gp gp1 gp2,
  let S := exactE eps tiny in
  bind (mul (N:=S) g (mat_of A) (mat_of B)) (det (S:=S) gp) =
  bind (det (S:=S) gp1 (mat_of A)) (fun a => bind (det (S:=S) gp2 (mat_of B)) (fun b => Ok (a * b))).
Proof.
move=> F eps tiny n A B g gp gp1 gp2 S.
by rewrite mul_exact // [bind _ _]/= !det_ok_L /= det_mulmx.
Qed.

(*@doc C19: the determinant of the transpose. *)
Lemma det_t_L : forall (F : rcfType) (eps tiny : F) n (A : 'M[F]_n.+1) g gp gp1,
  let S := exactE eps tiny in
  bind (t g (mat_of A)) (det (S:=S) gp) = det (S:=S) gp1 (mat_of A).
Proof.
move=> F eps tiny n A g gp gp1 S; rewrite t_ok_L //= !det_ok_L.
by rewrite det_tr.
Qed.

(*@section C20 linear systems @*)
(*@doc C20: for square A and any right-hand side with as many rows, solve returns the unique solution,
    or None exactly when A is singular. *)
Lemma solve_ok_L : forall (F : rcfType) (eps tiny : F) n k (A : 'M[F]_n.+1) (B : 'M[F]_(n.+1, k.+1)) gp g,
  solve (S:=exactE eps tiny) gp g (mat_of A) (mat_of B) =
    Ok (if A \in unitmx then Some (mat_of (invmx A *m B)) else None).
Proof.
move=> F eps tiny n k A B gp g; have [d [s [f [e Hd Hp Hs Hlu]]]] := lu_square eps tiny A gp.
by rewrite /solve e [bind _ _]/=; apply: lu_solve_square Hd Hp Hlu.
Qed.

(*@doc C20: in terms of the equation itself: Some X is returned iff X is a matrix with A X = B and A is invertible. *)
Lemma solve_sound_L : forall (F : rcfType) (eps tiny : F) n k (A : 'M[F]_n.+1) (B : 'M[F]_(n.+1, k.+1)) gp g M,
  solve (S:=exactE eps tiny) gp g (mat_of A) (mat_of B) = Ok (Some M) <->
  (\det A != 0 /\ exists2 X : 'M[F]_(n.+1, k.+1), M = mat_of X & A *m X = B).
Proof.
move=> F eps tiny n k A B gp g M; rewrite solve_ok_L -unitfE -unitmxE; split.
  case: ifP => // Au [<-]; split=> //; exists (invmx A *m B) => //.
  by rewrite mulKVmx.
by case=> Au [X -> <-]; rewrite Au mulKmx.
Qed.

(*@doc C20: solve panics when the row counts differ, whatever the shape of A. *)
Lemma solve_panics_L : forall (F : rcfType) (eps tiny : F) m n m' k (A : 'M[F]_(m.+1, n.+1))
    (B : 'M[F]_(m', k)) gp g,
  m' <> m.+1 -> solve (S:=exactE eps tiny) gp g (mat_of A) (mat_of B) = Err Panic.
Proof.
move=> F eps tiny m n m' k A B gp g ne.
have /wp_ex [d e [s [f [Hd _ _ _]]]] :=
  lu_new_ok eps tiny gp (mat_of_rep 0 A) (ltn0Sn _) (ltn0Sn _).
rewrite /solve e [bind _ _]/= /lu_solve (rep_cols Hd) // [bind _ _]/= /rows (rep_no_rows Hd) /=.
by case: eqP.
Qed.

(*@section C21 inverse @*)
(*@doc C21: inverse of a square matrix. *)
Lemma inverse_ok_L : forall (F : rcfType) (eps tiny : F) n (A : 'M[F]_n.+1) gp g1 g2,
  inverse (S:=exactE eps tiny) gp g1 g2 (mat_of A) =
    Ok (if A \in unitmx then Some (mat_of (invmx A)) else None).
Proof.
move=> F eps tiny n A gp g1 g2; have [d [s [f [e Hd Hp Hs Hlu]]]] := lu_square eps tiny A gp.
rewrite /inverse (rep_cols (mat_of_rep 0 A)) // [bind _ _]/= eqxx /= e [bind _ _]/=.
have /wp_ex [I -> HI] := rep_id (N:=exactE eps tiny) g1 n.+1 n.+1.
rewrite [bind _ _]/=; have -> : I = mat_of (1%:M : 'M[F]_n.+1).
  by apply: rep_mat_of HI _ => i j; rewrite mxE -val_eqE /=; case: eqP.
by rewrite (lu_solve_square _ _ Hd Hp Hlu) mulmx1.
Qed.

(*@doc C21: as an equation: Some X is returned iff X is the two-sided inverse. *)
Lemma inverse_sound_L : forall (F : rcfType) (eps tiny : F) n (A : 'M[F]_n.+1) gp g1 g2 M,
  inverse (S:=exactE eps tiny) gp g1 g2 (mat_of A) = Ok (Some M) <->
  exists2 X : 'M[F]_n.+1, M = mat_of X & A *m X = 1%:M /\ X *m A = 1%:M.
Proof.
move=> F eps tiny n A gp g1 g2 M; rewrite inverse_ok_L; split.
  case: ifP => // Au [<-]; exists (invmx A) => //.
  by rewrite mulmxV // mulVmx.
case=> X -> [AX XA]; have [Au _] := mulmx1_unit AX; rewrite Au.
by congr (Ok (Some (mat_of _))); rewrite -[LHS]mulmx1 -AX mulKmx.
Qed.

(*@doc C21: inverse panics on non-square matrices. *)
Lemma inverse_panics_L : forall (F : rcfType) (eps tiny : F) m n (A : 'M[F]_(m.+1, n.+1)) gp g1 g2,
  m != n -> inverse (S:=exactE eps tiny) gp g1 g2 (mat_of A) = Err Panic.
Proof.
move=> F eps tiny m n A gp g1 g2 ne; rewrite /inverse (rep_cols (mat_of_rep 0 A)) //=.
by rewrite eqSS (negPf ne).
Qed.

(*@doc C21: inverting twice gives the matrix back. *)
Lemma inverse_inverse_L : forall (F : rcfType) (eps tiny : F) n (A : 'M[F]_n.+1) gp g1 g2 gp' g1' g2' M,
  inverse (S:=exactE eps tiny) gp g1 g2 (mat_of A) = Ok (Some M) ->
  inverse (S:=exactE eps tiny) gp' g1' g2' M = Ok (Some (mat_of A)).
Proof.
move=> F eps tiny n A gp g1 g2 gp' g1' g2' M; rewrite inverse_ok_L; case: ifP => // Au [<-].
by rewrite inverse_ok_L unitmx_inv Au invmxK.
Qed.

(*@section C22 singularity tests @*)
(*@doc C22: is_non_singular decides invertibility (det != 0), is_singular is its negation. *)
Lemma is_non_singular_ok_L : forall (F : rcfType) (eps tiny : F) n (A : 'M[F]_n.+1) gp,
  [/\ is_non_singular (S:=exactE eps tiny) gp (mat_of A) = Ok (\det A != 0),
      is_singular (S:=exactE eps tiny) gp (mat_of A) = Ok (\det A == 0) &
      (\det A != 0) = (A \in unitmx)].
Proof.
move=> F eps tiny n A gp.
have E : is_non_singular (S:=exactE eps tiny) gp (mat_of A) = Ok (\det A != 0).
  have [d [s [f [e Hd Hp Hs Hlu]]]] := lu_square eps tiny A gp.
  rewrite /is_non_singular (rep_cols (mat_of_rep 0 A)) // [bind _ _]/= eqxx /= e [bind _ _]/=.
  by rewrite (lu_is_non_singular_ok Hd) // (diag_unit Hlu) unitmxE unitfE.
split=> //; first by rewrite /is_singular E /= negbK.
by rewrite unitmxE unitfE.
Qed.

Lemma is_non_singular_panics_L : forall (F : rcfType) (eps tiny : F) m n (A : 'M[F]_(m.+1, n.+1)) gp,
  m != n -> is_non_singular (S:=exactE eps tiny) gp (mat_of A) = Err Panic /\
            is_singular (S:=exactE eps tiny) gp (mat_of A) = Err Panic.
Proof.
move=> F eps tiny m n A gp ne; rewrite /is_singular /is_non_singular (rep_cols (mat_of_rep 0 A)) //=.
by rewrite eqSS (negPf ne).
Qed.

(*@section C20 rectangular systems (what solve does outside the property) @*)
(*@doc Finding: for a tall system the result has as many rows as A, not as many as A has columns,
    so it can never be multiplied by A from the left.  solve returns None iff the columns are dependent. *)
Lemma solve_tall_refuted_L : forall (F : rcfType) (eps tiny : F) m n k (A : 'M[F]_(m.+1, n.+1))
    (B : 'M[F]_(m.+1, k.+1)) gp g, (n < m)%N ->
  (solve (S:=exactE eps tiny) gp g (mat_of A) (mat_of B) = Ok None) \/
  exists2 X : 'M[F]_(m.+1, k.+1),
    solve (S:=exactE eps tiny) gp g (mat_of A) (mat_of B) = Ok (Some (mat_of X)) &
    forall g', mul (N:=exactE eps tiny) g' (mat_of A) (mat_of X) = Err Panic.
Proof.
move=> F eps tiny m n k A B gp g nm.
have /wp_ex [d e [s [f [Hd Hp Hs [Hlu Hle]]]]] :=
  lu_new_ok eps tiny gp (mat_of_rep 0 A) (ltn0Sn _) (ltn0Sn _).
have HB := mat_of_rep 0 B.
rewrite /solve e [bind _ _]/= /lu_solve (rep_cols HB) // (rep_cols Hd) // [bind _ _]/= /rows (rep_no_rows Hd) eqxx.
rewrite (lu_is_non_singular_ok Hd) //; last by apply: ltnW.
cbn [bind require]; case: ifP => nz; first by left.
right; move/negbFE: nz => /allP nz.
have {}nz i : (i < n.+1)%N -> f i i != 0.
  by move=> hi; apply: nz; rewrite mem_iota add0n.
case: (Hd) => _ Hl.
suff H : wp (xdata <-- lu_copy_rhs d (mat_of B) k.+1 (alloc_dirty_vec g (m.+1 * k.+1)) ;;
    xdata <-- lu_forward (get_data (lu d)) n.+1 k.+1 xdata ;;
    xdata <-- lu_backward (get_data (lu d)) n.+1 k.+1 xdata ;;
    x <-- new m.+1 k.+1 xdata ;;
    Ok (Some x)) (fun r => exists X : 'M[F]_(m.+1, k.+1), r = Some (mat_of X)).
  move/wp_ex: H => [r -> [X ->]]; exists X => // g'.
  apply: (@mul_panic (exactE eps tiny) g' _ _ _ _ _ _ _ _ (mat_of_rep 0 A) (mat_of_rep 0 X)) => //.
  by rewrite eqSS; lia.
have H0 := lu_copy_rhs_ok Hp HB (size_alloc (T:=exactE eps tiny) g (m.+1 * k.+1)).
apply: wpe_bind; apply: wpe_mono H0 => x1 H1.
have H1' := @lu_forward_ok F eps tiny _ _ _ _ _ Hl (ltnW (nm : (n.+1 < m.+1)%N)) _ _ H1.
apply: wpe_bind; apply: wpe_mono H1' => x2 [y [H2 _ _]].
have H2' := @lu_backward_ok F eps tiny _ _ _ _ _ Hl (ltnW (nm : (n.+1 < m.+1)%N)) _ _ H2 nz.
apply: wpe_bind; apply: wpe_mono H2' => x3 [z [H3 _ _]].
apply: wpe_bind; apply: wpe_mono (new_rep (ltn0Sn _) (ltn0Sn _) H3) => X HX.
by eexists; congr Some; rewrite (rep_matrix HX).
Qed.

(*@doc Finding: for a wide system solve never returns a solution: it panics (index out of bounds) or
    returns None. *)
Lemma solve_wide_refuted_L : forall (F : rcfType) (eps tiny : F) m n k (A : 'M[F]_(m.+1, n.+1))
    (B : 'M[F]_(m.+1, k.+1)) gp g, (m < n)%N ->
  solve (S:=exactE eps tiny) gp g (mat_of A) (mat_of B) = Ok None \/
  solve (S:=exactE eps tiny) gp g (mat_of A) (mat_of B) = Err Panic.
Proof.
move=> F eps tiny m n k A B gp g mn.
have /wp_ex [d e [s [f [Hd Hp Hs [Hlu Hle]]]]] :=
  lu_new_ok eps tiny gp (mat_of_rep 0 A) (ltn0Sn _) (ltn0Sn _).
rewrite /solve e [bind _ _]/= /lu_solve (rep_cols Hd) // [bind _ _]/= /rows (rep_no_rows Hd) eqxx.
rewrite (lu_is_non_singular_wide Hd) //.
by case: ifP => _; [right|left].
Qed.

(*@section C45 laws across the API @*)
(*@doc C45: solving A Y = A X gives X back. *)
Lemma solve_mul_L : forall (F : rcfType) (eps tiny : F) n k (A : 'M[F]_n.+1) (X : 'M[F]_(n.+1, k.+1)) gp g g',
  \det A != 0 ->
  bind (mul (N:=exactE eps tiny) g' (mat_of A) (mat_of X)) (solve (S:=exactE eps tiny) gp g (mat_of A))
  = Ok (Some (mat_of X)).
Proof.
move=> F eps tiny n k A X gp g g'; rewrite -unitfE -unitmxE => Au.
by rewrite mul_exact // [bind _ _]/= solve_ok_L Au mulKmx.
Qed.

(*@doc C45: solve(A,B) = inverse(A) * B. *)
Lemma solve_inverse_L : forall (F : rcfType) (eps tiny : F) n k (A : 'M[F]_n.+1) (B : 'M[F]_(n.+1, k.+1))
    gp g gp' g1 g2 g3 M,
  inverse (S:=exactE eps tiny) gp' g1 g2 (mat_of A) = Ok (Some M) ->
  solve (S:=exactE eps tiny) gp g (mat_of A) (mat_of B) =
  bind (mul (N:=exactE eps tiny) g3 M (mat_of B)) (fun X => Ok (Some X)).
Proof.
move=> F eps tiny n k A B gp g gp' g1 g2 g3 M; rewrite inverse_ok_L; case: ifP => // Au [<-].
by rewrite solve_ok_L Au mul_exact.
Qed.

(*@doc C45: the inverse of a product is the product of the inverses in the other order. *)
Lemma inverse_mul_L : forall (F : rcfType) (eps tiny : F) n (A B : 'M[F]_n.+1) MA MB
    g gp1 g11 g12 gp2 g21 g22 gp3 g31 g32 g4,
  let S := exactE eps tiny in
  inverse (S:=S) gp1 g11 g12 (mat_of A) = Ok (Some MA) ->
  inverse (S:=S) gp2 g21 g22 (mat_of B) = Ok (Some MB) ->
  bind (mul (N:=S) g (mat_of A) (mat_of B)) (inverse (S:=S) gp3 g31 g32) =
  bind (mul (N:=S) g4 MB MA) (fun X => Ok (Some X)).
Proof.
move=> F eps tiny n A B MA MB g gp1 g11 g12 gp2 g21 g22 gp3 g31 g32 g4 S.
rewrite /S !inverse_ok_L; case: ifP => // Au [<-]; case: ifP => // Bu [<-].
rewrite !mul_exact // [LHS]/= inverse_ok_L unitmx_mul Au Bu /=.
have ABu : A *m B \in unitmx by rewrite unitmx_mul Au.
congr (Ok (Some (mat_of _))); apply: (can_inj (mulKmx ABu)).
by rewrite mulmxV // mulmxA -(mulmxA A) mulmxV // mulmx1 mulmxV.
Qed.
(*@example
(** the hypotheses are met: 2I is invertible, with inverse (1/2)I *)
Example inverse_hyps_met (F : rcfType) (eps tiny : F) gp g1 g2 :
  inverse (S:=exactE eps tiny) gp g1 g2 (mat_of (2%:R%:M : 'M[F]_3)) =
    Ok (Some (mat_of ((2%:R^-1)%:M : 'M[F]_3))).
Proof.
apply/inverse_sound; exists (2%:R^-1)%:M => //.
by rewrite -!scalar_mxM mulfV ?mulVf // pnatr_eq0.
Qed.
Example singular_met (F : rcfType) (eps tiny : F) gp g1 g2 :
  inverse (S:=exactE eps tiny) gp g1 g2 (mat_of (const_mx 1 : 'M[F]_2)) = Ok None.
Proof.
rewrite inverse_ok.
rewrite unitmxE (@determinant_alternate _ _ _ ord0 (lift ord0 ord0)) ?unitr0 // => j.
by rewrite !mxE.
Qed.
@*)
