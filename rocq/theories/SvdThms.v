(** * SvdThms: proofs of the theorems about SVD::new and rank (restated in PropSVD.v). *)
From mathcomp Require Import all_ssreflect all_algebra zify ring.
From Verif Require Import Base Scalar Hoare ModelMatrix ModelSVD Spec SpecDecomp MatrixProofs MatrixProofs2 MatrixThms LUProofs LUThms MiscThms QRThms Orth TredProofs TqlProofs EigenProofs OrthesProofs EigenThms SvdBidiag SvdIter.

Set Implicit Arguments.
Unset Strict Implicit.
Unset Printing Implicit Defensive.
Import Order.TTheory GRing.Theory Num.Theory.
Local Open Scope ring_scope.

Section Aux.
Variable F : rcfType.
Variables eps tiny : F.
Hypothesis eps0 : 0 <= eps.
Hypothesis tiny0 : 0 <= tiny.
Local Notation S := (exactE eps tiny).

Lemma wp_any T (E : err -> Prop) (c : res T) Q : wp c Q -> wpe E c Q.
Proof. by case: c. Qed.

Lemma svd_tall_gen m n (A : 'M[F]_(m, n)) (E : err -> Prop) fuel gs gu gv ge gw gb : (0 < n)%N -> (n <= m)%N ->
  (forall st, w_p st = n -> @sv_inv F eps tiny m n (fro A) A st ->
     wpe E (loop_ fuel (svd_iter (S:=S) m n n.-1) st) (fun r => w_p r = 0%N /\ @sv_inv F eps tiny m n (fro A) A r)) ->
  wpe E (svd_tall (S:=S) fuel gs gu gv ge gw gb (mat_of A)) (fun d => exists (s : seq F) (U : 'M[F]_m) (V : 'M[F]_n),
    [/\ d = SVDec (S:=S) (mat_of U) (mat_of (rdiag m n s)) (mat_of V),
        [/\ size s = n, forall i, (i < n)%N -> 0 <= nth 0 s i
          & forall i, (i.+1 < n)%N -> nth 0 s i.+1 <= nth 0 s i],
        orthogonal U, orthogonal V &
        fro (A - U *m rdiag m n s *m V^T) <= (tiny + eps * (fro A + fro A)) *+ n.-1]).
Proof.
move=> n0 nm HL; have Ha := mat_of_rep 0 A; have m0 : (0 < m)%N by lia.
rewrite /svd_tall (rep_cols Ha) // (_ : rows (mat_of A) = m) //; cbn [bind]; rewrite nm.
have -> : usub m 1 = Ok m.-1 by rewrite /usub m0 subn1.
have -> : minn m n = n by lia.
have -> : minn (n - 2) m = (n - 2)%N by lia.
have -> : minn n (m + 1) = n by lia.
have -> : usub n 1 = Ok n.-1 by rewrite /usub n0 subn1.
cbn [bind require].
have Hu : repr m m (alloc_dirty_vec (T:=S) gu (m * m)) (fun i j => gu (i * m + j)%N) := @repr_alloc S m gu.
have Hv : repr n n (alloc_dirty_vec (T:=S) gv (n * n)) (fun i j => gv (i * n + j)%N) := @repr_alloc S n gv.
apply: (@phase1_ok F eps tiny m n nm n0 _ _ _ _ _ _ _ _ _ _ _ _ _ _ _ _ Ha.2 (repr1_mkseq n gs) Hu Hv (repr1_mkseq n ge) (repr1_mkseq m gw)).
rewrite mxf_fn => sd ed ud vd s e U V Hs He {}Hu {}Hv en oU oV AE.
apply: wpe_bind.
apply: wpe_mono; last apply: HL => //; last first.
- pose e' i := if (i < n)%N then e i else 0.
  have BE : mxf m n (bidf s e') = mxf m n (bidf s e).
    apply/matrixP => i j; rewrite !mxE /bidf /e'; case: ifP => // _; case: (altP (_ =P _)) => // h.
    by have -> : (i < n)%N by have := ltn_ord j; lia.
  exists s, e', U, V; cbn [w_s w_e w_u w_v w_p]; split; first split=> //.
    by apply: repr1_ext He _ => i hi; rewrite /e' hi.
  split; last split=> [i hi|i|i].
  + split=> //; first by rewrite BE AE fro_orth_r ?fro_orth_l //; exact: orthogonalT.
    rewrite /PM BE AE subrr (_ : fro 0 = 0); last by apply/eqP; rewrite fro_eq0.
    apply: mulrn_wge0; apply: addr_ge0 => //; apply: mulr_ge0 => //.
    by apply: addr_ge0; apply: fro_ge0.
  + rewrite /e'; case: ifP => // h; have -> : i = n.-1 by lia.
    exact: en.
  + by rewrite leqNgt => /andP[/negP].
  + by move=> h1 h2; exfalso; lia.
move=> r [p0 [s1 [e1 [U1 [V1 [[Hs1 He1 HU1 HV1] [[_ oU1 oV1 _ bd]]]]]]]]; rewrite p0 => -[e10 sp ss].
apply: wpe_bind; apply: wp_any; apply: wpe_mono (new_rep m0 m0 HU1) => um Hum.
have ss1 : size (w_s r) = minn m n by rewrite (proj1 Hs1); lia.
apply: wpe_bind; apply: wp_any; apply: wpe_mono (rep_block_diag gb m0 n0 ss1) => sm Hsm.
apply: wpe_bind; apply: wp_any; apply: wpe_mono (new_rep n0 n0 HV1) => vm Hvm.
apply: wpe_ok; exists (w_s r), (mxf m m U1), (mxf n n V1).
have nthE i : (i < n)%N -> nth 0 (w_s r) i = s1 i by move=> hi; rewrite (repr1_eq Hs1) nth_mkseq.
have RE : rdiag m n (w_s r) = mxf m n (bidf s1 e1).
  apply/matrixP => i j; rewrite !mxE /bidf eq_sym; case: (altP (_ =P _)) => h.
    by rewrite nthE // -h.
  by rewrite e10 // if_same.
split=> //.
- congr SVDec; first by apply: (rep_mat_of Hum) => i j; rewrite mxE.
  + by apply: (rep_mat_of Hsm) => i j; rewrite mxE.
  + by apply: (rep_mat_of Hvm) => i j; rewrite mxE.
- split=> [|i hi|i hi]; first by rewrite ss1; lia.
  + by rewrite nthE // sp.
  + by rewrite !nthE ?ss //; lia.
rewrite RE; apply: le_trans bd _; rewrite /budget -/(delta _ _).
apply: ler_wpmuln2l; last by rewrite leq_subr.
by apply: addr_ge0 => //; apply: mulr_ge0 => //; apply: addr_ge0; apply: fro_ge0.
Qed.

Lemma svd_tall_mx m n (A : 'M[F]_(m, n)) fuel gs gu gv ge gw gb : (0 < n)%N -> (n <= m)%N ->
  wpp (svd_tall (S:=S) fuel gs gu gv ge gw gb (mat_of A)) (fun d => exists (s : seq F) (U : 'M[F]_m) (V : 'M[F]_n),
    [/\ d = SVDec (S:=S) (mat_of U) (mat_of (rdiag m n s)) (mat_of V),
        [/\ size s = n, forall i, (i < n)%N -> 0 <= nth 0 s i
          & forall i, (i.+1 < n)%N -> nth 0 s i.+1 <= nth 0 s i],
        orthogonal U, orthogonal V &
        fro (A - U *m rdiag m n s *m V^T) <= (tiny + eps * (fro A + fro A)) *+ n.-1]).
Proof.
move=> n0 nm; apply: svd_tall_gen => // st _ Ist.
apply: (wpp_loop (I := @sv_inv F eps tiny m n (fro A) A)
  (J := fun r => w_p r = 0%N /\ @sv_inv F eps tiny m n (fro A) A r)) => //.
by move=> st' Hst; apply: wp_wpp; apply: iter_ok => //; exact: fro_ge0.
Qed.

(** a column: one deflation step ends the loop *)
Lemma svd_tall_col m (A : 'M[F]_(m.+1, 1)) fuel gs gu gv ge gw gb :
  wp (svd_tall (S:=S) fuel.+2 gs gu gv ge gw gb (mat_of A)) (fun d => exists s, svd_s d = mat_of (rdiag m.+1 1 s)).
Proof.
apply: wpe_mono; last apply: svd_tall_gen => //; first by move=> d [s [U [V [-> _ _ _ _]]]]; exists s.
move=> st p1 Ist.
have [c E Hc] := proj1 (wp_ex _ _) (iter_ok eps0 tiny0 (isT : (1 <= m.+1)%N) isT (fro_ge0 A) Ist).
have [st' [cE p0]] : exists st', c = Next st' /\ w_p st' = 0%N.
  move: E; rewrite /svd_iter p1 /=; case: svd_kase4 => [[[sd' ud'] vd']|] //= [<-].
  by eexists.
rewrite cE in E Hc; cbn [loop_]; rewrite E; cbn [bind].
by rewrite {1}/svd_iter p0.
Qed.
End Aux.

Section Aux2.
Variable F : rcfType.

Lemma rdiag_tr m n (s : seq F) : (rdiag m n s)^T = rdiag n m s.
Proof. by apply/matrixP => i j; rewrite !mxE eq_sym; case: eqP => // ->. Qed.

Lemma fro_trB m n (A B : 'M[F]_(m, n)) : fro (A^T - B^T) = fro (A - B).
Proof. by rewrite -fro_tr linearB /= !trmxK. Qed.

(** descending non-negative lists: the positive ones come first *)
Lemma count_prefix (t : F) (s : seq F) : (forall i, (i.+1 < size s)%N -> nth 0 s i.+1 <= nth 0 s i) ->
  forall i, (i < size s)%N -> (t < nth 0 s i) = (i < count_above t s)%N.
Proof.
elim: s => [|x s IH] h i //.
have hs : forall j, (j.+1 < size s)%N -> nth 0 s j.+1 <= nth 0 s j by move=> j hj; apply: (h j.+1).
have {}IH := IH hs.
have all_le : forall j, (j < size s)%N -> nth 0 s j <= x.
  elim=> [|j IHj] hj; first by apply: (h 0%N).
  by apply: le_trans (hs j hj) _; apply: IHj; lia.
rewrite /count_above in IH *; case: i => [|i] /= hi.
  case: (ltP t x) => tx //=.
  symmetry; apply/negbTE; rewrite add0n -has_count -all_predC.
  apply/(all_nthP 0) => j hj /=; rewrite -leNgt; exact: le_trans (all_le j hj) tx.
rewrite IH //; case: (ltP t x) => tx; first by rewrite add1n ltnS.
have -> : count (fun y => t < y) s = 0%N; last by [].
apply/eqP; rewrite -leqn0 leqNgt -has_count -all_predC.
apply/(all_nthP 0) => j hj /=; rewrite -leNgt; exact: le_trans (all_le j hj) tx.
Qed.

Lemma rank_rdiag m n (s : seq F) : size s = minn m n -> (forall i, (i < size s)%N -> 0 <= nth 0 s i) ->
  (forall i, (i.+1 < size s)%N -> nth 0 s i.+1 <= nth 0 s i) ->
  \rank (rdiag m n s) = count_above 0 s.
Proof.
move=> sz sp ss; set r := count_above 0 s.
have rs : (r <= size s)%N by rewrite count_size.
pose d : 'rV[F]_m := \row_(i < m) (if (i < r)%N then nth 0 s i else 1).
have DE : rdiag m n s = diag_mx d *m pid_mx r.
  apply/matrixP => i j; rewrite mul_diag_mx !mxE.
  case: (altP (i =P j :> nat)) => h /=; last by rewrite mulr0.
  have hi : (i < size s)%N by have := ltn_ord i; have := ltn_ord j; lia.
  have := count_prefix 0 ss hi; rewrite -/r; case: ifP => // _ p; first by rewrite mulr1.
  by rewrite mulr0; apply/eqP; rewrite eq_le sp // andbT leNgt p.
have ud : row_full (diag_mx d).
  rewrite row_full_unit unitmxE det_diag unitfE; apply/prodf_neq0 => i _; rewrite mxE; case: ifP => h; last exact: oner_neq0.
  by rewrite gt_eqF // (count_prefix 0 ss) // (leq_trans h).
by rewrite DE (eqmxMfull _ ud) rank_pid_mx //; lia.
Qed.
End Aux2.

(*@section C35 the decomposition @*)
(*@doc C35: for every matrix (tall, square or wide), whatever the uninitialised buffers held and however many
    iterations are allowed: SVD::new either does not return within them, or returns U and V orthogonal, S
    rectangular diagonal with non-negative entries in non-increasing order, and A = U S V^T up to
    (min(m,n) - 1) (tiny + 2 eps |A|_F), tiny and eps being the two thresholds the code compares with.
    No panic, no index out of bounds, no division by zero, no root of a negative number.
    (The matrix is (m+1) x (n+1), so min - 1 is minn m n.) *)
Lemma svd_correct_L : forall (F : rcfType) (eps tiny : F) m n (A : 'M[F]_(m.+1, n.+1)) fuel (g : nat -> nat -> F),
  0 <= eps -> 0 <= tiny ->
  let result := svd_new (S:=exactE eps tiny) fuel (g 0%N) (g 1%N) (g 2%N) (g 3%N) (g 4%N) (g 5%N) (g 6%N) (g 7%N) (mat_of A) in
  result = Err OutOfFuel \/
  exists (s : seq F) (U : 'M[F]_m.+1) (V : 'M[F]_n.+1),
  [/\ result = Ok (SVDec (S:=exactE eps tiny) (mat_of U) (mat_of (rdiag m.+1 n.+1 s)) (mat_of V)),
      [/\ size s = minn m.+1 n.+1, forall i, (i < minn m.+1 n.+1)%N -> 0 <= nth 0 s i
        & forall i, (i.+1 < minn m.+1 n.+1)%N -> nth 0 s i.+1 <= nth 0 s i],
      orthogonal U, orthogonal V &
      fro (A - U *m rdiag m.+1 n.+1 s *m V^T) <= (minn m n)%:R * (tiny + 2%:R * eps * fro A)].
Proof.
move=> F eps tiny m n A fuel g e0 t0 result.
have dE : tiny + eps * (fro A + fro A) = tiny + 2%:R * eps * fro A.
  by ring.
case: (ltnP m n) => mn.
  have R : result = bind (svd_tall (S:=exactE eps tiny) fuel (g 0%N) (g 1%N) (g 2%N) (g 3%N) (g 4%N) (g 5%N) (mat_of A^T))
     (fun d => s' <-- t (g 7%N) (svd_s d) ;; Ok (SVDec (svd_v d) s' (svd_u d))).
    rewrite /result /svd_new (rep_cols (mat_of_rep 0 A)) //; cbn [bind].
    by rewrite (_ : rows (mat_of A) = m.+1) // ltnS mn t_ok_L.
  have nm : (m.+1 <= n.+1)%N by lia.
  have := @svd_tall_mx F eps tiny e0 t0 n.+1 m.+1 A^T fuel (g 0%N) (g 1%N) (g 2%N) (g 3%N) (g 4%N) (g 5%N) (ltn0Sn _) nm.
  rewrite R; case: svd_tall => [d|[]] //=; last by left.
  move=> [s [U [V [-> [sz sp ss] oU oV bd]]]] /=; right; exists s, V, U.
  have mE : minn m.+1 n.+1 = m.+1 by lia.
  have mE' : minn m n = m by lia.
  split=> //; first by rewrite t_ok_L //= rdiag_tr.
  - by split=> [|i|i]; rewrite mE // ; [exact: sp|exact: ss].
  rewrite ?mE' -dE -(fro_tr A) mulr_natl; apply: le_trans bd; rewrite -fro_trB.
  by rewrite !trmx_mul !trmxK rdiag_tr mulmxA.
have R : result = svd_tall (S:=exactE eps tiny) fuel (g 0%N) (g 1%N) (g 2%N) (g 3%N) (g 4%N) (g 5%N) (mat_of A).
  rewrite /result /svd_new (rep_cols (mat_of_rep 0 A)) //; cbn [bind].
  by rewrite (_ : rows (mat_of A) = m.+1) // ltnS ltnNge mn.
have nm : (n.+1 <= m.+1)%N by lia.
have := @svd_tall_mx F eps tiny e0 t0 m.+1 n.+1 A fuel (g 0%N) (g 1%N) (g 2%N) (g 3%N) (g 4%N) (g 5%N) (ltn0Sn _) nm.
rewrite R; case: svd_tall => [d|[]] //=; last by left.
move=> [s [U [V [-> [sz sp ss] oU oV bd]]]] /=; right; exists s, U, V.
have mE : minn m.+1 n.+1 = n.+1 by lia.
have mE' : minn m n = n by lia.
split=> //.
- by split=> [|i|i]; rewrite mE // ; [exact: sp|exact: ss].
by rewrite ?mE' -dE mulr_natl.
Qed.

(*@doc C35, total: with a positive lower threshold the iteration always ends (the shift makes the last
    off-diagonal elements of B B^T shrink geometrically), after at most q (q + 1) (K + 1) rounds, where
    q = min(m, n) and K is such that 2^K tiny^12 >= 16 |A|_F^12.  So SVD::new returns for every matrix. *)
Lemma svd_total_L : forall (F : rcfType) (eps tiny : F) m n (A : 'M[F]_(m.+1, n.+1)) K fuel (g : nat -> nat -> F),
  0 <= eps -> 0 < tiny -> (2 <= K)%N -> 16%:R * fro A ^+ 12 <= 2%:R ^+ K * tiny ^+ 12 ->
  (minn m.+1 n.+1 * (minn m.+1 n.+1).+1 * K.+1 <= fuel)%N ->
  exists (s : seq F) (U : 'M[F]_m.+1) (V : 'M[F]_n.+1),
  [/\ svd_new (S:=exactE eps tiny) fuel (g 0%N) (g 1%N) (g 2%N) (g 3%N) (g 4%N) (g 5%N) (g 6%N) (g 7%N) (mat_of A)
        = Ok (SVDec (S:=exactE eps tiny) (mat_of U) (mat_of (rdiag m.+1 n.+1 s)) (mat_of V)),
      [/\ size s = minn m.+1 n.+1, forall i, (i < minn m.+1 n.+1)%N -> 0 <= nth 0 s i
        & forall i, (i.+1 < minn m.+1 n.+1)%N -> nth 0 s i.+1 <= nth 0 s i],
      orthogonal U, orthogonal V &
      fro (A - U *m rdiag m.+1 n.+1 s *m V^T) <= (minn m n)%:R * (tiny + 2%:R * eps * fro A)].
Proof.
move=> F eps tiny m n A K fuel g e0 t0 K2 big fl.
have [h|//] := @svd_correct_L F eps tiny m n A fuel g e0 (ltW t0); exfalso; move: h.
case: (ltnP m n) => mn.
  rewrite /svd_new (rep_cols (mat_of_rep 0 A)) //; cbn [bind].
  rewrite (_ : rows (mat_of A) = m.+1) // ltnS mn t_ok_L //; cbn [bind].
  have nm : (m.+1 <= n.+1)%N by lia.
  have mE : minn m.+1 n.+1 = m.+1 by lia.
  have L st : w_p st = m.+1 -> @sv_inv F eps tiny n.+1 m.+1 (fro A^T) A^T st ->
     wp (loop_ fuel (svd_iter (S:=exactE eps tiny) n.+1 m.+1 m) st) (fun r => w_p r = 0%N /\ @sv_inv F eps tiny n.+1 m.+1 (fro A^T) A^T r).
    move=> pE I; rewrite mE in fl.
    apply: (@svd_loop_total F eps tiny e0 (ltW t0) n.+1 m.+1 nm (ltn0Sn _) _ (fro_ge0 _) A^T K K2 t0) => //.
    by rewrite fro_tr.
  have := @svd_tall_gen F eps tiny e0 (ltW t0) n.+1 m.+1 A^T _ fuel (g 0%N) (g 1%N) (g 2%N) (g 3%N) (g 4%N) (g 5%N) (ltn0Sn _) nm L.
  by case/wp_ex => d -> [s [U [V [-> _ _ _ _]]]]; cbn [bind svd_s]; rewrite t_ok_L.
rewrite /svd_new (rep_cols (mat_of_rep 0 A)) //; cbn [bind].
rewrite (_ : rows (mat_of A) = m.+1) // ltnS ltnNge mn.
have nm : (n.+1 <= m.+1)%N by lia.
have mE : minn m.+1 n.+1 = n.+1 by lia.
have L st : w_p st = n.+1 -> @sv_inv F eps tiny m.+1 n.+1 (fro A) A st ->
   wp (loop_ fuel (svd_iter (S:=exactE eps tiny) m.+1 n.+1 n) st) (fun r => w_p r = 0%N /\ @sv_inv F eps tiny m.+1 n.+1 (fro A) A r).
  move=> pE I; rewrite mE in fl.
  exact: (@svd_loop_total F eps tiny e0 (ltW t0) m.+1 n.+1 nm (ltn0Sn _) _ (fro_ge0 _) A K K2 t0).
have := @svd_tall_gen F eps tiny e0 (ltW t0) m.+1 n.+1 A _ fuel (g 0%N) (g 1%N) (g 2%N) (g 3%N) (g 4%N) (g 5%N) (ltn0Sn _) nm L.
by case/wp_ex => d ->.
Qed.

(*@example
(** the hypotheses are met by the two thresholds of the f64 code (2^-52 and 2^-966), every matrix of norm at
    most 2^10, and K = 11716 *)
Example svd_total_example (F : rcfType) m n (A : 'M[F]_(m.+1, n.+1)) : fro A <= 2%:R ^+ 10 ->
  let tiny : F := 2%:R ^- 966 in [/\ 0 < tiny, (2 <= 11716)%N & 16%:R * fro A ^+ 12 <= 2%:R ^+ 11716 * tiny ^+ 12].
Proof.
have p k : 0 < 2%:R ^+ k :> F by rewrite exprn_gt0 ?ltr0n.
move=> h; split; [by rewrite invr_gt0|by []|].
rewrite exprVn -exprM -(subnK (_ : 966 * 12 <= 11716)%N) // exprD mulfK ?gt_eqF //.
have -> : (11716 - 966 * 12 = 4 + 10 * 12)%N by [].
rewrite [X in _ <= X]exprD exprM -natrX; apply: ler_pmul; rewrite ?ler0n ?exprn_ge0 ?fro_ge0 //.
by apply: ler_expn2r; rewrite ?nnegrE ?fro_ge0 // ltW.
Qed.
@*)

(*@doc C35 with zero thresholds: the factorisation is exact, and the singular values are the square roots of
    the eigenvalues of A^T A (columns of V) and A A^T (columns of U). *)
Lemma svd_exact_L : forall (F : rcfType) m n (A : 'M[F]_(m.+1, n.+1)) fuel (g : nat -> nat -> F) d,
  svd_new (S:=exactE 0 0) fuel (g 0%N) (g 1%N) (g 2%N) (g 3%N) (g 4%N) (g 5%N) (g 6%N) (g 7%N) (mat_of A) = Ok d ->
  exists (s : seq F) (U : 'M[F]_m.+1) (V : 'M[F]_n.+1),
  [/\ [/\ svd_u d = mat_of U, svd_s d = mat_of (rdiag m.+1 n.+1 s) & svd_v d = mat_of V],
      A = U *m rdiag m.+1 n.+1 s *m V^T,
      (A^T *m A) *m V = V *m (rdiag n.+1 m.+1 s *m rdiag m.+1 n.+1 s) &
      (A *m A^T) *m U = U *m (rdiag m.+1 n.+1 s *m rdiag n.+1 m.+1 s)].
Proof.
move=> F m n A fuel g d E.
have [|] := @svd_correct_L F 0 0 m n A fuel g (lexx 0) (lexx 0); rewrite E // => -[s [U [V [[->] _ oU oV]]]].
rewrite mulr0 mul0r add0r mulr0 => h.
have AE : A = U *m rdiag m.+1 n.+1 s *m V^T.
  by apply/eqP; rewrite -subr_eq0 -fro_eq0 eq_le h fro_ge0.
have ATE : A^T = V *m rdiag n.+1 m.+1 s *m U^T by rewrite AE !trmx_mul trmxK rdiag_tr mulmxA.
exists s, U, V; split=> //.
  by rewrite ATE AE -!mulmxA (mulmxA U^T) oU.1 mul1mx oV.1 mulmx1.
by rewrite ATE AE -!mulmxA (mulmxA V^T) oV.1 mul1mx oU.1 mulmx1.
Qed.

(*@doc The decomposition does return for every column and every row vector, after two rounds of the loop (so
    the second alternative of the theorem above is met). *)
Lemma svd_vector_returns_L : forall (F : rcfType) (eps tiny : F) m n (A : 'M[F]_(m.+1, n.+1)) fuel (g : nat -> nat -> F),
  0 <= eps -> 0 <= tiny -> m = 0%N \/ n = 0%N ->
  exists d, svd_new (S:=exactE eps tiny) fuel.+2 (g 0%N) (g 1%N) (g 2%N) (g 3%N) (g 4%N) (g 5%N) (g 6%N) (g 7%N) (mat_of A) = Ok d.
Proof.
move=> F eps tiny m n A fuel g e0 t0; case: n A => [|n] A.
  move=> _; rewrite /svd_new (rep_cols (mat_of_rep 0 A)) //; cbn [bind].
  rewrite (_ : rows (mat_of A) = m.+1) // ltnS ltn0.
  have := @svd_tall_col F eps tiny e0 t0 m A fuel (g 0%N) (g 1%N) (g 2%N) (g 3%N) (g 4%N) (g 5%N).
  by case/wp_ex => d -> _; exists d.
case=> // m0; rewrite m0 in A *.
have [|] := @svd_correct_L F eps tiny 0 n.+1 A fuel.+2 g e0 t0; last first.
  by move=> [s [U [V [-> _ _ _ _]]]]; eexists.
rewrite /svd_new (rep_cols (mat_of_rep 0 A)) //; cbn [bind].
rewrite (_ : rows (mat_of A) = 1%N) // ltnS ltn0Sn t_ok_L //; cbn [bind].
have := @svd_tall_col F eps tiny e0 t0 n.+1 A^T fuel (g 0%N) (g 1%N) (g 2%N) (g 3%N) (g 4%N) (g 5%N).
by case/wp_ex => d -> [s E]; cbn [bind]; rewrite E t_ok_L.
Qed.

(*@section C36 rank @*)
(*@doc C36: rank() counts the singular values above max(m, n) s_00 eps when the matrix has at least as many
    columns as rows ... *)
Lemma svd_rank_partial_L : forall (F : rcfType) (eps tiny : F) m n (s : seq F) (U : 'M[F]_m.+1) (V : 'M[F]_n.+1),
  (m <= n)%N -> size s = minn m.+1 n.+1 ->
  svd_rank (SVDec (S:=exactE eps tiny) (mat_of U) (mat_of (rdiag m.+1 n.+1 s)) (mat_of V))
  = Ok (count_above ((maxn m.+1 n.+1)%:R * nth 0 s 0 * eps) s).
Proof.
move=> F eps tiny m n s U V mn sz; have sm : size s = m.+1 by rewrite sz; lia.
rewrite /svd_rank; cbn [svd_u svd_s svd_v].
have -> : rows (mat_of U) = m.+1 by [].
have -> : rows (mat_of V) = n.+1 by [].
have -> : rows (mat_of (rdiag m.+1 n.+1 s)) = m.+1 by [].
have G i : (i < m.+1)%N -> get (mat_of (rdiag m.+1 n.+1 s)) i i = Ok (nth 0 s i).
  move=> hi; have hn : (i < n.+1)%N by lia.
  rewrite (rep_get _ _ (mat_of_rep 0 _)) // hi hn (fn_lt _ _ hi hn) mxE /= eqxx //.
rewrite G //; cbn [bind].
set tol := _ * _ * eps.
suff : wp (for_ 0 m.+1 (fun i r => x <-- get (mat_of (rdiag m.+1 n.+1 s)) i i ;; Ok (if s_ltb (s:=exactE eps tiny) tol x then r + 1 else r)%N) 0%N)
  (fun r => r = count_above tol s) by case/wp_ex => r E1 <-; exact: E1.
apply: (wpe_for (fun i r => r = count_above tol (take i s))) => //; first by rewrite take0.
- move=> i r hi ->; rewrite G; last by lia.
  cbn [bind]; apply: wpe_ok; rewrite (@take_nth F 0 i s); last by rewrite sm; lia.
  rewrite /count_above -cats1 count_cat /= addn0.
  by case: (tol < _); rewrite ?addn0 ?addn1.
by move=> r ->; rewrite -sm take_size.
Qed.

(*@doc ... and panics for every matrix with more rows than columns, contrary to the claim that it does not. *)
Lemma svd_rank_tall_refuted_L : forall (F : rcfType) (eps tiny : F) m n (s : seq F) (U : 'M[F]_m.+1) (V : 'M[F]_n.+1),
  (n < m)%N ->
  svd_rank (SVDec (S:=exactE eps tiny) (mat_of U) (mat_of (rdiag m.+1 n.+1 s)) (mat_of V)) = Err Panic.
Proof.
move=> F eps tiny m n s U V mn.
rewrite /svd_rank; cbn [svd_u svd_s svd_v].
have -> : rows (mat_of U) = m.+1 by [].
have -> : rows (mat_of V) = n.+1 by [].
have -> : rows (mat_of (rdiag m.+1 n.+1 s)) = m.+1 by [].
have G i : get (mat_of (rdiag m.+1 n.+1 s)) i i = if (i < n.+1)%N then Ok (fn 0 (rdiag m.+1 n.+1 s) i i) else Err Panic.
  rewrite (rep_get _ _ (mat_of_rep 0 _)); case: (ltnP i n.+1) => h; rewrite ?andbT ?andbF //.
  by have -> : (i < m.+1)%N by lia.
rewrite G ltn0Sn; cbn [bind].
match goal with |- ?c0 = _ => set c := c0 end; suff : wpe (eq Panic) c (fun _ => False) by case: c => //= e <-.
apply: (@wpe_for_err _ _ (fun _ _ => True) _ _ n.+1); [by lia|by []| |].
- by move=> i r hi _; rewrite G; case: ifP.
by move=> r _; rewrite G ltnn.
Qed.

(*@doc C36 with zero thresholds, m <= n: rank() of the decomposition is the rank of the matrix. *)
Lemma svd_rank_exact_L : forall (F : rcfType) m n (A : 'M[F]_(m.+1, n.+1)) fuel (g : nat -> nat -> F) d,
  (m <= n)%N ->
  svd_new (S:=exactE 0 0) fuel (g 0%N) (g 1%N) (g 2%N) (g 3%N) (g 4%N) (g 5%N) (g 6%N) (g 7%N) (mat_of A) = Ok d ->
  svd_rank d = Ok (\rank A).
Proof.
move=> F m n A fuel g d mn E.
have [|] := @svd_correct_L F 0 0 m n A fuel g (lexx 0) (lexx 0); rewrite E // => -[s [U [V [[->] [sz sp ss] oU oV]]]].
rewrite mulr0 mul0r add0r mulr0 => h; rewrite svd_rank_partial_L // mulr0.
have AE : A = U *m rdiag m.+1 n.+1 s *m V^T.
  by apply/eqP; rewrite -subr_eq0 -fro_eq0 eq_le h fro_ge0.
have uU : row_full U by rewrite row_full_unit; case/mulmx1_unit: oU.1 => _.
have uV : row_free V^T by rewrite row_free_unit; case/mulmx1_unit: oV.1.
rewrite AE mxrankMfree // (eqmxMfull _ uU) rank_rdiag // sz //.
Qed.
