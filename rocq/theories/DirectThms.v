(** * DirectThms: proofs of the theorems about SVD::direct (restated in PropDirect.v). *)
From mathcomp Require Import all_ssreflect all_algebra zify ring.
From Verif Require Import Base Scalar Hoare ModelMatrix ModelLU ModelSVD ModelEigen Spec SpecDecomp MatrixProofs MatrixProofs2 MatrixThms LUProofs LUThms MiscThms QRThms Orth EigenProofs EigenThms SvdThms.

Set Implicit Arguments.
Unset Strict Implicit.
Unset Printing Implicit Defensive.
Import Order.TTheory GRing.Theory Num.Theory.
Local Open Scope ring_scope.

Section Aux.
Variable F : rcfType.
Variables eps tiny : F.
Hypothesis eps0 : 0 <= eps.
Local Notation S := (exactE eps tiny).

Lemma sqrt_all_ok (d : seq F) :
  sqrt_all (S:=S) d = if all (fun x => 0 <= x) d then Ok [seq Num.sqrt x | x <- d] else Err Undef.
Proof.
elim: d => [|x d IH] //; rewrite /= ltNge; case: (0 <= x) => //=.
by rewrite IH; case: all.
Qed.

Lemma sq_diag n (s : seq F) : (\matrix_(i < n, j < n) if i == j :> nat then nth 0 s i else 0) = diag_of n s.
Proof. by apply/matrixP => i j; rewrite !mxE val_eqE; case: eqP. Qed.

Lemma diag_of_unit n (s : seq F) : size s = n -> (diag_of n s \in unitmx) = (0 \notin s).
Proof.
move=> sz; have -> : diag_of n s = diag_mx (\row_i nth 0 s i).
  by apply/matrixP => i j; rewrite !mxE; case: eqP => [->|].
rewrite unitmxE det_diag unitfE; apply/idP/idP.
  move/prodf_neq0 => h; apply/(nthP 0) => -[i hi hz]; rewrite sz in hi.
  by have := h (Ordinal hi) isT; rewrite mxE /= hz eqxx.
by move=> h; apply/prodf_neq0 => i _; rewrite mxE; apply: contraNneq h => <-; rewrite mem_nth ?sz.
Qed.

Lemma mat_of_eq m m' n n' (A : 'M[F]_(m, n)) (B : 'M[F]_(m', n')) : m = m' -> n = n' ->
  (forall i j, (i < m)%N -> (j < n)%N -> fn 0 A i j = fn 0 B i j) -> mat_of A = mat_of B.
Proof.
move=> em en; rewrite -em -en in B *; move=> h; congr mat_of; apply/matrixP => i j.
by have := h i j (ltn_ord i) (ltn_ord j); rewrite !fnE.
Qed.

Lemma direct_tall_mx k n (A : 'M[F]_(n.+1 + k, n.+1)) fuel ge g gp :
  let r := svd_direct_tall (S:=S) fuel ge g gp (mat_of A) in
  r = Err OutOfFuel \/
  exists (d : seq F) (V : 'M[F]_n.+1),
  [/\ size d = n.+1, forall i j, (i < j < n.+1)%N -> nth 0 d j <= nth 0 d i, orthogonal V,
      fro (A^T *m A - V *m diag_of n.+1 d *m V^T) <= (12 * n.+1)%:R * eps * fro (A^T *m A) &
      let D := diag_of n.+1 [seq Num.sqrt x | x <- d] in
      r = if all (fun x => 0 <= x) d then
            if all (fun x => 0 < x) d then
              Ok (SVDec (S:=S) (mat_of (A *m V *m row_mx (invmx D) (0 : 'M_(_, k)))) (mat_of (col_mx D (0 : 'M_(k, _)))) (mat_of V))
            else Err Panic
          else Err Undef].
Proof.
move=> r; rewrite /r /svd_direct_tall t_ok_L //; cbn [bind]; rewrite mul_exact //; cbn [bind].
have sA : (A^T *m A)^T = A^T *m A by rewrite trmx_mul trmxK.
have [->|] := @eigen_symmetric_correct_L F eps tiny n _ fuel ge eps0 sA; first by left.
move=> [d [V [-> [sz ds] oV bd _]]]; right; exists d, V; split=> //.
cbn [bind eg_v eg_d]; set D := diag_of _ _; rewrite sqrt_all_ok; case: ifP => // dp; cbn [bind].
rewrite size_map sz block_diag_ok_L // size_map sz minnn eqxx; cbn [bind].
rewrite [X in mat_of X](_ : _ = D); last exact: sq_diag.
rewrite inverse_ok_L; cbn [bind]; rewrite diag_of_unit ?size_map //.
have -> : (0 \notin [seq Num.sqrt x | x <- d]) = all (fun x => 0 < x) d.
  elim: d dp {sz ds bd D} => [|x d IH] //= /andP[x0 /IH E]; rewrite in_cons negb_or E; congr (_ && _).
  by rewrite eq_sym sqrtr_eq0 -ltNge.
case: ifP => // _; rewrite (rep_cols (mat_of_rep 0 A)) //; cbn [bind].
rewrite (_ : rows (mat_of A) = (n.+1 + k)%N) //.
case: (posnP k) => [k0|k1].
  have -> : (n.+1 + k == n.+1)%N by lia.
  cbn [bind]; rewrite mul_exact //; cbn [bind]; rewrite mul_exact //; cbn [bind].
  congr (Ok (SVDec _ _ _)).
    rewrite mul_mx_row mulmx0; apply: mat_of_eq => //; first by rewrite k0 addn0.
    move=> i j hi hj; have hj' : (j < n.+1 + k)%N by lia.
    rewrite (fn_lt _ _ hi hj) (fn_lt _ _ hi hj') (_ : Ordinal hj' = lshift k (Ordinal hj)); last exact: val_inj.
    by rewrite row_mxEl.
  apply: mat_of_eq => //; first by rewrite k0 addn0.
  move=> i j hi hj; have hi' : (i < n.+1 + k)%N by lia.
  rewrite (fn_lt _ _ hi hj) (fn_lt _ _ hi' hj) (_ : Ordinal hi' = lshift k (Ordinal hi)); last exact: val_inj.
  by rewrite col_mxEu.
have -> : (n.+1 + k == n.+1)%N = false by lia.
have -> : usub (n.+1 + k) n.+1 = Ok k by rewrite /usub leq_addr addKn.
cbn [bind]; rewrite (rep_cols (mat_of_rep 0 D)) //; cbn [bind].
have [-> _ _] := @constants_ok_L S (g 6%N) k n.+1.
cbn [bind]; rewrite cb_ok_L //; cbn [bind].
rewrite (_ : rows (mat_of (invmx D)) = n.+1) //.
have [-> _ _] := @constants_ok_L S (g 8%N) n.+1 k.
cbn [bind]; rewrite (proj1 (cr_ok_L _ _ _ _)) //; cbn [bind].
by rewrite mul_exact //; cbn [bind]; rewrite mul_exact.
Qed.
End Aux.

Section Aux2.
Variable F : rcfType.

Lemma tall_P n (P : forall m, 'M[F]_(m, n.+1) -> Prop) : (forall k (A : 'M_(n.+1 + k, n.+1)), P _ A) ->
  forall m (A : 'M_(m.+1, n.+1)), (n <= m)%N -> P _ A.
Proof.
move=> h m A nm; have e : m.+1 = (n.+1 + (m - n))%N by lia.
by move: A; rewrite e => A; apply: h.
Qed.

Lemma rdiag_col k n (s : seq F) : size s = n -> rdiag (n + k) n s = col_mx (diag_of n s) 0.
Proof.
move=> sz; apply/matrixP => i j; rewrite !mxE; case: splitP => l e; rewrite !mxE e /= ?val_eqE; first by case: eqP.
by have -> : (n + l == j)%N = false by have := ltn_ord j; lia.
Qed.

Lemma nth_sqrt (d : seq F) i : nth 0 [seq Num.sqrt x | x <- d] i = Num.sqrt (nth 0 d i).
Proof.
case: (ltnP i (size d)) => h; first by rewrite (nth_map 0).
by rewrite !nth_default ?size_map // sqrtr0.
Qed.

(** what the tall case returns, as a matrix equation *)
Lemma direct_fact m n (A : 'M[F]_(n.+1 + m, n.+1)) (V : 'M[F]_n.+1) (D : 'M[F]_n.+1) : orthogonal V -> D \in unitmx ->
  A *m V *m row_mx (invmx D) (0 : 'M_(_, m)) *m col_mx D 0 *m V^T = A.
Proof.
move=> oV uD; rewrite mul_mx_row mul_row_col !mulmx0 ?mul0mx addr0.
by rewrite -(mulmxA _ (invmx D)) mulVmx // mulmx1 -mulmxA oV.2 mulmx1.
Qed.

Lemma gram_diag m n (B : 'M[F]_(m, n)) i : (B^T *m B) i i = \sum_j B j i ^+ 2.
Proof. by rewrite mxE; apply: eq_bigr => j _; rewrite mxE expr2. Qed.

Lemma gram_rank m n (A : 'M[F]_(m, n)) (V : 'M[F]_n) (d : seq F) : orthogonal V -> size d = n ->
  A^T *m A = V *m diag_of n d *m V^T ->
  all (fun x => 0 <= x) d /\ (all (fun x => 0 < x) d <-> \rank A = n).
Proof.
move=> oV sz E.
have G : (A *m V)^T *m (A *m V) = diag_of n d.
  by rewrite trmx_mul mulmxA -(mulmxA _ A^T) E !mulmxA oV.1 mul1mx -mulmxA oV.1 mulmx1.
have dE (i : 'I_n) : nth 0 d i = \sum_j (A *m V) j i ^+ 2.
  by rewrite -gram_diag G mxE eqxx mulr1n.
have dp : forall i, (i < n)%N -> 0 <= nth 0 d i.
  by move=> i hi; rewrite (dE (Ordinal hi)); apply: sumr_ge0 => j _; apply: sqr_ge0.
split; first by apply/(all_nthP 0) => i; rewrite sz; apply: dp.
split=> [/(all_nthP 0) dpos|rA].
  have uD : A^T *m A \in unitmx.
    rewrite E unitmx_mul unitmx_mul diag_of_unit // unitmx_tr andbC andbA.
    have -> : V \in unitmx by case/mulmx1_unit: oV.1.
    by apply/(nthP 0) => -[i hi h]; have := dpos i hi; rewrite h ltxx.
  apply/eqP; rewrite eqn_leq rank_leq_col /= -{1}(mxrank_unit uD); exact: mxrankM_maxr.
apply/(all_nthP 0) => i; rewrite sz => hi; rewrite lt_neqAle dp // andbT eq_sym.
apply/eqP => di0; have /eqP := dE (Ordinal hi); rewrite /= di0 eq_sym psumr_eq0; last by move=> j _; apply: sqr_ge0.
move/allP => h.
have cz : delta_mx 0 (Ordinal hi) *m (A *m V)^T = 0 :> 'rV_m.
  apply/rowP => j; rewrite -rowE !mxE.
  by have := h j (mem_index_enum _); rewrite sqrf_eq0 => /eqP; rewrite mxE.
have fr : row_free (A *m V)^T.
  rewrite /row_free mxrank_tr mxrankMfree ?rA // row_free_unit; by case/mulmx1_unit: oV.1.
have /eqP := cz; rewrite (mulmx_free_eq0 _ fr) => /eqP /matrixP /(_ 0 (Ordinal hi)).
by rewrite !mxE !eqxx /= => /eqP; rewrite oner_eq0.
Qed.
End Aux2.

Section Tall.
Variable F : rcfType.
Variables eps tiny : F.
Hypothesis eps0 : 0 <= eps.
Local Notation S := (exactE eps tiny).

(** the four outcomes of the tall case *)
Lemma direct_tall_cases n m (A : 'M[F]_(m.+1, n.+1)) fuel ge g gp : (n <= m)%N ->
  let r := svd_direct_tall (S:=S) fuel ge g gp (mat_of A) in
  [\/ r = Err OutOfFuel, r = Err Undef /\ eps != 0, r = Err Panic /\ (eps = 0 -> (\rank A < n.+1)%N) |
   exists (s : seq F) (U : 'M[F]_m.+1) (V : 'M[F]_n.+1),
   [/\ r = Ok (SVDec (S:=S) (mat_of U) (mat_of (rdiag m.+1 n.+1 s)) (mat_of V)),
       [/\ size s = n.+1, forall i, (i < n.+1)%N -> 0 < nth 0 s i
         & forall i, (i.+1 < n.+1)%N -> nth 0 s i.+1 <= nth 0 s i],
       A = U *m rdiag m.+1 n.+1 s *m V^T, orthogonal V
     & [/\ forall (i j : 'I_m.+1), (n < j)%N -> U i j = 0, eps = 0 -> \rank A = n.+1
         & eps = 0 -> U^T *m U = pid_mx n.+1]]].
Proof.
move=> nm; pose P m (A : 'M[F]_(m, n.+1)) := let r := svd_direct_tall (S:=S) fuel ge g gp (mat_of A) in
  [\/ r = Err OutOfFuel, r = Err Undef /\ eps != 0, r = Err Panic /\ (eps = 0 -> (\rank A < n.+1)%N) |
   exists (s : seq F) (U : 'M[F]_m) (V : 'M[F]_n.+1),
   [/\ r = Ok (SVDec (S:=S) (mat_of U) (mat_of (rdiag m n.+1 s)) (mat_of V)),
       [/\ size s = n.+1, forall i, (i < n.+1)%N -> 0 < nth 0 s i
         & forall i, (i.+1 < n.+1)%N -> nth 0 s i.+1 <= nth 0 s i],
       A = U *m rdiag m n.+1 s *m V^T, orthogonal V
     & [/\ forall (i j : 'I_m), (n < j)%N -> U i j = 0, eps = 0 -> \rank A = n.+1
         & eps = 0 -> U^T *m U = pid_mx n.+1]]].
apply: (tall_P (P := P)) nm => {m A} k A; rewrite /P; cbv zeta.
have [|[d [V [sz ds oV bd]]]] := @direct_tall_mx F eps tiny eps0 k n A fuel ge g gp; first by move=> h; constructor 1.
set D := diag_of _ _ => /= rE.
have GE : eps = 0 -> A^T *m A = V *m diag_of n.+1 d *m V^T.
  move=> e0; move: bd; rewrite e0 mulr0 mul0r => h; apply/eqP; rewrite -subr_eq0 -fro_eq0 eq_le h; exact: fro_ge0.
move: rE; case: (boolP (all _ _)) => dp; last first.
  move=> rE; constructor 2; split=> //; apply/eqP => e0; case/negP: dp.
  by case: (gram_rank oV sz (GE e0)).
case: (boolP (all _ _)) => dpos; last first.
  move=> rE; constructor 3; split=> // e0; case: (gram_rank oV sz (GE e0)) => _ h.
  by rewrite ltn_neqAle rank_leq_col andbT; apply/negP => /eqP /h; apply/negP.
move=> rE; constructor 4; move/(all_nthP 0): (dpos); rewrite sz => dpos'.
have ssz : size [seq Num.sqrt x | x <- d] = n.+1 by rewrite size_map.
have uD : D \in unitmx.
  rewrite diag_of_unit //; apply/negP => /(nthP 0)[i]; rewrite ssz nth_sqrt => hi /eqP.
  by rewrite sqrtr_eq0 leNgt dpos'.
exists [seq Num.sqrt x | x <- d], (A *m V *m row_mx (invmx D) 0), V; rewrite rdiag_col //; split=> //.
- split=> // i hi; rewrite !nth_sqrt; first by rewrite sqrtr_gt0 dpos'.
  by rewrite ler_wsqrtr // ds //; lia.
- by rewrite direct_fact.
split=> [i j hj|e0|e0].
- rewrite mul_mx_row mulmx0 mxE; case: splitP => l e; last by rewrite mxE.
  by exfalso; have := ltn_ord l; move: hj e; lia.
- by case: (gram_rank oV sz (GE e0)) => _ h; apply/h.
have DT : D^T = D by apply/matrixP => i j; rewrite !mxE eq_sym; case: eqP => [->|].
have DD : V^T *m (A^T *m A) *m V = D *m D.
  rewrite GE // !mulmxA oV.1 mul1mx -mulmxA oV.1 mulmx1; apply/matrixP => i j; rewrite !mxE.
  rewrite (bigD1 i) //= big1 ?addr0 => [|l hl]; last by rewrite !mxE eq_sym (negPf hl) mulr0n mul0r.
  rewrite !mxE eqxx mulr1n !nth_sqrt; case: eqP => [_|_]; last by rewrite !mulr0n mulr0.
  by rewrite !mulr1n -expr2 sqr_sqrtr // ltW // dpos'.
rewrite mul_mx_row mulmx0 tr_row_mx trmx0 mul_col_row !(mulmx0, mul0mx).
rewrite pid_mx_block !trmx_mul; congr block_mx.
rewrite trmx_inv DT.
transitivity (invmx D *m (V^T *m (A^T *m A) *m V) *m invmx D); first by rewrite !mulmxA.
by rewrite DD mulmxA mulVmx // mul1mx mulmxV.
Qed.
End Tall.

Lemma fro_sqr (F : rcfType) m n (A : 'M[F]_(m, n)) : fro A ^+ 2 = \tr (A^T *m A).
Proof.
rewrite fro_trace sqr_sqrtr // /mxtrace; apply: sumr_ge0 => i _; rewrite mxE; apply: sumr_ge0 => j _.
by rewrite mxE -expr2 sqr_ge0.
Qed.

Section Total.
Variable F : rcfType.
Variables eps tiny : F.
Hypothesis eps0 : 0 < eps.
Local Notation S := (exactE eps tiny).

Lemma direct_tall_total k n (A : 'M[F]_(n.+1 + k, n.+1)) fuel ge g gp (mu : F) :
  (2 <= fuel)%N -> 16%:R <= 2%:R ^+ fuel * eps ^+ 6 ->
  (forall x : 'cV[F]_n.+1, mu * fro x ^+ 2 <= fro (A *m x) ^+ 2) ->
  (12 * n.+1)%:R * eps * fro (A^T *m A) < mu ->
  exists d, svd_direct_tall (S:=S) fuel ge g gp (mat_of A) = Ok d.
Proof.
move=> f2 fe wc mu0.
have [|[d [V [sz ds oV bd ->]]]] := @direct_tall_mx F eps tiny (ltW eps0) k n A fuel ge g gp.
  rewrite /svd_direct_tall t_ok_L //; cbn [bind]; rewrite mul_exact //; cbn [bind].
  have sA : (A^T *m A)^T = A^T *m A by rewrite trmx_mul trmxK.
  have [d [V [-> [sz ds] oV _ _]]] := @eigen_symmetric_total_L F eps tiny n _ fuel ge eps0 f2 fe sA.
  cbn [bind eg_v eg_d]; rewrite sqrt_all_ok; case: ifP => // dp; cbn [bind].
  rewrite size_map sz block_diag_ok_L // size_map sz minnn eqxx; cbn [bind].
  rewrite [X in mat_of X](_ : _ = diag_of n.+1 [seq Num.sqrt x | x <- d]); last exact: sq_diag.
  rewrite inverse_ok_L; cbn [bind]; case: ifP => // _; rewrite (rep_cols (mat_of_rep 0 A)) //; cbn [bind].
  rewrite (_ : rows (mat_of A) = (n.+1 + k)%N) //.
  case: (posnP k) => [k0|k1].
    have -> : (n.+1 + k == n.+1)%N by lia.
    by cbn [bind]; rewrite mul_exact //; cbn [bind]; rewrite mul_exact.
  have -> : (n.+1 + k == n.+1)%N = false by lia.
  have -> : usub (n.+1 + k) n.+1 = Ok k by rewrite /usub leq_addr addKn.
  cbn [bind]; rewrite (rep_cols (mat_of_rep 0 _)) //; cbn [bind].
  have [-> _ _] := @constants_ok_L S (g 6%N) k n.+1.
  cbn [bind]; rewrite cb_ok_L //; cbn [bind].
  rewrite (_ : rows (mat_of (invmx _)) = n.+1) //.
  have [-> _ _] := @constants_ok_L S (g 8%N) n.+1 k.
  cbn [bind]; rewrite (proj1 (cr_ok_L _ _ _ _)) //; cbn [bind].
  by rewrite mul_exact //; cbn [bind]; rewrite mul_exact.
have dpos : all (fun x => 0 < x) d.
  apply/(all_nthP 0) => i; rewrite sz => hi; pose o := Ordinal hi.
  set E := A^T *m A - V *m diag_of n.+1 d *m V^T in bd.
  have dE : diag_of n.+1 d = (A *m V)^T *m (A *m V) - V^T *m E *m V.
    rewrite /E mulmxBr mulmxBl trmx_mul !mulmxA -(mulmxA _ V^T V) oV.1 mul1mx mulmx1.
    by rewrite opprB addrC subrK.
  have -> : nth 0 d i = diag_of n.+1 d o o by rewrite mxE eqxx mulr1n.
  rewrite dE mxE [X in _ + X]mxE subr_gt0.
  apply: le_lt_trans (ler_norm _) _; apply: le_lt_trans (fro_entry _ _ _) _.
  rewrite fro_orth_r // fro_orth_l; last exact: orthogonalT.
  apply: le_lt_trans bd _; apply: lt_le_trans mu0 _.
  have := wc (col o V); rewrite !fro_sqr.
  have tr1 m1 (B : 'M[F]_(m1, n.+1)) : \tr ((col o B)^T *m col o B) = (B^T *m B) o o.
    by rewrite trace_mx11 !mxE; apply: eq_bigr => j _; rewrite !mxE.
  rewrite tr1 oV.1 mxE eqxx mulr1 (_ : A *m col o V = col o (A *m V)); last by rewrite !colE mulmxA.
  by rewrite tr1.
have -> : all (fun x => 0 <= x) d by apply: sub_all dpos => x /ltW.
by rewrite dpos; eexists.
Qed.
End Total.

(*@section C47 SVD::direct @*)
(*@doc C47: whenever SVD::direct returns, U S V^T is exactly A (for any threshold eps of the eigenvalue
    iteration), S is rectangular diagonal with positive entries in non-increasing order, and the factor on the
    shorter side (V for m >= n, U for m < n) is orthogonal. *)
Lemma svd_direct_correct_L : forall (F : rcfType) (eps tiny : F) m n (A : 'M[F]_(m.+1, n.+1)) fuel ge g gp gt1 gt2 d,
  0 <= eps ->
  svd_direct (S:=exactE eps tiny) fuel ge g gp gt1 gt2 (mat_of A) = Ok d ->
  exists (s : seq F) (U : 'M[F]_m.+1) (V : 'M[F]_n.+1),
  [/\ [/\ svd_u d = mat_of U, svd_s d = mat_of (rdiag m.+1 n.+1 s) & svd_v d = mat_of V],
      [/\ size s = minn m.+1 n.+1, forall i, (i < minn m.+1 n.+1)%N -> 0 < nth 0 s i
        & forall i, (i.+1 < minn m.+1 n.+1)%N -> nth 0 s i.+1 <= nth 0 s i],
      A = U *m rdiag m.+1 n.+1 s *m V^T &
      if (n <= m)%N then orthogonal V else orthogonal U].
Proof.
move=> F eps tiny m n A fuel ge g gp gt1 gt2 d e0.
rewrite /svd_direct (rep_cols (mat_of_rep 0 A)) //; cbn [bind].
rewrite (_ : rows (mat_of A) = m.+1) // ltnS.
case: (ltnP m n) => mn.
  rewrite t_ok_L //; cbn [bind].
  have [->|[-> _]|[-> _]|] // := @direct_tall_cases F eps tiny e0 m n A^T fuel ge g gp (ltnW mn).
  move=> [s [U [V [-> [sz sp ss] AE oV _]]]]; cbn [bind svd_u svd_s svd_v]; rewrite t_ok_L // rdiag_tr => -[<-].
  exists s, V, U; have mE : minn m.+1 n.+1 = m.+1 by lia.
  by split=> //; [rewrite mE|rewrite -[A]trmxK AE !trmx_mul trmxK rdiag_tr mulmxA].
have [->|[-> _]|[-> _]|] // := @direct_tall_cases F eps tiny e0 n m A fuel ge g gp mn.
move=> [s [U [V [-> [sz sp ss] AE oV _]]]] [<-]; exists s, U, V.
have mE : minn m.+1 n.+1 = n.+1 by lia.
by split=> //; rewrite mE.
Qed.

(*@doc C47 with a zero threshold: apart from not converging, SVD::direct returns exactly for the matrices of
    full rank min(m, n), and panics (unwrap of None) for all others. *)
Lemma svd_direct_rank_L : forall (F : rcfType) (tiny : F) m n (A : 'M[F]_(m.+1, n.+1)) fuel ge g gp gt1 gt2,
  let result := svd_direct (S:=exactE 0 tiny) fuel ge g gp gt1 gt2 (mat_of A) in
  [\/ result = Err OutOfFuel,
      (\rank A < minn m.+1 n.+1)%N /\ result = Err Panic |
      \rank A = minn m.+1 n.+1 /\ exists d, result = Ok d].
Proof.
move=> F tiny m n A fuel ge g gp gt1 gt2; cbv zeta.
rewrite /svd_direct (rep_cols (mat_of_rep 0 A)) //; cbn [bind].
rewrite (_ : rows (mat_of A) = m.+1) // ltnS.
case: (ltnP m n) => mn.
  have mE : minn m.+1 n.+1 = m.+1 by lia.
  rewrite t_ok_L //; cbn [bind]; rewrite mE -(mxrank_tr A).
  have [->|[-> h]|[-> h]|] := @direct_tall_cases F 0 tiny (lexx 0) m n A^T fuel ge g gp (ltnW mn); first by constructor 1.
  - by rewrite eqxx in h.
  - by constructor 2; split=> //; apply: h.
  move=> [s [U [V [-> _ AE oV [_ h _]]]]]; constructor 3; split; first exact: h.
  by cbn [bind svd_u svd_s svd_v]; rewrite t_ok_L //; eexists.
have mE : minn m.+1 n.+1 = n.+1 by lia.
rewrite mE.
have [->|[-> h]|[-> h]|] := @direct_tall_cases F 0 tiny (lexx 0) n m A fuel ge g gp mn; first by constructor 1.
- by rewrite eqxx in h.
- by constructor 2; split=> //; apply: h.
move=> [s [U [V [-> _ AE oV [_ h _]]]]]; constructor 3; split; first exact: h.
by eexists.
Qed.

(*@doc C47, total: with a positive threshold eps, SVD::direct returns for every matrix whose smallest singular
    value is not too small: here mu is a lower bound for its square (for the side that is used), and mu has to
    exceed the error of the eigenvalues of the Gram matrix, 12 min(m,n) eps |A^T A|_F.  (For a smaller one it
    may panic.)  The bound on the number of iterations is the one of the symmetric eigenvalue problem. *)
Lemma svd_direct_total_L : forall (F : rcfType) (eps tiny mu : F) m n (A : 'M[F]_(m.+1, n.+1)) fuel ge g gp gt1 gt2,
  0 < eps -> (2 <= fuel)%N -> 16%:R <= 2%:R ^+ fuel * eps ^+ 6 ->
  (if (n <= m)%N then (forall x : 'cV[F]_n.+1, mu * fro x ^+ 2 <= fro (A *m x) ^+ 2) /\
                      (12 * n.+1)%:R * eps * fro (A^T *m A) < mu
   else (forall x : 'cV[F]_m.+1, mu * fro x ^+ 2 <= fro (A^T *m x) ^+ 2) /\
        (12 * m.+1)%:R * eps * fro (A *m A^T) < mu) ->
  exists d, svd_direct (S:=exactE eps tiny) fuel ge g gp gt1 gt2 (mat_of A) = Ok d.
Proof.
move=> F eps tiny mu m n A fuel ge g gp gt1 gt2 e0 f2 fe.
have T p q (B : 'M[F]_(p.+1, q.+1)) : (q <= p)%N ->
  (forall x : 'cV[F]_q.+1, mu * fro x ^+ 2 <= fro (B *m x) ^+ 2) ->
  (12 * q.+1)%:R * eps * fro (B^T *m B) < mu ->
  exists d, svd_direct_tall (S:=exactE eps tiny) fuel ge g gp (mat_of B) = Ok d.
  move=> qp; pose P p (B : 'M[F]_(p, q.+1)) := (forall x : 'cV[F]_q.+1, mu * fro x ^+ 2 <= fro (B *m x) ^+ 2) ->
    (12 * q.+1)%:R * eps * fro (B^T *m B) < mu ->
    exists d, svd_direct_tall (S:=exactE eps tiny) fuel ge g gp (mat_of B) = Ok d.
  by apply: (tall_P (P := P)) qp => k C; apply: direct_tall_total.
rewrite /svd_direct (rep_cols (mat_of_rep 0 A)) //; cbn [bind].
rewrite (_ : rows (mat_of A) = m.+1) // ltnS.
case: (ltnP m n) => mn [wc bd].
  rewrite t_ok_L //; cbn [bind].
  have [|d] := T _ _ _ (ltnW mn) wc; first by rewrite trmxK.
  have [->|[-> _]|[-> _]|] // := @direct_tall_cases F eps tiny (ltW e0) m n A^T fuel ge g gp (ltnW mn).
  by move=> [s [U [V [-> _ _ _ _]]]] _; cbn [bind svd_u svd_s svd_v]; rewrite t_ok_L //; eexists.
exact: T.
Qed.

(*@example
(** the hypotheses are met by the 2 x 2 identity, the f64 epsilon and 316 iterations *)
Example svd_direct_total_example (F : rcfType) : let eps : F := 2%:R ^- 52 in
  [/\ 0 < eps, 16%:R <= 2%:R ^+ 316 * eps ^+ 6,
      forall x : 'cV[F]_2, 1 * fro x ^+ 2 <= fro (1%:M *m x) ^+ 2 &
      (12 * 2)%:R * eps * fro ((1%:M : 'M[F]_2)^T *m 1%:M) < 1].
Proof.
have p k : 0 < 2%:R ^+ k :> F by rewrite exprn_gt0 ?ltr0n.
split=> [| |x|]; first by rewrite invr_gt0.
- rewrite exprVn -exprM (_ : 316%N = (4 + 52 * 6)%N) // exprD mulfK ?gt_eqF //.
  by rewrite -natrX.
- by rewrite mul1mx mul1r.
have h : fro (1%:M : 'M[F]_2) <= 2%:R.
  rewrite -[2%:R]ger0_norm ?ler0n // -sqrtr_sqr ler_wsqrtr //.
  by rewrite !big_ord_recl !big_ord0 !mxE /= !addr0 expr0n expr1n /= addr0 add0r -natrX -(natrD _ 1 1) ler_nat.
rewrite trmx1 mulmx1; apply: le_lt_trans (ler_wpmul2l _ h) _; first by rewrite mulr_ge0 ?ler0n // ltW // invr_gt0.
rewrite mulrAC -natrM ltr_pdivr_mulr // mul1r -natrX ltr_nat.
by apply: (@leq_trans (2 ^ 6)); rewrite ?leq_exp2l.
Qed.
@*)

(*@doc C47: the claim that U and V are orthogonal fails for every non-square matrix: the factor on the longer
    side has zero columns.  (Here for m > n; a wide matrix is transposed first.) *)
Lemma svd_direct_u_refuted_L : forall (F : rcfType) (eps tiny : F) m n (A : 'M[F]_(m.+1, n.+1)) fuel ge g gp gt1 gt2 d,
  0 <= eps -> (n < m)%N ->
  svd_direct (S:=exactE eps tiny) fuel ge g gp gt1 gt2 (mat_of A) = Ok d ->
  exists U : 'M[F]_m.+1, [/\ svd_u d = mat_of U, forall i j : 'I_m.+1, (n < j)%N -> U i j = 0 & ~ orthogonal U].
Proof.
move=> F eps tiny m n A fuel ge g gp gt1 gt2 d e0 nm.
rewrite /svd_direct (rep_cols (mat_of_rep 0 A)) //; cbn [bind].
rewrite (_ : rows (mat_of A) = m.+1) // ltnS ltnNge (ltnW nm) /=.
have [->|[-> _]|[-> _]|] // := @direct_tall_cases F eps tiny e0 n m A fuel ge g gp (ltnW nm).
move=> [s [U [V [-> _ _ _ [Uz _ _]]]]] [<-]; exists U; split=> // -[oU _].
move/matrixP: oU => /(_ ord_max ord_max); rewrite !mxE eqxx big1; first by move/eqP; rewrite eq_sym oner_eq0.
by move=> i _; rewrite Uz ?mulr0 //=.
Qed.

(*@doc C47 with a zero threshold, m >= n: the first n columns of U are orthonormal, the others are zero
    (so for square matrices U is orthogonal). *)
Lemma svd_direct_thin_L : forall (F : rcfType) (tiny : F) m n (A : 'M[F]_(m.+1, n.+1)) fuel ge g gp gt1 gt2 d,
  (n <= m)%N ->
  svd_direct (S:=exactE 0 tiny) fuel ge g gp gt1 gt2 (mat_of A) = Ok d ->
  exists2 U : 'M[F]_m.+1, svd_u d = mat_of U & U^T *m U = pid_mx n.+1.
Proof.
move=> F tiny m n A fuel ge g gp gt1 gt2 d nm.
rewrite /svd_direct (rep_cols (mat_of_rep 0 A)) //; cbn [bind].
rewrite (_ : rows (mat_of A) = m.+1) // ltnS ltnNge nm /=.
have [->|[-> _]|[-> _]|] // := @direct_tall_cases F 0 tiny (lexx 0) n m A fuel ge g gp nm.
by move=> [s [U [V [-> _ _ _ [_ _ h]]]]] [<-]; exists U => //; apply: h.
Qed.
