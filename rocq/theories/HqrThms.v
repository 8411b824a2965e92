(** * HqrThms: proofs of the theorems about EigenDecomposition on matrices that
    are not symmetric (restated in PropHqr.v). *)
From mathcomp Require Import all_ssreflect all_algebra zify ring.
From Verif Require Import Base Scalar Hoare ModelMatrix ModelEigen Spec SpecDecomp MatrixProofs MatrixThms LUProofs LUThms MiscThms QRThms Orth TredProofs TqlProofs EigenProofs OrthesProofs EigenThms HqrStep HqrSweep HqrIter HqrMore HqrTwo HqrAll HqrBack HqrFinal.

Set Implicit Arguments.
Unset Strict Implicit.
Unset Printing Implicit Defensive.
Import Order.TTheory GRing.Theory Num.Theory.
Local Open Scope ring_scope.

Section Aux.
Variable F : rcfType.
Variables eps tiny : F.
Hypothesis eps0 : 0 < eps.
Local Notation S := (exactE eps tiny).

Lemma eigen_new_gen (E : err -> Prop) n (A : 'M[F]_n.+1) fuel gv gd ge gh go gz gr gs :
  (forall norm (st : hq S), 0 < norm -> norm <= (n.+1 * n.+1)%:R * fro A -> @hinv F eps tiny n.+1 A 0 st ->
     wpe E (loop_ fuel (hqr2_iter (S:=S) n.+1 norm) st) (fun st' => @hinv F eps tiny n.+1 A fuel st' /\ hq_n1 st' = 0%N)) ->
  A^T <> A ->
  wpe E (eigen_new (S:=S) fuel gv gd ge gh go gz gr gs (mat_of A)) (fun x => exists d e V B,
    [/\ x = Eigen (S:=S) n.+1 d e (mat_of V), conj_pairs n.+1 d e,
        fro (A - B) <= ((1 + eps * KK F n.+1) ^+ fuel - 1) * fro A /\ char_poly B = eig_poly n.+1 d e,
        V \in unitmx &
        distinct_pairs n.+1 d e -> fro (A *m V - V *m pair_blocks n.+1 d e)
          <= ((1 + eps * KK F n.+1) ^+ fuel - 1 + eps * (n.+1 * n.+1)%:R) * fro A * fro V]).
Proof.
move=> HL nA; have Ha := mat_of_rep 0 A.
rewrite /eigen_new (rep_cols Ha) //; cbn [bind]; rewrite (@eigen_symmetric_ok S _ _ _ _ Ha) //; cbn [bind].
have -> : symb (S:=S) n.+1 (fn 0 A) = false.
  apply/negP => /symbP h; apply: nA; apply/matrixP => i j; rewrite mxE.
  by have := h i j (ltn_ord i) (ltn_ord j); rewrite !fnE.
have w1 A0 (m : res A0) Q : wp m Q -> wpe E m Q by case: m.
apply: wpe_bind; apply: (w1); apply: wpe_mono (@eigen_copy_t_ok S _ _ _ _ _ _ Ha (leqnn _) (@repr_alloc S n.+1 gh)) => h1 H1.
have H2 := @orthes_ok F eps tiny n.+1 go _ _ _ _ (ltn0Sn _) H1 (@repr_alloc S n.+1 gv).
apply: wpe_bind; apply: (w1); apply: wpe_mono H2 => -[h2 v2] [f [V [Hf HV oV AE]]]; cbn [fst snd] in Hf, HV.
rewrite mxf_fn in AE.
have A0 : A != 0 by apply: contra_not_neq nA => ->; rewrite trmx0.
have := @hqr2_ok F eps tiny eps0 n.+1 (ltn0Sn n) E fuel gz gr gs _ _ _ _ _ _ _ _ A HL (repr1_mkseq n.+1 gd) (repr1_mkseq n.+1 ge) Hf HV oV AE A0.
move=> H3; apply: wpe_bind; apply: wpe_mono H3 => -[[dd ee] v3] [W [B [d [e [[-> -> HW] cp bd uW res]]]]].
apply: wpe_bind; apply: (w1); apply: wpe_mono (new_rep (ltn0Sn _) (ltn0Sn _) HW) => vm Hvm.
apply: wpe_ok; exists (mkseq d n.+1), (mkseq e n.+1), W, B; split=> //.
by rewrite (rep_mat_of Hvm (A := W)) // => i j; rewrite fnE.
Qed.
End Aux.

(*@section C48 matrices that are not symmetric @*)
(*@doc C48: for every square matrix that is not symmetric, whatever the uninitialised buffers held and
    however many QR iterations are allowed: the decomposition either does not return within them, or returns
    eigenvalues d_i + i e_i and a matrix V such that
    - complex eigenvalues come in adjacent conjugate pairs, positive imaginary part first;
    - they are exactly the eigenvalues, with multiplicities, of a matrix B near A;
    - V is invertible;
    - A V = V D up to a small error, where D is the block diagonal matrix get_d returns, unless two of the
      conjugate pairs are the same.
    No panic, no division by zero, no root of a negative number.  eps is the machine epsilon the code
    compares with; the bounds go to 0 with it. *)
Lemma eigen_general_correct_L : forall (F : rcfType) (eps tiny : F) n (A : 'M[F]_n.+1) fuel (g : nat -> nat -> F),
  0 < eps -> A^T <> A ->
  let result := eigen_new (S:=exactE eps tiny) fuel (g 0%N) (g 1%N) (g 2%N) (g 3%N) (g 4%N) (g 5%N) (g 6%N) (g 7%N) (mat_of A) in
  let delta := (1 + eps * (18 + 2 * (n.+1 * n.+1))%:R) ^+ fuel - 1 in
  result = Err OutOfFuel \/
  exists (d e : seq F) (V B : 'M[F]_n.+1),
  [/\ result = Ok (Eigen (S:=exactE eps tiny) n.+1 d e (mat_of V)),
      conj_pairs n.+1 d e,
      fro (A - B) <= delta * fro A /\ char_poly B = eig_poly n.+1 d e,
      V \in unitmx &
      distinct_pairs n.+1 d e ->
      fro (A *m V - V *m pair_blocks n.+1 d e) <= (delta + eps * (n.+1 * n.+1)%:R) * fro A * fro V].
Proof.
move=> F eps tiny n A fuel g e0 nA result delta.
have := @eigen_new_gen F eps tiny e0 fuelerr n A fuel (g 0%N) (g 1%N) (g 2%N) (g 3%N) (g 4%N) (g 5%N) (g 6%N) (g 7%N)
  (fun norm st n0 nl I0 => loop_ok e0 n0 nl fuel I0) nA.
rewrite -/result; case: result => [x|er] /=; last by move=> ->; left.
by move=> [d [e [V [B [-> h1 h2 h3 h4]]]]]; right; exists d, e, V, B.
Qed.

(*@doc C48: for a 2 x 2 matrix that is not symmetric three iterations are always enough, so the
    decomposition returns. *)
Lemma eigen_general_2x2_returns_L : forall (F : rcfType) (eps tiny : F) (A : 'M[F]_2) fuel (g : nat -> nat -> F),
  0 < eps -> A^T <> A -> (3 <= fuel)%N ->
  exists x, eigen_new (S:=exactE eps tiny) fuel (g 0%N) (g 1%N) (g 2%N) (g 3%N) (g 4%N) (g 5%N) (g 6%N) (g 7%N) (mat_of A) = Ok x.
Proof.
move=> F eps tiny A fuel g e0 nA f3.
have /wp_ex[x -> _] := @eigen_new_gen F eps tiny e0 noerr 1 A fuel (g 0%N) (g 1%N) (g 2%N) (g 3%N) (g 4%N) (g 5%N) (g 6%N) (g 7%N)
  (fun norm st n0 nl I0 => loop2_ok e0 n0 nl isT f3 I0) nA.
by exists x.
Qed.

(*@section C40 get_d of a decomposition that was returned @*)
(*@doc C40: for every square matrix, symmetric or not: if new returns, then get_d does not panic and
    is the block diagonal matrix with the block [d] for a real eigenvalue and the block [d e; -e d] for a
    conjugate pair. *)
Lemma eigen_get_d_total_L : forall (F : rcfType) (eps tiny : F) n (A : 'M[F]_n.+1) fuel (g : nat -> nat -> F) g' x,
  0 < eps ->
  eigen_new (S:=exactE eps tiny) fuel (g 0%N) (g 1%N) (g 2%N) (g 3%N) (g 4%N) (g 5%N) (g 6%N) (g 7%N) (mat_of A) = Ok x ->
  conj_pairs n.+1 (eg_d x) (eg_e x) /\
  eigen_get_d g' x = Ok (mat_of (pair_blocks n.+1 (eg_d x) (eg_e x))).
Proof.
move=> F eps tiny n A fuel g g' x e0 E.
have [d [e [v [xE cp]]]] : exists d e v, x = Eigen (S:=exactE eps tiny) n.+1 d e v /\ conj_pairs n.+1 d e.
  case: (altP (A^T =P A)) => sA.
    have [|] := @eigen_symmetric_correct_L F eps tiny n A fuel g (ltW e0) sA; rewrite E // => -[d [V [[->] [sd _] _ _ _]]].
    exists d, (nseq n.+1 0), (mat_of V); split=> //; split=> //; first by rewrite size_nseq.
    by move=> i hi; constructor 1; rewrite nth_nseq hi.
  have nA : A^T <> A by apply/eqP.
  have [|] := @eigen_general_correct_L F eps tiny n A fuel g e0 nA; rewrite E // => -[d [e [V [B [[->] cp _ _ _]]]]].
  by exists d, e, (mat_of V).
rewrite xE /=; split=> //; case: cp => sd se cp.
have Hr (s : seq F) : size s = n.+1 -> repr1 n.+1 s (fun i => nth 0 s i).
  by move=> ss; split=> // i hi; rewrite (vgetE 0) // ss.
have h1 : ~~ s_ltb (s:=exactE eps tiny) 0 (nth 0 e n.+1.-1).
  rewrite /= -leNgt; have [->//|[_]|[/ltW]//] := cp n (ltnSn n).
  by rewrite ltnn.
have h2 : s_ltb (s:=exactE eps tiny) 0 (nth 0 e 0) || ~~ s_ltb (s:=exactE eps tiny) (nth 0 e 0) 0.
  rewrite /= -leNgt; have [->|[->]//|[_]] := cp 0%N (ltn0Sn n); last by [].
  by rewrite lexx orbT.
have := @eigen_get_d_ok (exactE eps tiny) n.+1 g' (Eigen n.+1 d e v) _ _ (ltn0Sn _) erefl (Hr d sd) (Hr e se) h1 h2.
move=> H; apply: wp_mat_of H _ => i j; rewrite mxE /eig_block [j == i :> nat]eq_sym (inj_eq val_inj) /=.
case: eqP => // _; rewrite [_ == val i :> nat]eq_sym.
case: (ltP 0 (nth 0 e i)) => ei; rewrite ?andbT ?andbF /=.
  by rewrite [nth 0 e i < 0]ltNge (ltW ei) andbF orbF.
by rewrite andbC.
Qed.

(*@doc C48: up to size 3 there is at most one conjugate pair, so the error bound on A V = V D always applies;
    from size 4 on it is a real condition. *)
Lemma distinct_pairs_small_L : forall (F : rcfType) n (d e : seq F), (n <= 3)%N -> conj_pairs n d e -> distinct_pairs n d e.
Proof.
move=> F n d e n3 [_ _ cp] i j hi hj ei ej dij eij.
have [E|[_ hi' _ Ei]|[/lt_gtF]] := cp i hi; [by move: ei; rewrite E ltxx| |by rewrite ei].
have [E|[_ hj' _ Ej]|[/lt_gtF]] := cp j hj; [by move: ej; rewrite E ltxx| |by rewrite ej].
have b1 : i <> j.+1 by move=> h; move: ei; rewrite h Ej oppr_gt0 lt_gtF.
have b2 : j <> i.+1 by move=> h; move: ej; rewrite h Ei oppr_gt0 lt_gtF.
lia.
Qed.

(*@example
(** the hypotheses are met by the rotation by a right angle, and the decomposition returns *)
Example eigen_general_example (F : rcfType) (eps tiny : F) (g : nat -> nat -> F) :
  let A : 'M[F]_2 := \matrix_(i, j) (if i == j then 0 else if (i < j)%N then 1 else -1) in
  0 < eps ->
  A^T <> A /\ exists x, eigen_new (S:=exactE eps tiny) 3 (g 0%N) (g 1%N) (g 2%N) (g 3%N) (g 4%N) (g 5%N) (g 6%N) (g 7%N) (mat_of A) = Ok x.
Proof.
move=> A e0; have nA : A^T <> A.
  move=> /matrixP/(_ ord0 ord_max); rewrite !mxE /= => /eqP.
  by rewrite eq_sym -subr_eq0 opprK -mulr2n mulrn_eq0 oner_eq0.
by split=> //; apply: eigen_general_2x2_returns.
Qed.
@*)
