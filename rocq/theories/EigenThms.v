(** * EigenThms: proofs of the theorems about EigenDecomposition on symmetric
    matrices, cdiv and get_d (restated in PropEigen.v). *)
From mathcomp Require Import all_ssreflect all_algebra zify ring.
From Verif Require Import Base Scalar Hoare ModelMatrix ModelEigen Spec SpecDecomp MatrixProofs MatrixThms LUProofs LUThms MiscThms QRThms Orth TredProofs TqlProofs EigenProofs OrthesProofs.

Set Implicit Arguments.
Unset Strict Implicit.
Unset Printing Implicit Defensive.
Import Order.TTheory GRing.Theory Num.Theory.
Local Open Scope ring_scope.

Lemma repr_inj T m n (v w : seq T) f : repr m n v f -> repr m n w f -> v = w.
Proof.
move=> [sv hv] [sw hw]; apply: vget_ext; first by rewrite sv sw.
by move=> k; rewrite sv => hk; have [e hi hj] := idx_divmod hk; rewrite e hv // hw.
Qed.

Lemma symbP (F : rcfType) (eps tiny : F) n f :
  reflect (forall i j, (i < n)%N -> (j < n)%N -> f i j = f j i) (symb (S:=exactE eps tiny) n f).
Proof.
apply: (iffP idP) => [/allP h i j hi hj|h].
  have /h : j \in iota 0 n by rewrite mem_iota.
  by move/allP => /(_ i); rewrite mem_iota => /(_ hi) /eqP.
apply/allP => j; rewrite mem_iota => /andP[_ hj]; apply/allP => i; rewrite mem_iota => /andP[_ hi].
by apply/eqP; apply: h.
Qed.

Lemma fro_eq0 (F : rcfType) m n (A : 'M[F]_(m, n)) : (fro A == 0) = (A == 0).
Proof.
apply/eqP/eqP => [h|->]; last first.
  by rewrite /fro big1 ?sqrtr0 // => i _; rewrite big1 // => j _; rewrite mxE expr0n.
apply/matrixP => i j; have := fro_entry A i j; rewrite h mxE normr_le0 => /eqP; exact.
Qed.

Section Aux.
Variable F : rcfType.
Variables eps tiny : F.
Local Notation S := (exactE eps tiny).

Lemma diag_of_tri0 n (d : nat -> F) : mxf n n (tri0 d (fun _ => 0)) = diag_of n (mkseq d n).
Proof.
apply/matrixP => i j; rewrite !mxE /tri0 nth_mkseq // -(inj_eq val_inj) /=.
by case: (altP (_ =P _)) => h; rewrite ?mulr1n ?mulr0n //; do 2?case: ifP => //.
Qed.

Lemma eigen_new_sym (E : err -> Prop) m n a f fuel gv gd ge gh go gz gr gs : 0 <= eps ->
  E OutOfFuel \/ (2 <= fuel)%N /\ 16%:R <= 2%:R ^+ fuel * eps ^+ 6 ->
  rep m n a f -> (0 < n)%N -> (n <= m)%N ->
  (forall i j, (i < n)%N -> (j < n)%N -> f i j = f j i) ->
  wpe E (eigen_new (S:=S) fuel gv gd ge gh go gz gr gs a) (fun x => exists d V,
    [/\ x = Eigen (S:=S) n (mkseq d n) (nseq n 0) (mat_of (mxf n n V)),
        forall i j, (i < j < n)%N -> d j <= d i, orthogonal (mxf n n V) &
        fro (mxf n n f - mxf n n V *m diag_of n (mkseq d n) *m (mxf n n V)^T)
          <= eps * fro (mxf n n f) *+ (12 * n)]).
Proof.
move=> e0 EF Ha n0 nm sf; rewrite /eigen_new (rep_cols Ha); last by lia.
cbn [bind]; rewrite (eigen_symmetric_ok Ha nm).
have -> : symb n f = true by apply/symbP.
cbn [bind]; apply: wpe_bind; apply: wp_wpe; apply: wpe_mono (eigen_copy_ok Ha nm (repr_alloc n gv)) => v1 Hv1.
have H0 := @tred2_ok F eps tiny n _ _ _ _ _ _ n0 (repr1_mkseq n gd) Hv1 (repr1_mkseq n ge).
apply: wpe_bind; apply: wp_wpe; apply: wpe_mono H0 => -[[dd2 v2] ee2] /= [d [V [e [Hd HV He oV [AE _]]]]].
have sfE : mxf n n (sy f) = mxf n n f.
  by apply/matrixP => i j; rewrite !mxE /sy; case: ifP => // _; apply: sf.
rewrite sfE in AE.
have H1 := @tql2_ok F eps tiny n (mxf n n f) e0 _ erefl E fuel EF _ _ _ _ _ _ n0 He Hd HV oV AE.
apply: wpe_bind; apply: wpe_mono H1 => -[[ee3 dd3] v3] /= [e' [d' [V' [He' Hd' HV' oV' [ez ds bd]]]]].
apply: wpe_bind; apply: wp_wpe; apply: wpe_mono (new_rep n0 n0 HV') => vm Hvm.
apply: wpe_ok; exists d', V'; split=> //; last by rewrite -diag_of_tri0.
have -> : dd3 = mkseq d' n by apply: repr1_eq.
have -> : ee3 = nseq n 0.
  rewrite (repr1_eq He'); apply: (@eq_from_nth _ 0); first by rewrite size_mkseq size_nseq.
  by move=> i; rewrite size_mkseq => hi; rewrite nth_mkseq // nth_nseq hi ez.
by rewrite (rep_mat_of Hvm (A := mxf n n V')) // => i j; rewrite mxE.
Qed.

Lemma eigen_symmetric_wide m n (a : mat F) f : rep m n a f -> (m < n)%N ->
  wpe (eq Panic) (eigen_symmetric (S:=S) n a) (fun b => b = false).
Proof.
move=> Ha mn; rewrite /eigen_symmetric.
apply: (wpe_mono (Q := fun b => (0 < n)%N -> b = false)); first by move=> b ->; lia.
apply: (wpe_for (fun j b => (0 < j)%N -> b = false)) => //.
move=> j b hj hb; case: ifP => [bt|->] //.
apply: (wpe_mono (Q := fun b => (m < n)%N -> b = false)); first by move=> b1 ->.
apply: (wpe_for (fun i b => (m < i)%N -> b = false)) => //.
move=> i b1 hi hb1; case: ifP => [b1t|->] //.
rewrite !(rep_get _ _ Ha); case: ifP => //= h1; case: ifP => //= h2.
by move=> h; exfalso; lia.
Qed.

Lemma eigen_copy_t_wide m n (a : mat F) f v : rep m n a f -> (m < n)%N ->
  wpe (eq Panic) (eigen_copy_t (S:=S) n a v) (fun _ => False).
Proof.
move=> Ha mn; rewrite /eigen_copy_t.
apply: (@wpe_for_err _ _ (fun _ _ => True) _ _ 0%N); [by lia|by []|by move=> i s; lia|] => v1 _.
apply: (@wpe_for_err _ _ (fun _ _ => True) _ _ m); [by lia|by []| |].
  move=> i v2 hi _; rewrite !(rep_get _ _ Ha); case: ifP => //= _.
  by rewrite /vset; case: ifP.
by move=> v2 _; rewrite !(rep_get _ _ Ha) ltnn.
Qed.
End Aux.

(*@section C37 symmetric matrices @*)
(*@doc C37: for every symmetric matrix, whatever the uninitialised buffers held and however many QL
    iterations are allowed: the decomposition either does not return within them, or returns V orthogonal,
    imaginary parts all zero, real parts in non-increasing order, and A = V D V^T up to 12 n eps |A|_F
    (Frobenius norm; eps is the machine epsilon the code compares with).  No panic, no division by zero,
    no root of a negative number. *)
Lemma eigen_symmetric_correct_L : forall (F : rcfType) (eps tiny : F) n (A : 'M[F]_n.+1) fuel (g : nat -> nat -> F),
  0 <= eps -> A^T = A ->
  let result := eigen_new (S:=exactE eps tiny) fuel (g 0%N) (g 1%N) (g 2%N) (g 3%N) (g 4%N) (g 5%N) (g 6%N) (g 7%N) (mat_of A) in
  result = Err OutOfFuel \/
  exists (d : seq F) (V : 'M[F]_n.+1),
  [/\ result = Ok (Eigen (S:=exactE eps tiny) n.+1 d (nseq n.+1 0) (mat_of V)),
      size d = n.+1 /\ (forall i j, (i < j <= n)%N -> nth 0 d j <= nth 0 d i),
      orthogonal V,
      fro (A - V *m diag_of n.+1 d *m V^T) <= (12 * n.+1)%:R * eps * fro A &
      fro (A *m V - V *m diag_of n.+1 d) <= (12 * n.+1)%:R * eps * fro A].
Proof.
move=> F eps tiny n A fuel g e0 sA result.
have sf i j : (i < n.+1)%N -> (j < n.+1)%N -> fn 0 A i j = fn 0 A j i.
  by move=> hi hj; rewrite (fn_lt _ _ hi hj) (fn_lt _ _ hj hi) -[in RHS]sA mxE.
have := @eigen_new_sym F eps tiny fuelerr n.+1 n.+1 (mat_of A) (fn 0 A) fuel (g 0%N) (g 1%N) (g 2%N) (g 3%N) (g 4%N) (g 5%N) (g 6%N) (g 7%N) e0 (or_introl erefl) (mat_of_rep 0 A) (ltn0Sn _) (leqnn _) sf.
rewrite -/result => H.
case: result H => [x|[]] //=; last by left.
move=> [d [V [-> ds oV bd]]]; right; exists (mkseq d n.+1), (mxf n.+1 n.+1 V).
have bd' : fro (A - mxf n.+1 n.+1 V *m diag_of n.+1 (mkseq d n.+1) *m (mxf n.+1 n.+1 V)^T)
          <= (12 * n.+1)%:R * eps * fro A.
  by rewrite mxf_fn in bd; rewrite -mulrA -mulr_natl in bd *.
split=> //.
  split; first by rewrite size_mkseq.
  by move=> i j hij; rewrite !nth_mkseq ?ds //; lia.
rewrite -(fro_orth_r _ oV) mulmxBl -[_ *m _^T *m _]mulmxA oV.1 mulmx1 in bd'.
exact: bd'.
Qed.

(*@doc C37, total: with a positive threshold the QL iteration always converges (Wilkinson's shift), and the
    number of iterations per eigenvalue is bounded independently of the matrix and its size: k iterations
    suffice as soon as 2^k eps^6 >= 16, that is 316 for the f64 epsilon 2^-52.  So the decomposition of every
    symmetric matrix returns. *)
Lemma eigen_symmetric_total_L : forall (F : rcfType) (eps tiny : F) n (A : 'M[F]_n.+1) fuel (g : nat -> nat -> F),
  0 < eps -> (2 <= fuel)%N -> 16%:R <= 2%:R ^+ fuel * eps ^+ 6 -> A^T = A ->
  exists (d : seq F) (V : 'M[F]_n.+1),
  [/\ eigen_new (S:=exactE eps tiny) fuel (g 0%N) (g 1%N) (g 2%N) (g 3%N) (g 4%N) (g 5%N) (g 6%N) (g 7%N) (mat_of A)
        = Ok (Eigen (S:=exactE eps tiny) n.+1 d (nseq n.+1 0) (mat_of V)),
      size d = n.+1 /\ (forall i j, (i < j <= n)%N -> nth 0 d j <= nth 0 d i),
      orthogonal V,
      fro (A - V *m diag_of n.+1 d *m V^T) <= (12 * n.+1)%:R * eps * fro A &
      fro (A *m V - V *m diag_of n.+1 d) <= (12 * n.+1)%:R * eps * fro A].
Proof.
move=> F eps tiny n A fuel g e0 f2 fe sA.
have [h|//] := @eigen_symmetric_correct_L F eps tiny n A fuel g (ltW e0) sA.
have sf i j : (i < n.+1)%N -> (j < n.+1)%N -> fn 0 A i j = fn 0 A j i.
  by move=> hi hj; rewrite (fn_lt _ _ hi hj) (fn_lt _ _ hj hi) -[in RHS]sA mxE.
have := @eigen_new_sym F eps tiny noerr n.+1 n.+1 (mat_of A) (fn 0 A) fuel (g 0%N) (g 1%N) (g 2%N) (g 3%N) (g 4%N) (g 5%N) (g 6%N) (g 7%N) (ltW e0) (or_intror (conj f2 fe)) (mat_of_rep 0 A) (ltn0Sn _) (leqnn _) sf.
by rewrite h.
Qed.

(*@example
(** the hypotheses are met by the f64 epsilon and 316 iterations, by every symmetric matrix *)
Example eigen_symmetric_total_example (F : rcfType) :
  let eps : F := 2%:R ^- 52 in [/\ 0 < eps, (2 <= 316)%N & 16%:R <= 2%:R ^+ 316 * eps ^+ 6].
Proof.
have p k : 0 < 2%:R ^+ k :> F by rewrite exprn_gt0 ?ltr0n.
split=> //; first by rewrite invr_gt0.
rewrite exprVn -exprM (_ : 316%N = (4 + 52 * 6)%N) // exprD mulfK ?gt_eqF //.
by rewrite -natrX.
Qed.
@*)

(*@doc C37 with zero threshold: the factorisation is exact, so the columns of V are eigenvectors. *)
Lemma eigen_symmetric_exact_L : forall (F : rcfType) (tiny : F) n (A : 'M[F]_n.+1) fuel (g : nat -> nat -> F) x,
  A^T = A ->
  eigen_new (S:=exactE 0 tiny) fuel (g 0%N) (g 1%N) (g 2%N) (g 3%N) (g 4%N) (g 5%N) (g 6%N) (g 7%N) (mat_of A) = Ok x ->
  exists (V : 'M[F]_n.+1),
  [/\ eg_v x = mat_of V, A *m V = V *m diag_of n.+1 (eg_d x) & A = V *m diag_of n.+1 (eg_d x) *m V^T].
Proof.
move=> F tiny n A fuel g x sA E.
have [|] := @eigen_symmetric_correct_L F 0 tiny n A fuel g (lexx 0) sA; rewrite E // => -[d [V [[->] _ oV]]].
rewrite mulr0 mul0r => h1 h2; exists V; split=> //=.
  by apply/eqP; rewrite -subr_eq0 -fro_eq0 eq_le h2 fro_ge0.
by apply/eqP; rewrite -subr_eq0 -fro_eq0 eq_le h1 fro_ge0.
Qed.

(*@doc A matrix with more columns than rows always panics. *)
Lemma eigen_wide_panics_L : forall (F : rcfType) (eps tiny : F) m n (A : 'M[F]_(m.+1, n.+1)) fuel (g : nat -> nat -> F),
  (m < n)%N ->
  eigen_new (S:=exactE eps tiny) fuel (g 0%N) (g 1%N) (g 2%N) (g 3%N) (g 4%N) (g 5%N) (g 6%N) (g 7%N) (mat_of A) = Err Panic.
Proof.
move=> F eps tiny m n A fuel g mn.
have Ha := mat_of_rep 0 A.
have : wpe (eq Panic) (eigen_new (S:=exactE eps tiny) fuel (g 0%N) (g 1%N) (g 2%N) (g 3%N) (g 4%N) (g 5%N) (g 6%N) (g 7%N) (mat_of A)) (fun _ => False).
  rewrite /eigen_new (rep_cols Ha) //; cbn [bind]; apply: wpe_bind.
  apply: wpe_mono (eigen_symmetric_wide eps tiny Ha _) => // _ ->; apply: wpe_bind.
  have := @eigen_copy_t_wide F eps tiny _ _ _ _ (alloc_dirty_vec (g 3%N) (n.+1 * n.+1)) Ha mn.
  by case: eigen_copy_t.
by case: eigen_new => //= e <-.
Qed.

(*@doc A matrix with more rows than columns is silently replaced by its leading square block: the extra
    rows are ignored (for every scalar type, also for machine floats). *)
Lemma eigen_tall_ignores_rows_L : forall (S : scalar) m n (A : 'M[S]_(n.+1 + m, n.+1)) fuel (g : nat -> nat -> S),
  eigen_new fuel (g 0%N) (g 1%N) (g 2%N) (g 3%N) (g 4%N) (g 5%N) (g 6%N) (g 7%N) (mat_of A) =
  eigen_new fuel (g 0%N) (g 1%N) (g 2%N) (g 3%N) (g 4%N) (g 5%N) (g 6%N) (g 7%N) (mat_of (usubmx A)).
Proof.
move=> S m n A fuel g.
have Ha := mat_of_rep (n_zero S) A; have Hb := mat_of_rep (n_zero S) (usubmx A).
have {}Hb : rep n.+1 n.+1 (mat_of (usubmx A)) (fn (n_zero S) A).
  apply: rep_ext Hb _ => i j hi hj; rewrite (fn_lt _ _ hi hj) mxE -(fnE (n_zero S)) //.
have le : (n.+1 <= n.+1 + m)%N by lia.
rewrite /eigen_new (rep_cols Ha) // (rep_cols Hb) //; cbn [bind].
rewrite (eigen_symmetric_ok Ha le) (eigen_symmetric_ok Hb (leqnn _)); cbn [bind].
have /wp_ex[v1 -> H1] := eigen_copy_ok Ha le (repr_alloc n.+1 (g 0%N)).
have /wp_ex[v2 -> H2] := eigen_copy_ok Hb (leqnn _) (repr_alloc n.+1 (g 0%N)).
have /wp_ex[v3 -> H3] := eigen_copy_t_ok Ha le (repr_alloc n.+1 (g 3%N)).
have /wp_ex[v4 -> H4] := eigen_copy_t_ok Hb (leqnn _) (repr_alloc n.+1 (g 3%N)).
by rewrite (repr_inj H1 H2) (repr_inj H3 H4).
Qed.

(*@section C39 complex division @*)
(*@doc C39: for every non-zero divisor yr + i yi the result q satisfies (in the complex field F[i]):
    q * y = x, given here by the two real equations. *)
Lemma cdiv_exact_L : forall (F : rcfType) (eps tiny xr xi yr yi : F), (yr != 0) || (yi != 0) ->
  exists qr qi, [/\ cdiv (S:=exactE eps tiny) xr xi yr yi = Ok (qr, qi),
     qr * yr - qi * yi = xr & qr * yi + qi * yr = xi].
Proof.
move=> F eps tiny xr xi yr yi y0; rewrite cdiv_okE //.
have nn : yr ^+ 2 + yi ^+ 2 != 0.
  by rewrite paddr_eq0 ?sqr_ge0 // !sqrf_eq0 negb_and.
by eexists; eexists; split; first reflexivity; field.
Qed.

(*@doc C39: a zero divisor is the only input for which it divides by zero. *)
Lemma cdiv_zero_L : forall (F : rcfType) (eps tiny xr xi : F),
  cdiv (S:=exactE eps tiny) xr xi 0 0 = Err Undef.
Proof. by move=> F eps tiny xr xi; rewrite /cdiv; exs; rewrite normr0 ltxx eqxx. Qed.

(*@section C40 get_d @*)
(*@doc C40: for every decomposition record and scalar type, if a positive imaginary part is never in the
    last place and a negative one never in the first, get_d returns the matrix with the real parts on the
    diagonal, a positive imaginary part at (i, i+1), a negative one at (i, i-1), zero elsewhere. *)
Lemma eigen_get_d_blocks_L : forall (S : scalar) n (d e : 'I_n.+1 -> S) v g,
  ~~ s_ltb (n_zero S) (e ord_max) -> s_ltb (n_zero S) (e ord0) || ~~ s_ltb (e ord0) (n_zero S) ->
  eigen_get_d g (Eigen n.+1 [seq d i | i <- enum 'I_n.+1] [seq e i | i <- enum 'I_n.+1] v) =
  Ok (mat_of (\matrix_(i, j) (
     if j == i then d i
     else if s_ltb (n_zero S) (e i) && (j == i.+1 :> nat) then e i
     else if ~~ s_ltb (n_zero S) (e i) && s_ltb (e i) (n_zero S) && (j.+1 == i :> nat) then e i
     else n_zero S))).
Proof.
move=> S n d e v g en e0.
pose ex (h : 'I_n.+1 -> S) := fun i => if insub i is Some i' then h i' else n_zero S.
have Hr (h : 'I_n.+1 -> S) : repr1 n.+1 [seq h i | i <- enum 'I_n.+1] (ex h).
  split=> [|i hi]; first by rewrite size_map size_enum_ord.
  rewrite (vgetE (h ord0)); last by rewrite size_map size_enum_ord.
  congr Ok; rewrite /ex insubT.
  by rewrite (nth_map ord0) ?size_enum_ord // (nth_ord_enum _ (Ordinal hi)).

have exE (h : 'I_n.+1 -> S) (i : 'I_n.+1) : ex h i = h i by rewrite /ex valK.
have := @eigen_get_d_ok S n.+1 g (Eigen n.+1 [seq d i | i <- enum 'I_n.+1] [seq e i | i <- enum 'I_n.+1] v) _ _ (ltn0Sn _) erefl (Hr d) (Hr e).
rewrite -[n.+1.-1]/(val (@ord_max n)) -[0%N]/(val (@ord0 n)) !exE => /(_ en e0) H.
apply: wp_mat_of H _ => i j; rewrite mxE /eig_block !exE -(inj_eq val_inj) /=.
case: eqP => // _; case: (s_ltb (n_zero S) (e i)) => //=.
Qed.

(*@doc C40: in the two remaining cases get_d panics. *)
Lemma eigen_get_d_panics_L : forall (S : scalar) n (d e : 'I_n.+1 -> S) v g,
  s_ltb (n_zero S) (e ord_max) || (~~ s_ltb (n_zero S) (e ord0) && s_ltb (e ord0) (n_zero S)) ->
  eigen_get_d g (Eigen n.+1 [seq d i | i <- enum 'I_n.+1] [seq e i | i <- enum 'I_n.+1] v) = Err Panic.
Proof.
move=> S n d e v g he.
have Hg (h : 'I_n.+1 -> S) (i : 'I_n.+1) : vget [seq h i | i <- enum 'I_n.+1] i = Ok (h i).
  rewrite (vgetE (h ord0)); last by rewrite size_map size_enum_ord.
  by rewrite (nth_map ord0) ?size_enum_ord // nth_ord_enum.
set N := n.+1.
set body := fun (i : nat) (dd : seq S) => dd <-- for_ 0 N (fun j dd => vset dd (i * N + j) (n_zero S)) dd ;;
      di <-- vget [seq d i | i <- enum 'I_N] i ;;
      dd <-- vset dd (i * N + i) di ;;
      ei <-- vget [seq e i | i <- enum 'I_N] i ;;
      if s_ltb (n_zero S) ei then vset dd (i * N + (i + 1)) ei
      else if s_ltb ei (n_zero S) then i1 <-- usub i 1 ;; vset dd (i * N + i1) ei
      else Ok dd.
have sset (E : err -> Prop) (dd : seq S) i x : E Panic -> wpe E (vset dd i x) (fun d' => size d' = size dd).
  by rewrite /vset; case: ifP => //= _ _; rewrite size_upd.
suff : wpe (eq Panic) (for_ 0 N body (alloc_dirty_vec g (N * N))) (fun _ => False).
  rewrite /eigen_get_d /= -/N -/body; case: for_ => //= e1 <- //.
have pre i (hi : (i < N)%N) dd (Q : seq S -> Prop) : size dd = (N * N)%N ->
    (forall dd, size dd = (N * N)%N -> wpe (eq Panic)
       (if s_ltb (n_zero S) (e (Ordinal hi)) then vset dd (i * N + (i + 1)) (e (Ordinal hi))
      else if s_ltb (e (Ordinal hi)) (n_zero S) then i1 <-- usub i 1 ;; vset dd (i * N + i1) (e (Ordinal hi))
      else Ok dd) Q) -> wpe (eq Panic) (body i dd) Q.
  move=> sz H; rewrite /body; apply: wpe_bind.
  apply: (wpe_mono (Q := fun dd : seq S => size dd = (N * N)%N)); last first.
    apply: (wpe_for (fun _ dd => size dd = (N * N)%N)) => // j dd1 _ sz1.
    by apply: wpe_mono (sset _ dd1 _ _ erefl) => dd2 ->.
  move=> dd1 sz1; rewrite -[i]/(val (Ordinal hi)) Hg; cbn [bind].
  apply: wpe_bind; apply: wpe_mono (sset _ dd1 _ _ erefl) => dd2 sz2.
  by rewrite Hg; cbn [bind]; apply: H; rewrite sz2.
case: (boolP (s_ltb (n_zero S) (e ord_max))) he => /= [en _|_ /andP[/negPf e0 e0']].
  apply: (@wpe_for_err _ _ (fun _ dd => size dd = (N * N)%N) _ _ n); [by lia|by rewrite size_alloc| |].
    move=> i dd hi sz; have hi' : (i < N)%N by lia.
    apply: (pre i hi') => // dd1 sz1; case: ifP => _; first by apply: wpe_mono (sset _ dd1 _ _ erefl) => dd2 ->.
    case: ifP => // _; rewrite /usub; case: ifP => //= _.
    by apply: wpe_mono (sset _ dd1 _ _ erefl) => dd2 ->.
  move=> dd sz; apply: (pre n (ltnSn n)) => // dd1 sz1.
  have -> : Ordinal (ltnSn n) = ord_max by apply: val_inj.
  rewrite en /vset sz1; have -> : (n * N + (n + 1) < N * N)%N = false by rewrite /N; nia.
  by [].
apply: (@wpe_for_err _ _ (fun _ dd => size dd = (N * N)%N) _ _ 0%N); [by lia|by rewrite size_alloc|by move=> i s; lia|].
move=> dd sz; apply: (pre 0%N (ltn0Sn n)) => // dd1 sz1.
have -> : Ordinal (ltn0Sn n) = ord0 by apply: val_inj.
by rewrite e0 e0'.
Qed.

(*@doc C37 and C40 together: for a symmetric matrix get_d is the diagonal matrix of the eigenvalues. *)
Lemma eigen_symmetric_get_d_L : forall (F : rcfType) (eps tiny : F) n (d : seq F) v g, size d = n.+1 ->
  eigen_get_d g (Eigen (S:=exactE eps tiny) n.+1 d (nseq n.+1 0) v) = Ok (mat_of (diag_of n.+1 d)).
Proof.
move=> F eps tiny n d v g sd.
have := @eigen_get_d_blocks_L (exactE eps tiny) n (fun i => nth 0 d i) (fun _ => 0) v g.
have -> : [seq nth 0 d (i : 'I__) | i <- enum 'I_n.+1] = d.
  apply: (@eq_from_nth _ 0); first by rewrite size_map size_enum_ord sd.
  move=> i; rewrite size_map size_enum_ord => hi.
  by rewrite (nth_map ord0) ?size_enum_ord // (nth_ord_enum _ (Ordinal hi)).
have -> : [seq (0 : F) | i <- enum 'I_n.+1] = nseq n.+1 0.
  by rewrite -[in RHS](size_enum_ord n.+1); elim: (enum _) => //= x s ->.
rewrite /= ltxx => /(_ isT isT) ->; congr (Ok (mat_of _)); apply/matrixP => i j; rewrite !mxE /=.
by rewrite eq_sym; case: eqP.
Qed.

(*@section C38 Hessenberg reduction @*)
(*@doc C38: for every square matrix and any contents of the two uninitialised buffers the reduction
    returns (h, v): v holds an orthogonal V, and with H the matrix that has the entries of h on and above
    the subdiagonal and zero below it, H is upper Hessenberg and A = V H V^T. *)
Lemma orthes_correct_L : forall (F : rcfType) (eps tiny : F) n (A : 'M[F]_n.+1) gort v0, size v0 = (n.+1 * n.+1)%N ->
  exists h (V H : 'M[F]_n.+1),
  [/\ orthes (S:=exactE eps tiny) n.+1 gort (data (mat_of A)) v0 = Ok (h, data (mat_of V)),
      orthogonal V, hessenberg H, A = V *m H *m V^T &
      forall i j : 'I_n.+1, (i <= j.+1)%N -> vget h (i * n.+1 + j) = Ok (H i j)].
Proof.
move=> F eps tiny n A gort v0 sv.
have [_ Ha] := mat_of_rep 0 A.
have Hv : repr n.+1 n.+1 v0 (fun i j => nth 0 v0 (i * n.+1 + j)).
  by split=> // i j hi hj; apply: vgetE; rewrite sv idx_lt.
have /wp_ex[[h v] E [f [V [/= Hh HV oV AE]]]] := @orthes_ok F eps tiny n.+1 gort _ _ _ _ (ltn0Sn _) Ha Hv.
exists h, (mxf n.+1 n.+1 V), (mxf n.+1 n.+1 (hessf f)); split=> //.
- rewrite E; congr (Ok (_, _)); have : Mat n.+1 v = mat_of (mxf n.+1 n.+1 V).
    by apply: (@rep_mat_of _ _ _ _ V) => [|i j]; [split|rewrite mxE].
  by case.
- by move=> i j ij; rewrite mxE /hessf ij.
- by rewrite -AE mxf_fn.
- by move=> i j ij; rewrite mxE /hessf ltnNge ij (repr_get Hh).
Qed.
