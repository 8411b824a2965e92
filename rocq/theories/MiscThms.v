(** * MiscThms: ring laws, trace, norms, symmetry test, approx_eq, == and hypot
    (restated in PropMisc.v). *)
From mathcomp Require Import all_ssreflect all_algebra zify ring.
From Verif Require Import Base Scalar Hoare ModelMatrix ModelLU ModelHypot Spec MatrixProofs MatrixProofs2 MatrixThms LUProofs LUThms.

Set Implicit Arguments.
Unset Strict Implicit.
Unset Printing Implicit Defensive.
Import Order.TTheory GRing.Theory Num.Theory.
Local Open Scope ring_scope.

(*@section C14 laws of the ring operations @*)
(*@doc C14: (A*B)*C = A*(B*C), as API calls. *)
Lemma mul_assoc_L : forall (R : ringType) g1 g2 g3 g4 m n p q (A : 'M[R]_(m.+1, n.+1)) (B : 'M[R]_(n.+1, p.+1)) (C : 'M[R]_(p.+1, q.+1)),
  let N := ring_num R in
  bind (mul (N:=N) g1 (mat_of A) (mat_of B)) (fun AB => mul (N:=N) g2 AB (mat_of C)) =
  bind (mul (N:=N) g3 (mat_of B) (mat_of C)) (fun BC => mul (N:=N) g4 (mat_of A) BC).
Proof.
move=> R g1 g2 g3 g4 m n p q A B C N; rewrite !mul_ok_L // /bind !mul_ok_L //.
by rewrite mulmxA.
Qed.

(*@doc C14: A*(B+C) = A*B + A*C and (A+B)*C = A*C + B*C. *)
Lemma mul_distr_L : forall (R : ringType) g1 g2 g3 g4 g5 m n p (A A' : 'M[R]_(m.+1, n.+1)) (B B' : 'M[R]_(n.+1, p.+1)),
  let N := ring_num R in
  bind (add (N:=N) g1 (mat_of B) (mat_of B')) (mul (N:=N) g2 (mat_of A)) =
    bind (mul (N:=N) g3 (mat_of A) (mat_of B)) (fun X => bind (mul (N:=N) g4 (mat_of A) (mat_of B')) (fun Y => add (N:=N) g5 X Y)) /\
  bind (add (N:=N) g1 (mat_of A) (mat_of A')) (fun X => mul (N:=N) g2 X (mat_of B)) =
    bind (mul (N:=N) g3 (mat_of A) (mat_of B)) (fun X => bind (mul (N:=N) g4 (mat_of A') (mat_of B)) (fun Y => add (N:=N) g5 X Y)).
Proof.
move=> R g1 g2 g3 g4 g5 m n p A A' B B' N; rewrite !mul_ok_L // /bind.
have ad r c (X Y : 'M[R]_(r.+1, c)) g : add (N:=N) g (mat_of X) (mat_of Y) = Ok (mat_of (X + Y)).
  by case: (@ring_ops_ok_L R g r.+1 c X Y 0 (ltn0Sn _)).
by rewrite !ad !mul_ok_L // mulmxDr mulmxDl.
Qed.

(*@doc C14: id is neutral on both sides. *)
Lemma mul_id_L : forall (R : ringType) g1 g2 g3 g4 m n (A : 'M[R]_(m.+1, n.+1)),
  let N := ring_num R in
  bind (id (N:=N) g1 m.+1 m.+1) (fun I => mul (N:=N) g2 I (mat_of A)) = Ok (mat_of A) /\
  bind (id (N:=N) g3 n.+1 n.+1) (mul (N:=N) g4 (mat_of A)) = Ok (mat_of A).
Proof.
move=> R g1 g2 g3 g4 m n A N; rewrite !id_square_L /bind !mul_ok_L //.
by rewrite mul1mx mulmx1.
Qed.

(*@doc C14: (A*B)^T = B^T * A^T over a commutative ring. *)
Lemma mul_t_L : forall (R : comRingType) g1 g2 g3 g4 g5 m n p (A : 'M[R]_(m.+1, n.+1)) (B : 'M[R]_(n.+1, p.+1)),
  let N := ring_num R in
  bind (mul (N:=N) g1 (mat_of A) (mat_of B)) (t g2) =
  bind (t g3 (mat_of B)) (fun Bt => bind (t g4 (mat_of A)) (fun At => mul (N:=N) g5 Bt At)).
Proof.
move=> R g1 g2 g3 g4 g5 m n p A B N; rewrite mul_ok_L // !t_ok_L // /bind.
by rewrite t_ok_L // mul_ok_L // trmx_mul.
Qed.

(*@section C17 trace @*)
(*@doc C17: for every element type: the sum, in order, of the elements that get(i,i) returns, i < min(rows, cols). *)
Lemma trace_eval_L : forall (S : scalar) m n (A : 'M[S]_(m.+1, n.+1)),
  exists ds : seq S, [/\ size ds = minn m.+1 n.+1,
    forall i, (i < minn m.+1 n.+1)%N -> get (mat_of A) i i = Ok (nth (n_zero S) ds i) &
    trace (mat_of A) = Ok (foldl (n_add (n:=S)) (n_zero S) ds)].
Proof.
move=> S m n A; have HA := mat_of_rep (n_zero S) A.
set f := fn _ _ in HA.
exists (mkseq (fun i => f i i) (minn m.+1 n.+1)); split.
- by rewrite size_mkseq.
- move=> i hi; rewrite (rep_get _ _ HA); move: (hi); rewrite leq_min => /andP[-> ->] /=.
  by rewrite nth_mkseq.
rewrite /trace (rep_cols HA) //; cbn [bind]; rewrite (rep_no_rows HA).
set body := (fun _ st => _).
suff /wp_ex [[s k] -> /= [-> _]] : wp (for_ 0 (minn m.+1 n.+1) body (n_zero S, 0%N))
  (fun st => st.1 = foldl (n_add (n:=S)) (n_zero S) (mkseq (fun i => f i i) (minn m.+1 n.+1)) /\ True) by [].
apply: (wpe_for (fun i st => st.1 = foldl (n_add (n:=S)) (n_zero S) (mkseq (fun i => f i i) i) /\
                             st.2 = (i * n.+1 + i)%N)) => //.
- move=> i [s k] /= hi [-> ->].
  have h : (i < minn m.+1 n.+1)%N by lia.
  move: h; rewrite leq_min => /andP[im jn].
  rewrite (rep_vget HA) //; cbn [bind fst snd wpe]; split; last by lia.
  rewrite -[RHS]/(foldl (n_add (n:=S)) (n_zero S) (mkseq (fun i => f i i) i.+1)).
  by rewrite /mkseq -(addn1 i) iotaD map_cat foldl_cat.
- by move=> [s k] /= [-> _].
Qed.

(*@doc C17 in exact arithmetic. *)
Lemma trace_ok_L : forall (F : rcfType) (eps tiny : F) m n (A : 'M[F]_(m.+1, n.+1)),
  trace (S:=exactE eps tiny) (mat_of A) = Ok (\sum_(i < m.+1) \sum_(j < n.+1 | i == j :> nat) A i j).
Proof.
move=> F eps tiny m n A; have [ds [sz H ->]] := @trace_eval_L (exactE eps tiny) m n A.
have HA := @mat_of_rep F 0 _ _ A; congr Ok.
have -> : foldl (n_add (n:=exactE eps tiny)) (n_zero (exactE eps tiny)) ds = \sum_(x <- ds) x.
  have gen (x : F) l : foldl (n_add (n:=exactE eps tiny)) x l = x + \sum_(y <- l) y.
    elim: l x => [|y l IH] x /=; first by rewrite big_nil addr0.
    by rewrite IH big_cons addrA.
  by rewrite gen add0r.
rewrite (big_nth 0) sz.
have -> : \sum_(0 <= i < minn m.+1 n.+1) nth 0 ds i =
          \sum_(0 <= i < m.+1) (if (i < n.+1)%N then fn 0 A i i else 0).
  rewrite [RHS](@big_cat_nat _ _ _ (minn m.+1 n.+1)) ?geq_minl //=.
  rewrite [X in _ = _ + X]big_nat [X in _ = _ + X]big1 ?addr0.
    apply: eq_big_nat => i /andP[_ hi].
    have := H i hi; rewrite (rep_get _ _ HA); move: (hi); rewrite leq_min => /andP[-> ->] /=.
    by case.
  move=> i; rewrite geq_min => hi; have -> // : (i < n.+1)%N = false by lia.
rewrite big_mkord; apply: eq_bigr => i _; case: (ltnP i n.+1) => hi.
  rewrite (big_pred1 (Ordinal hi)); first by rewrite -[RHS](fnE 0).
  by move=> j; rewrite /= -val_eqE eq_sym.
rewrite big_pred0 // => j; have := ltn_ord j; lia.
Qed.

(*@doc C17: the trace of a square matrix. *)
Lemma trace_square_L : forall (F : rcfType) (eps tiny : F) n (A : 'M[F]_n.+1),
  trace (S:=exactE eps tiny) (mat_of A) = Ok (\tr A).
Proof.
move=> F eps tiny n A; rewrite trace_ok_L; congr Ok; apply: eq_bigr => i _.
by rewrite (big_pred1 i) // => j; rewrite /= val_eqE eq_sym.
Qed.

(*@doc C45: trace(A*B) = trace(B*A), det(id) = 1. *)
Lemma trace_mul_L : forall (F : rcfType) (eps tiny : F) g1 g2 m n (A : 'M[F]_(m.+1, n.+1)) (B : 'M[F]_(n.+1, m.+1)),
  bind (mul (N:=exactE eps tiny) g1 (mat_of A) (mat_of B)) (@trace _) =
  bind (mul (N:=exactE eps tiny) g2 (mat_of B) (mat_of A)) (@trace _).
Proof.
move=> F eps tiny g1 g2 m n A B; rewrite !mul_exact // /bind !trace_square_L.
by rewrite mxtrace_mulC.
Qed.

Lemma det_id_L : forall (F : rcfType) (eps tiny : F) g gp n,
  bind (id (N:=exactE eps tiny) g n.+1 n.+1) (det (S:=exactE eps tiny) gp) = Ok 1.
Proof.
move=> F eps tiny g gp n.
have -> : id (N:=exactE eps tiny) g n.+1 n.+1 = Ok (mat_of (1%:M : 'M[F]_n.+1)) by exact: (@id_square_L F g n.+1).
by rewrite [bind _ _]/= det_ok_L det1.
Qed.

(*@section C30 norms @*)
Section Norms.
Variable F : rcfType.
Variables eps tiny : F.
Local Notation S := (exactE eps tiny).

Lemma sum_data m n (A : 'M[F]_(m, n)) (h : F -> F) :
  for_ 0 (size (data (mat_of A))) (fun i s =>
     x <-- vget (data (mat_of A)) i ;; Ok (s + h x)) 0 = Ok (\sum_i \sum_j h (A i j)).
Proof.
have HA := @mat_of_rep F 0 _ _ A.
rewrite (rep_size HA) (for_sum0 (G := fun k => h (fn 0 A (k %/ n) (k %% n)))); last first.
  move=> k s hk; have [e hi hj] := idx_divmod (proj2 (andP hk)).
  by rewrite {1}e (rep_vget HA).
congr Ok; rewrite big_mkord; case: n A HA => [|n] A HA.
  rewrite muln0 big_ord0; apply/esym; rewrite big1 // => i _; by rewrite big_ord0.
rewrite pair_big /=.
pose to (p : 'I_m * 'I_n.+1) : 'I_(m * n.+1) := Ordinal (idx_lt (ltn_ord p.1) (ltn_ord p.2)).
rewrite (reindex to) /=; last first.
  have from_lt1 (k : 'I_(m * n.+1)) : (k %/ n.+1 < m)%N by have [] := idx_divmod (ltn_ord k).
  have from_lt2 (k : 'I_(m * n.+1)) : (k %% n.+1 < n.+1)%N by have [] := idx_divmod (ltn_ord k).
  exists (fun k => (Ordinal (from_lt1 k), Ordinal (from_lt2 k))).
    move=> [i j] _; congr pair; apply: val_inj => /=.
      by rewrite divnMDl // divn_small // addn0.
    by rewrite modnMDl modn_small.
  move=> k _; apply: val_inj => /=; by rewrite -divn_eq.
apply: eq_bigr => -[i j] _ /=; congr h.
by rewrite divnMDl // divn_small // addn0 modnMDl modn_small // fnE.
Qed.

(** the Frobenius inner product *)
Definition ip m n (A B : 'M[F]_(m, n)) : F := \sum_i \sum_j A i j * B i j.
Definition normF m n (A : 'M[F]_(m, n)) : F := Num.sqrt (ip A A).

Lemma ip_ge0 m n (A : 'M[F]_(m, n)) : 0 <= ip A A.
Proof. by apply: sumr_ge0 => i _; apply: sumr_ge0 => j _; rewrite -expr2 sqr_ge0. Qed.

Lemma ipDD m n (A B : 'M[F]_(m, n)) : ip (A + B) (A + B) = ip A A + ip A B *+ 2 + ip B B.
Proof.
rewrite /ip mulr2n -!big_split /=; apply: eq_bigr => i _; rewrite -!big_split /=.
apply: eq_bigr => j _; rewrite !mxE; move: (A i j) (B i j) => a b; ring.
Qed.

Lemma ip_pair m n (A B : 'M[F]_(m, n)) : ip A B = \sum_p A p.1 p.2 * B p.1 p.2.
Proof. by rewrite /ip pair_big. Qed.

(** Cauchy-Schwarz, from Lagrange's identity *)
Lemma ip_CS m n (A B : 'M[F]_(m, n)) : ip A B ^+ 2 <= ip A A * ip B B.
Proof.
have L : \sum_p \sum_q (A p.1 p.2 * B q.1 q.2 - A q.1 q.2 * B p.1 p.2) ^+ 2 =
         (ip A A * ip B B - ip A B ^+ 2) *+ 2.
  rewrite !ip_pair; set I := [finType of 'I_m * 'I_n].
  have E (x y : I -> F) : (\sum_p x p) * (\sum_q y q) = \sum_p \sum_q x p * y q.
    by rewrite big_distrl /=; apply: eq_bigr => p _; rewrite big_distrr.
  rewrite mulrnBl !mulr2n expr2 {2}[(\sum_p A p.1 p.2 * A p.1 p.2) * _]mulrC !E.
  rewrite -!big_split -sumrB /=; apply: eq_bigr => p _.
  rewrite -!big_split -sumrB /=; apply: eq_bigr => q _.
  move: (A _ _) (A _ _) (B _ _) (B _ _) => a b c d; ring.
rewrite -subr_ge0 -(pmulrn_lge0 _ (n := 2)) // -L.
by apply: sumr_ge0 => p _; apply: sumr_ge0 => q _; rewrite sqr_ge0.
Qed.

Lemma normF_norm m n : is_norm (@normF m n).
Proof.
have sq A : @normF m n A ^+ 2 = ip A A by rewrite sqr_sqrtr // ip_ge0.
split.
- by move=> A; rewrite sqrtr_ge0.
- move=> A; split=> [/eqP|->]; last first.
    rewrite /normF /ip big1 ?sqrtr0 // => i _; rewrite big1 // => j _; by rewrite mxE mul0r.
  rewrite sqrtr_eq0 => h; have /eqP : ip A A = 0 by apply: le_anti; rewrite h ip_ge0.
  rewrite psumr_eq0; last by move=> i _; apply: sumr_ge0 => j _; rewrite -expr2 sqr_ge0.
  move=> /allP H; apply/matrixP => i j; rewrite mxE.
  have := H i; rewrite mem_index_enum => /(_ isT); rewrite psumr_eq0; last first.
    by move=> l _; rewrite -expr2 sqr_ge0.
  by move/allP/(_ j); rewrite mem_index_enum => /(_ isT); rewrite /= -expr2 sqrf_eq0 => /eqP.
- move=> k A; rewrite /normF -sqrtr_sqr -sqrtrM ?sqr_ge0 //; congr Num.sqrt.
  rewrite /ip big_distrr /=; apply: eq_bigr => i _; rewrite big_distrr /=.
  apply: eq_bigr => j _; rewrite !mxE; move: (A i j) => a; ring.
- move=> A B; rewrite -(ler_pexpn2r (n := 2)) ?nnegrE ?addr_ge0 ?sqrtr_ge0 //.
  rewrite sq ipDD sqrrD !sq ler_add2r ler_add2l ler_muln2r /=.
  apply: le_trans (ler_norm _) _; rewrite -(ler_pexpn2r (n := 2)) ?nnegrE ?mulr_ge0 ?sqrtr_ge0 //.
  by rewrite exprMn !sq real_normK ?num_real // ip_CS.
Qed.
End Norms.

(** a loop that folds over the whole data vector *)
Lemma for_n_shift A k n lo (b : nat -> A -> res A) s : for_n n (lo + k) b s = for_n n lo (fun i => b (i + k)%N) s.
Proof.
elim: n lo s => [|n IH] lo s //=; case: (b _ s) => //= s'; by rewrite -addSn IH.
Qed.

Lemma for_foldl T A (d : seq T) (f : A -> T -> A) s0 :
  for_ 0 (size d) (fun i s => x <-- vget d i ;; Ok (f s x)) s0 = Ok (foldl f s0 d).
Proof.
rewrite /for_ subn0; elim: d s0 => [|x d IH] s0 //=; rewrite -IH.
rewrite -[1%N]/(0 + 1)%N for_n_shift.
by have := @for_eq A 0 (size d) (fun i => (fun i s => bind (vget (x :: d) i) (fun x => Ok (f s x))) (i + 1)%N)
  (fun i s => bind (vget d i) (fun x => Ok (f s x))) (f s0 x); rewrite /for_ subn0; apply=> i s _; rewrite addn1.
Qed.

Lemma data_foldl T A m n (M : 'M[T]_(m, n)) (f : A -> T -> A) s0 :
  foldl f s0 (data (mat_of M)) =
  foldl (fun s i => foldl (fun s j => f s (M i j)) s (enum 'I_n)) s0 (enum 'I_m).
Proof.
rewrite /=; elim: (enum 'I_m) s0 => [|i l IH] s0 //=.
rewrite foldl_cat -IH; congr foldl; by elim: (enum 'I_n) s0 => [|j r IHr] s0 //=.
Qed.

Lemma foldl_sum (F : rcfType) (eps tiny : F) I (l : seq I) (h : I -> F) (s : F) :
  foldl (fun s i => n_add (n:=exactE eps tiny) s (h i)) s l = s + \sum_(i <- l) h i.
Proof.
elim: l s => [|i l IH] s /=; first by rewrite big_nil addr0.
by rewrite IH big_cons addrA.
Qed.

Lemma sum_data_exact (F : rcfType) (eps tiny : F) m n (A : 'M[F]_(m, n)) (h : F -> F) :
  foldl (fun s x => n_add (n:=exactE eps tiny) s (h x)) 0 (data (mat_of A)) = \sum_i \sum_j h (A i j).
Proof.
rewrite data_foldl -[RHS]add0r.
have -> : \sum_i \sum_j h (A i j) = \sum_(i <- enum 'I_m) \sum_j h (A i j) by rewrite big_enum.
suff gen z l : foldl (fun s i => foldl (fun s j => n_add (n:=exactE eps tiny) s (h (A i j))) s (enum 'I_n)) z l =
   z + \sum_(i <- l) \sum_j h (A i j) by exact: gen.
elim: l z => [|i l IH] z /=; first by rewrite big_nil addr0.
rewrite big_cons addrA IH (@foldl_sum F eps tiny).
by rewrite big_enum.
Qed.

(*@doc C30, any element type (f32/f64 included): the norms are the left-to-right sums below; the vector norms of a
  single column never panic on their own account (only sqrt may fail, in exact arithmetic). *)
Lemma norms_eval_L : forall (S : scalar) m n (A : 'M[S]_(m, n)) (v : 'cV[S]_m.+1),
  let sumsq := foldl (fun s i => n_add s (n_mul (v i ord0) (v i ord0))) (n_zero S) (enum 'I_m.+1) in
  [/\ vector_euclidean_norm (mat_of v) = s_sqrt sumsq,
      length_ (mat_of v) = s_sqrt sumsq,
      vector_2_norm (mat_of v) = s_sqrt sumsq,
      vector_1_norm (mat_of v) = Ok (foldl (fun s i => n_add s (s_abs (v i ord0))) (n_zero S) (enum 'I_m.+1)) &
      frobenius_norm (mat_of A) =
        s_sqrt (foldl (fun s i => foldl (fun s j => n_add s (n_mul (A i j) (A i j))) s (enum 'I_n)) (n_zero S) (enum 'I_m))].
Proof.
move=> S m n A v sumsq.
have cv : cols (mat_of v) = Ok 1%N by rewrite (rep_cols (mat_of_rep (n_zero S) v)).
have fc (f : S -> S -> S) s : foldl f s (data (mat_of v)) = foldl (fun s i => f s (v i ord0)) s (enum 'I_m.+1).
  rewrite data_foldl; elim: (enum 'I_m.+1) s => [|i l IH] s; first by [].
  by rewrite [LHS]/= IH enum_ordS /= enum_ord0.
have E : vector_euclidean_norm (mat_of v) = s_sqrt sumsq.
  rewrite /vector_euclidean_norm cv; cbn [bind]; rewrite eqxx; cbn [require].
  by rewrite for_foldl; cbn [bind]; rewrite fc.
split=> //.
- rewrite /vector_1_norm cv; cbn [bind]; rewrite eqxx; cbn [require].
  by rewrite (for_foldl _ (fun s x => n_add s (s_abs x))) fc.
- rewrite /frobenius_norm (for_foldl _ (fun s x => n_add s (n_mul x x))); cbn [bind].
  by rewrite data_foldl.
Qed.

(*@doc C30: the vector norms panic on every matrix with more than one column, whatever the element type. *)
Lemma norms_panic_L : forall (S : scalar) powf p m n (A : 'M[S]_(m.+1, n.+2)),
  [/\ vector_euclidean_norm (mat_of A) = Err Panic, length_ (mat_of A) = Err Panic,
      vector_2_norm (mat_of A) = Err Panic, vector_1_norm (mat_of A) = Err Panic &
      vector_inf_norm (mat_of A) = Err Panic /\ vector_p_norm powf (mat_of A) p = Err Panic].
Proof.
move=> S powf p m n A.
have cv : cols (mat_of A) = Ok n.+2 by rewrite (rep_cols (mat_of_rep (n_zero S) A)).
by split; rewrite /length_ /vector_2_norm /vector_euclidean_norm /vector_1_norm /vector_inf_norm /vector_p_norm cv.
Qed.

(*@doc C30: exact values. *)
Lemma norms_ok_L : forall (F : rcfType) (eps tiny : F) m n (A : 'M[F]_(m, n)) (v : 'cV[F]_m.+1),
  let S := exactE eps tiny in
  [/\ vector_euclidean_norm (S:=S) (mat_of v) = Ok (Num.sqrt (\sum_i v i 0 ^+ 2)),
      vector_1_norm (S:=S) (mat_of v) = Ok (\sum_i `|v i 0|) &
      frobenius_norm (S:=S) (mat_of A) = Ok (Num.sqrt (\sum_i \sum_j A i j ^+ 2))].
Proof.
move=> F eps tiny m n A v S.
have cv : cols (mat_of v) = Ok 1%N by rewrite (rep_cols (mat_of_rep 0 v)).
have sq (s : F) : 0 <= s -> s_sqrt (s:=S) s = Ok (Num.sqrt s) by rewrite /= ltNge => ->.
split.
- rewrite /vector_euclidean_norm cv; cbn [bind]; rewrite eqxx; cbn [require].
  rewrite for_foldl; cbn [bind]; rewrite (@sum_data_exact F eps tiny _ _ v (fun x => x * x)) sq.
    by congr (Ok (Num.sqrt _)); apply: eq_bigr => i _; rewrite big_ord1 expr2.
  by apply: sumr_ge0 => i _; rewrite big_ord1 -expr2 sqr_ge0.
- rewrite /vector_1_norm cv; cbn [bind]; rewrite eqxx; cbn [require].
  rewrite for_foldl (@sum_data_exact F eps tiny _ _ v (fun x => `|x|)); congr Ok.
  by apply: eq_bigr => i _; rewrite big_ord1.
- rewrite /frobenius_norm for_foldl; cbn [bind].
  rewrite (@sum_data_exact F eps tiny _ _ A (fun x => x * x)) sq.
    by congr (Ok (Num.sqrt _)); apply: eq_bigr => i _; apply: eq_bigr => j _; rewrite expr2.
  by apply: sumr_ge0 => i _; apply: sumr_ge0 => j _; rewrite -expr2 sqr_ge0.
Qed.

(*@doc C30: vector_inf_norm is the largest absolute value. *)
Lemma inf_norm_ok_L : forall (F : rcfType) (eps tiny : F) m (v : 'cV[F]_m.+1),
  exists x : F, [/\ vector_inf_norm (S:=exactE eps tiny) (mat_of v) = Ok x,
    (exists i, x = `|v i 0|) & forall i, `|v i 0| <= x].
Proof.
move=> F eps tiny m v.
have HA := mat_of_rep 0 v.
rewrite /vector_inf_norm (rep_cols HA) //; cbn [bind]; rewrite eqxx; cbn [require].
have v0 i : (i < m.+1)%N -> vget (data (mat_of v)) i = Ok (fn 0 v i 0).
  by move=> hi; rewrite -(rep_vget HA (i:=i) (j:=0)) ?muln1 ?addn0.
rewrite v0 //; cbn [bind]; rewrite (rep_size HA) muln1.
have [i0 e0] : exists i, fn 0 v 0 0 = v i 0 by exists ord0; rewrite -(fnE 0).
suff /wp_ex [x e [H1 H2]] : wp (for_ 1 m.+1 (fun i (cm : F) =>
      x <-- vget (data (mat_of v)) i ;; Ok (if cm < `|x| then `|x| else cm)) `|fn 0 v 0 0|)
   (fun x : F => (exists i, x = `|v i 0|) /\ forall i, `|v i 0| <= x) by exists x; split=> //; exact: e.
apply: (wpe_for (fun k (x : F) => (exists i, x = `|v i 0|) /\ forall i : 'I_m.+1, (i < k)%N -> `|v i 0| <= x)) => //.
- split; first by exists i0; rewrite e0.
  by move=> i; rewrite ltnS leqn0 => /eqP e; rewrite -(fnE 0) e.
- move=> k x /andP[k0 km] [[i ei] H]; rewrite v0 //; cbn [bind wpe].
  have ek : fn 0 v k 0 = v (Ordinal km) 0 by rewrite -(fnE 0).
  rewrite ek /=; case: (boolP (x < _)) => h; split.
  + by exists (Ordinal km).
  + move=> l; rewrite ltnS leq_eqVlt => /orP[/eqP e|/H/le_trans]; last by apply; apply: ltW.
    by have -> : l = Ordinal km by apply: val_inj.
  + by exists i.
  + move=> l; rewrite ltnS leq_eqVlt => /orP[/eqP e|/H //].
    have -> : l = Ordinal km by apply: val_inj.
    by rewrite leNgt.
- by move=> x [H1 H2]; split=> // i; apply: H2.
Qed.

(*@doc C30: the four norms satisfy the norm axioms. *)
Lemma norms_axioms_L : forall (F : rcfType) (eps tiny : F) m n,
  let S := exactE eps tiny in
  [/\ exists N : 'cV[F]_m.+1 -> F, is_norm N /\ forall v, vector_euclidean_norm (S:=S) (mat_of v) = Ok (N v),
      exists N : 'cV[F]_m.+1 -> F, is_norm N /\ forall v, vector_1_norm (S:=S) (mat_of v) = Ok (N v),
      exists N : 'cV[F]_m.+1 -> F, is_norm N /\ forall v, vector_inf_norm (S:=S) (mat_of v) = Ok (N v) &
      exists N : 'M[F]_(m, n) -> F, is_norm N /\ forall A, frobenius_norm (S:=S) (mat_of A) = Ok (N A)].
Proof.
move=> F eps tiny m n S.
have nE p q (A : 'M[F]_(p, q)) : normF A = Num.sqrt (\sum_i \sum_j A i j ^+ 2).
  by congr Num.sqrt; apply: eq_bigr => i _; apply: eq_bigr => j _; rewrite expr2.
split.
- exists (@normF F _ _); split; first exact: normF_norm.
  move=> v; have [-> _ _] := @norms_ok_L F eps tiny m n 0 v; rewrite nE; congr (Ok (Num.sqrt _)).
  by apply: eq_bigr => i _; rewrite big_ord1.
- exists (fun v => \sum_i `|v i 0|); split; last first.
    by move=> v; have [_ -> _] := @norms_ok_L F eps tiny m n 0 v.
  split.
  + by move=> v; apply: sumr_ge0.
  + move=> v; split=> [/eqP|->]; last by apply: big1 => i _; rewrite mxE normr0.
    rewrite psumr_eq0 // => /allP H; apply/matrixP => i j; rewrite mxE ord1.
    by have := H i; rewrite mem_index_enum => /(_ isT); rewrite /= normr_eq0 => /eqP.
  + by move=> k v; rewrite big_distrr /=; apply: eq_bigr => i _; rewrite mxE normrM.
  + move=> u v; rewrite -big_split /=; apply: ler_sum => i _; rewrite mxE; exact: ler_norm_add.
- pose N (v : 'cV[F]_m.+1) := if vector_inf_norm (S:=S) (mat_of v) is Ok x then x else 0 : F.
  have P v : [/\ vector_inf_norm (S:=S) (mat_of v) = Ok (N v), exists i, N v = `|v i 0| & forall i, `|v i 0| <= N v].
    have [x [e H1 H2]] := @inf_norm_ok_L F eps tiny m v.
    by rewrite /N e.
  exists N; split; last by move=> v; have [] := P v.
  split.
  + by move=> v; have [_ [i ->] _] := P v.
  + move=> v; split=> [e|->]; last by have [_ [i ->] _] := P 0; rewrite mxE normr0.
    apply/matrixP => i j; rewrite mxE ord1; apply/eqP; rewrite -normr_le0 -e.
    by have [_ _] := P v; apply.
  + move=> k v; have [_ [i ei] Hi] := P (k *: v); have [_ [j ej] Hj] := P v.
    apply: le_anti; rewrite {1}ei mxE normrM ler_wpmul2l //=.
    by have := Hi j; rewrite mxE normrM -ej.
  + move=> u v; have [_ [i ->] _] := P (u + v); have [_ _ Hu] := P u; have [_ _ Hv] := P v.
    by rewrite mxE; apply: le_trans (ler_norm_add _ _) _; apply: ler_add.
- exists (@normF F _ _); split; first exact: normF_norm.
  by move=> A; have [_ _ ->] := @norms_ok_L F eps tiny m n A 0; rewrite nE.
Qed.

(*@doc C30: vector_p_norm for a natural exponent p, given a powf that computes natural powers and p-th roots of non-negative numbers. *)
Lemma p_norm_ok_L : forall (F : rcfType) (eps tiny : F) (powf : F -> F -> F) m (v : 'cV[F]_m.+1) p,
  (0 < p)%N ->
  (forall x, powf x p%:R = x ^+ p) ->
  (forall x, 0 <= x -> 0 <= powf x (1 / p%:R) /\ powf x (1 / p%:R) ^+ p = x) ->
  exists r, [/\ vector_p_norm (S:=exactE eps tiny) powf (mat_of v) p%:R = Ok r, 0 <= r & r ^+ p = \sum_i `|v i 0| ^+ p].
Proof.
move=> F eps tiny powf m v p p0 H1 H2.
have cv : cols (mat_of v) = Ok 1%N by rewrite (rep_cols (mat_of_rep 0 v)).
rewrite /vector_p_norm cv; cbn [bind]; rewrite eqxx; cbn [require].
rewrite for_foldl; cbn [bind]; rewrite (@sum_data_exact F eps tiny _ _ v (fun x => `|powf x p%:R|)).
rewrite [n_div _ _]/= pnatr_eq0 -[p == 0%N]negbK -lt0n p0; cbn [bind negb].
have -> : \sum_i \sum_j `|powf (v i j) p%:R| = \sum_i `|v i 0| ^+ p.
  by apply: eq_bigr => i _; rewrite big_ord1 H1 normrX.
have [] := H2 (\sum_i `|v i 0| ^+ p); first by apply: sumr_ge0 => i _; apply: exprn_ge0.
by move=> a b; eexists; split.
Qed.

(** a search loop: leave with [false] at the first index where [p] fails *)
Lemma forc_all lo hi (p : nat -> bool) (body : nat -> unit -> res (ctl unit bool)) :
  (forall i, (lo <= i < hi)%N -> body i tt = Ok (if p i then Next tt else Stop false)) ->
  forc lo hi body tt = Ok (if all p (iota lo (hi - lo)) then Next tt else Stop false).
Proof.
rewrite /forc => H; have {}H i : (lo <= i < lo + (hi - lo))%N -> body i tt = Ok (if p i then Next tt else Stop false).
  by move=> h; apply: H; lia.
move: (hi - lo)%N H => n; elim: n lo => [|n IH] l H //=.
rewrite H; last by lia.
by case: (p l) => //=; apply: IH => i hi'; apply: H; lia.
Qed.

Lemma all_iota_ord lo n (p : nat -> bool) :
  all p (iota lo (n - lo)) = [forall i : 'I_n, (lo <= i)%N ==> p i].
Proof.
apply/allP/forallP => [H i|H i].
  by apply/implyP => h; apply: H; rewrite mem_iota; have := ltn_ord i; lia.
rewrite mem_iota => h; have hi : (i < n)%N by lia.
by have /implyP := H (Ordinal hi); apply; rewrite /=; lia.
Qed.

(*@section C31 symmetry test @*)
(*@doc C31, any element type: a square matrix is reported symmetric iff approx_eq accepts every pair below/above the diagonal; other shapes are not symmetric. Never a panic. *)
Lemma is_symmetric_eval_L : forall (S : scalar) m n (A : 'M[S]_(m.+1, n.+1)) (B : 'M[S]_n.+1),
  [/\ m <> n -> is_symmetric (mat_of A) = Ok false,
      m <> n -> is_non_symmetric (mat_of A) = Ok true,
      is_symmetric (mat_of B) =
        Ok [forall i : 'I_n.+1, forall j : 'I_n.+1, (j < i)%N ==> s_ltb (s_abs (n_sub (B i j) (B j i))) (s_approx S)] &
      is_non_symmetric (mat_of B) =
        Ok (~~ [forall i : 'I_n.+1, forall j : 'I_n.+1, (j < i)%N ==> s_ltb (s_abs (n_sub (B i j) (B j i))) (s_approx S)])].
Proof.
move=> S m n A B.
have HA := mat_of_rep (n_zero S) A; have HB := mat_of_rep (n_zero S) B.
have h1 : m <> n -> is_symmetric (mat_of A) = Ok false.
  move=> /eqP ne; rewrite /is_symmetric (rep_cols HA) //; cbn [bind].
  by rewrite (rep_no_rows HA) eqSS ne.
suff h2 : is_symmetric (mat_of B) =
        Ok [forall i : 'I_n.+1, forall j : 'I_n.+1, (j < i)%N ==> s_ltb (s_abs (n_sub (B i j) (B j i))) (s_approx S)].
  split=> //; first by move=> ne; rewrite /is_non_symmetric h1.
  by rewrite /is_non_symmetric h2.
rewrite /is_symmetric (rep_cols HB) //; cbn [bind]; rewrite (rep_no_rows HB) eqxx; cbn [negb].
pose f := fn (n_zero S) B.
rewrite (forc_all (p := fun i => all (fun j => approx_eq_elem (f i j) (f j i)) (iota 0 (i - 0)))); last first.
  move=> i /andP[_ hi]; rewrite (forc_all (p := fun j => approx_eq_elem (f i j) (f j i))) // => j /andP[_ hj].
  rewrite (rep_get _ _ HB) hi (ltn_trans hj hi) /=.
  have e : get_ref (mat_of B) j i = Ok (f j i).
    have -> : get_ref (mat_of B) j i = get (mat_of B) j i by [].
    by rewrite (rep_get _ _ HB) hi (ltn_trans hj hi).
  by rewrite e /=; case: (approx_eq_elem _ _).
set b := all _ _; set c := [forall i, _]; suff -> : b = c by case: c.
rewrite /b all_iota_ord; apply/forallP/forallP => H i.
  apply/forallP => j; apply/implyP => ji.
  have /implyP := H i; have i0 : (0 < i)%N by lia.
  by move/(_ i0); rewrite all_iota_ord => /forallP /(_ (Ordinal ji)); rewrite /= /f /approx_eq_elem /approx_eq_eps !fnE.
apply/implyP => i0; rewrite all_iota_ord; apply/forallP => j; apply/implyP => _.
have jn : (j < n.+1)%N by apply: ltn_trans (ltn_ord j) (ltn_ord i).
have /forallP /(_ (Ordinal jn)) /implyP /(_ (ltn_ord j)) := H i.
by rewrite /approx_eq_elem /approx_eq_eps /f -!(fnE (n_zero S)).
Qed.

(*@doc C31 in exact arithmetic. *)
Lemma is_symmetric_ok_L : forall (F : rcfType) (eps tiny : F) n (A : 'M[F]_n.+1),
  exists b, is_symmetric (S:=exactE eps tiny) (mat_of A) = Ok b /\
    (b <-> forall i j, `|A i j - A j i| < (10 ^ 6)%:R^-1).
Proof.
move=> F eps tiny n A; eexists; split.
  by have [_ _ -> _] := @is_symmetric_eval_L (exactE eps tiny) n n A A.
split=> [/forallP H i j|H].
  have gen (x y : 'I_n.+1) : (y < x)%N -> `|A x y - A y x| < (10 ^ 6)%:R^-1.
    by move=> h; have /forallP /(_ y) /implyP /(_ h) := H x.
  case: (ltngtP j i) => h; first exact: gen.
    by rewrite distrC gen.
  by have -> : j = i by [apply: val_inj]; rewrite subrr normr0 invr_gt0 ltr0n.
by apply/forallP => i; apply/forallP => j; apply/implyP => _; apply: H.
Qed.

(*@doc C31: a symmetric matrix is always reported symmetric. *)
Lemma is_symmetric_sound_L : forall (F : rcfType) (eps tiny : F) n (A : 'M[F]_n.+1),
  A^T = A -> is_symmetric (S:=exactE eps tiny) (mat_of A) = Ok true.
Proof.
move=> F eps tiny n A sA; have [b [-> Hb]] := @is_symmetric_ok_L F eps tiny n A; congr Ok.
by apply/Hb => i j; rewrite -{2}sA mxE subrr normr0 invr_gt0 ltr0n.
Qed.

(*@section C32 approx_eq @*)
(*@doc C32, any element type. *)
Lemma approx_eq_eval_L : forall (S : scalar) m n m' n' (A B : 'M[S]_(m.+1, n.+1)) (C : 'M[S]_(m'.+1, n'.+1)),
  approx_eq (mat_of A) (mat_of B) =
    Ok [forall i, forall j, s_ltb (s_abs (n_sub (A i j) (B i j))) (s_approx S)] /\
  ((m, n) <> (m', n') -> approx_eq (mat_of A) (mat_of C) = Ok false).
Proof.
move=> S m n m' n' A B C.
have HA := mat_of_rep (n_zero S) A; have HB := mat_of_rep (n_zero S) B; have HC := mat_of_rep (n_zero S) C.
split; last first.
  move=> ne; rewrite /approx_eq /rows (rep_no_rows HA) (rep_no_rows HC) (rep_cols HA) // (rep_cols HC) //.
  cbn [bind]; rewrite !eqSS; case: eqP => //= em; case: eqP => //= en; by case: ne; rewrite em en.
rewrite /approx_eq /rows (rep_no_rows HA) (rep_no_rows HB) (rep_cols HA) // (rep_cols HB) //.
cbn [bind]; rewrite !eqxx; cbn [negb].
pose f := fn (n_zero S) A; pose f' := fn (n_zero S) B.
pose p k := approx_eq_elem (f (k %/ n.+1)%N (k %% n.+1)%N) (f' (k %/ n.+1)%N (k %% n.+1)%N).
rewrite (rep_size HA) (forc_all (p := p)); last first.
  move=> k /andP[_ hk]; have [e hi hj] := idx_divmod hk.
  by rewrite {1 2}e (rep_vget HA) // (rep_vget HB) //= -/f -/f' -/(p k); case: (p k).
cbn [bind].
set b := all _ _; set c := [forall i, _]; suff -> : b = c by case: c.
apply/allP/forallP => H.
  move=> i; apply/forallP => j; have := H (i * n.+1 + j)%N.
  rewrite mem_iota add0n subn0 leq0n idx_lt ?ltn_ord // => /(_ isT).
  by rewrite /p (flat_at (fun i j => approx_eq_elem (f i j) (f' i j))) ?ltn_ord // /f /f' !fnE.
move=> k; rewrite mem_iota add0n subn0 leq0n /= => hk; have [e hi hj] := idx_divmod hk.
have /forallP /(_ (Ordinal hj)) := H (Ordinal hi).
by rewrite /p /f /f' -!(fnE (n_zero S)).
Qed.

(*@doc C32 in exact arithmetic: what it means, and it is reflexive and symmetric. *)
Lemma approx_eq_ok_L : forall (F : rcfType) (eps tiny : F) m n (A B : 'M[F]_(m.+1, n.+1)),
  let S := exactE eps tiny in
  (exists b, approx_eq (S:=S) (mat_of A) (mat_of B) = Ok b /\ (b <-> forall i j, `|A i j - B i j| < (10 ^ 6)%:R^-1)) /\
  approx_eq (S:=S) (mat_of A) (mat_of A) = Ok true /\
  approx_eq (S:=S) (mat_of A) (mat_of B) = approx_eq (S:=S) (mat_of B) (mat_of A).
Proof.
move=> F eps tiny m n A B S.
have E C D := proj1 (@approx_eq_eval_L S m n m n C D C).
rewrite !E; split; [|split].
- eexists; split; first by [].
  split=> [/forallP H i j|H]; first by have /forallP := H i; apply.
  by apply/forallP => i; apply/forallP => j; apply: H.
- congr Ok; apply/forallP => i; apply/forallP => j /=.
  by rewrite subrr normr0 invr_gt0 ltr0n.
- congr Ok; apply/forallP/forallP => H i; apply/forallP => j; have /forallP /(_ j) /= := H i; by rewrite distrC.
Qed.

(*@doc C32: approx_eq is not transitive, for any shape. *)
Lemma approx_eq_trans_refuted_L : forall (F : rcfType) (eps tiny : F) m n,
  exists A B C : 'M[F]_(m.+1, n.+1), let S := exactE eps tiny in
  [/\ approx_eq (S:=S) (mat_of A) (mat_of B) = Ok true, approx_eq (S:=S) (mat_of B) (mat_of C) = Ok true &
      approx_eq (S:=S) (mat_of A) (mat_of C) = Ok false].
Proof.
move=> F eps tiny m n; pose d : F := (10 ^ 6)%:R^-1 / 2%:R.
exists 0, (const_mx d), (const_mx (d + d)) => S.
have d0 : 0 < d by rewrite divr_gt0 ?invr_gt0 ?ltr0n.
have dd : d + d = (10 ^ 6)%:R^-1 by rewrite /d -splitr.
have E C D := proj1 (@approx_eq_eval_L S m n m n C D C).
rewrite !E; split; congr Ok.
- apply/forallP => i; apply/forallP => j; rewrite /= !mxE sub0r normrN gtr0_norm // -dd; by rewrite ltr_addl.
- apply/forallP => i; apply/forallP => j; rewrite /= !mxE opprD addrA subrr sub0r normrN gtr0_norm // -dd; by rewrite ltr_addl.
- apply/negbTE/forallPn; exists ord0; apply/forallPn; exists ord0; rewrite /= !mxE sub0r normrN dd gtr0_norm ?ltxx //.
  by rewrite -dd addr_gt0.
Qed.

(*@section C33 equality @*)
Lemma vec_eqP T (e : T -> T -> bool) x0 (a b : seq T) :
  vec_eq e a b <-> size a = size b /\ forall i, (i < size a)%N -> e (nth x0 a i) (nth x0 b i).
Proof.
elim: a b => [|x a IH] [|y b] /=; split=> //; try by case.
- by case/andP => h /IH [sz H]; split; [rewrite sz | case].
- case=> -[sz] H; apply/andP; split; first exact: (H 0%N).
  by apply/IH; split=> // i hi; apply: (H i.+1).
Qed.

(*@doc C33, any element type with any ==: equal iff same shape and all elements ==. *)
Lemma mat_eq_ok_L : forall T (e : T -> T -> bool) m n m' n' (A B : 'M[T]_(m.+1, n.+1)) (C : 'M[T]_(m'.+1, n'.+1)),
  mat_eq e (mat_of A) (mat_of B) = [forall i, forall j, e (A i j) (B i j)] /\
  ((m, n) <> (m', n') -> mat_eq e (mat_of A) (mat_of C) = false).
Proof.
move=> T e m n m' n' A B C; pose x0 := A ord0 ord0.
have HA := mat_of_rep x0 A; have HB := mat_of_rep x0 B; have HC := mat_of_rep x0 C.
split; last first.
  move=> ne; apply/negP => /andP[/eqP]; rewrite (rep_no_rows HA) (rep_no_rows HC) => -[em] /(iffLR (vec_eqP e x0 _ _)) [+ _].
  by rewrite (rep_size HA) (rep_size HC) em => /eqP; rewrite eqn_pmul2l // eqSS => /eqP en; apply: ne; rewrite em en.
have nthE M (D : 'M[T]_(m.+1, n.+1)) (HD : rep m.+1 n.+1 M (fn x0 D)) i j : 
    (i < m.+1)%N -> (j < n.+1)%N -> nth x0 (data M) (i * n.+1 + j) = fn x0 D i j.
  move=> hi hj; have := rep_vget HD hi hj; rewrite (vgetE x0) ?(rep_size HD) ?idx_lt //; by case.
rewrite /mat_eq (rep_no_rows HA) (rep_no_rows HB) eqxx andTb; apply/idP/forallP.
  move=> /(iffLR (vec_eqP e x0 _ _)) [_ H] i; apply/forallP => j; have := H (i * n.+1 + j)%N.
  rewrite (rep_size HA) idx_lt ?ltn_ord // => /(_ isT).
  by rewrite (nthE _ _ HA) ?ltn_ord // (nthE _ _ HB) ?ltn_ord // !fnE.
move=> H; apply/(vec_eqP e x0); rewrite (rep_size HA) (rep_size HB); split=> // k hk; have [ek hi hj] := idx_divmod hk.
rewrite ek (nthE _ _ HA) // (nthE _ _ HB) //.
by have /forallP /(_ (Ordinal hj)) := H (Ordinal hi); rewrite -!(fnE x0).
Qed.

(*@doc C33: when the elements' == decides equality, so does the matrices' ==. *)
Lemma mat_eq_decides_L : forall (T : eqType) m n (A B : 'M[T]_(m.+1, n.+1)),
  mat_eq (fun x y => x == y) (mat_of A) (mat_of B) <-> A = B.
Proof.
move=> T m n A B; rewrite (proj1 (@mat_eq_ok_L T _ m n m n A B A)); split=> [/forallP H|->].
  by apply/matrixP => i j; apply/eqP; have /forallP := H i; apply.
by apply/forallP => i; apply/forallP => j.
Qed.

(*@section C34 hypot @*)
(*@doc C34 *)
Lemma hypot_ok_L : forall (F : rcfType) (eps tiny a b : F),
  hypot (S:=exactE eps tiny) a b = Ok (Num.sqrt (a ^+ 2 + b ^+ 2)).
Proof.
move=> F eps tiny a b; rewrite /hypot /=.
have key (x y : F) : x != 0 -> `|x| * Num.sqrt (1 + y / x * (y / x)) = Num.sqrt (x ^+ 2 + y ^+ 2).
  move=> x0; rewrite -sqrtr_sqr -sqrtrM ?sqr_ge0 //; congr Num.sqrt; by field.
have pos (y : F) : (1 + y * y < 0) = false.
  by apply/negbTE; rewrite -leNgt addr_ge0 ?ler01 // -expr2 sqr_ge0.
case: (boolP (`|b| < `|a|)) => [h|].
  have a0 : a != 0 by rewrite -normr_gt0; apply: le_lt_trans h.
  by rewrite (negbTE a0) /= pos /= key.
rewrite -leNgt => h; case: (boolP (b == 0)) => [/eqP b0|b0] /=.
  move: h; rewrite b0 normr0 normr_le0 => /eqP ->.
  by rewrite expr0n /= addr0 sqrtr0.
by rewrite pos /= key // addrC.
Qed.

(*@example
(** the hypotheses of p_norm_ok are met for p = 2 *)
Example p_norm_hyps (F : rcfType) : let powf (x y : F) := if y == 2%:R then x ^+ 2 else Num.sqrt x in
  (forall x, powf x 2%:R = x ^+ 2) /\
  (forall x, 0 <= x -> 0 <= powf x (1 / 2%:R) /\ powf x (1 / 2%:R) ^+ 2 = x).
Proof.
rewrite /=; split=> [x|x x0]; first by rewrite eqxx.
have -> : (1 / 2%:R == 2%:R :> F) = false.
  apply/negP => /eqP /(congr1 (fun z => z * 2%:R)); rewrite mulfVK ?pnatr_eq0 // -natrM => /eqP.
  by rewrite -[1]/(1%:R) eqr_nat.
by rewrite sqrtr_ge0 sqr_sqrtr.
Qed.
(** length of (3, 4) is 5 *)
Example length_3_4 (F : rcfType) (eps tiny : F) :
  vector_euclidean_norm (S:=exactE eps tiny) (Mat 2 [:: 3%:R; 4%:R]) = Ok 5%:R.
Proof.
have -> : Mat 2 [:: 3%:R; 4%:R] = mat_of (\matrix_(i < 2, j < 1) (if i == 0 then 3%:R else 4%:R)) :> mat F.
  apply: (@rep_mat_of F 2 1 _ (fun i _ => if i == 0%N then 3%:R else 4%:R)); last by move=> i j; rewrite mxE.
  split=> //; split=> // i j; by case: i => [|[|i]] // _; case: j.
have [-> _ _] := @norms_ok F eps tiny 1 0 0 (\matrix_(i < 2, j < 1) (if i == 0 then 3%:R else 4%:R)).
congr Ok; rewrite big_ord_recl big_ord1 !mxE /= -!natrX -natrD.
by rewrite -[(3 ^ 2 + 4 ^ 2)%N]/(5 ^ 2)%N natrX sqrtr_sqr ger0_norm ?ler0n.
Qed.
(** a matrix that is not symmetric but is reported so *)
Example nearly_symmetric (F : rcfType) (eps tiny : F) :
  let A := \matrix_(i < 2, j < 2) ((i < j)%N%:R / (10 ^ 7)%:R : F) in
  A^T <> A /\ is_symmetric (S:=exactE eps tiny) (mat_of A) = Ok true.
Proof.
move=> A; split.
  move/matrixP/(_ 0 1); rewrite !mxE /= mul0r mul1r => /esym/eqP; by rewrite invr_eq0 pnatr_eq0.
have [b [-> Hb]] := @is_symmetric_ok F eps tiny 1 A; congr Ok; apply/Hb => i j; rewrite !mxE -mulrBl normrM.
rewrite [X in _ * X < _]gtr0_norm ?invr_gt0 ?ltr0n //; apply: (@le_lt_trans _ _ (10 ^ 7)%:R^-1).
  rewrite ler_pimull ?invr_ge0 ?ler0n //; case: ltngtP => _; by rewrite ?subrr ?subr0 ?sub0r ?normrN ?normr1 ?normr0 ?ler01.
rewrite ltf_pinv ?posrE ?ltr0n // ltr_nat; by rewrite ltn_exp2l.
Qed.
@*)
