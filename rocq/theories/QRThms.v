(** * QRThms: proofs of the property theorems about qr.rs and pinverse (restated in PropQR.v). *)
From mathcomp Require Import all_ssreflect all_algebra zify ring.
From Verif Require Import Base Scalar Hoare ModelMatrix ModelLU ModelQR Spec MatrixProofs MatrixProofs2 MatrixThms LUProofs LUThms CholThms QRProofs QRSolve.

Set Implicit Arguments.
Unset Strict Implicit.
Unset Printing Implicit Defensive.
Import Order.TTheory GRing.Theory Num.Theory.
Local Open Scope ring_scope.

Section Aux.
Variable F : rcfType.
Variables eps tiny : F.
Local Notation S := (exactE eps tiny).

Lemma mxf_fn m n (A : 'M[F]_(m, n)) : mxf m n (fn 0 A) = A.
Proof. by apply/matrixP => i j; rewrite mxE fnE. Qed.

Lemma qr_new_mx m n (A : 'M[F]_(m.+1, n.+1)) g : exists (d : qr_decomp S) f r,
  [/\ qr_new (S:=S) g (mat_of A) = Ok d, rep m.+1 n.+1 (qr d) f,
      repr1 (minn m.+1 n.+1) (rdiag d) r &
      [/\ (forall l, (l < minn m.+1 n.+1)%N -> hh_ok_at m.+1 f r l),
      (forall l, (l < minn m.+1 n.+1)%N -> r l = 0 -> forall i, (l <= i < m.+1)%N -> f i l = 0) &
      A = hprod m.+1 f r (minn m.+1 n.+1) *m wmx m.+1 n.+1 f r (minn m.+1 n.+1)]].
Proof.
have /wp_ex [d e [f [r [H1 H2 [K1 K2 K3]]]]] :=
  @qr_new_ok F eps tiny _ _ g _ _ (mat_of_rep 0 A) (ltn0Sn _) (ltn0Sn _).
by exists d, f, r; split=> //; split=> //; rewrite -K3 mxf_fn.
Qed.

Lemma get_r_mx m n (d : qr_decomp S) f r g : rep m.+1 n.+1 (qr d) f ->
  repr1 (minn m.+1 n.+1) (rdiag d) r ->
  qr_get_r g d = Ok (mat_of (wmx m.+1 n.+1 f r (minn m.+1 n.+1))).
Proof.
move=> Hd Hr; apply: wp_mat_of (qr_get_r_ok Hd Hr (ltn0Sn _) (ltn0Sn _) g) _.
by move=> i j; rewrite mxE.
Qed.

Lemma upper_w m n (f : nat -> nat -> F) (r : nat -> F) : upper (wmx m n f r (minn m n)).
Proof.
move=> i j ji; rewrite mxE /wfn; have -> : (i < j)%N = false by lia.
have -> : (j < minn m n)%N by rewrite leq_min ltn_ord andbT (leq_trans ji) // ltnW.
by have -> : (i == j :> nat) = false by lia.
Qed.
End Aux.

(*@section C25 QR factorisation @*)
(*@doc C25: for every matrix of every shape and rank the decomposition succeeds; R is m x n upper
    triangular, Q is m x m, Q R = A, and Q^T Q is the identity restricted to the first min(m,n) columns. *)
Lemma qr_factorisation_L : forall (F : rcfType) (eps tiny : F) m n (A : 'M[F]_(m.+1, n.+1)) g,
  exists (d : qr_decomp (exactE eps tiny)) (Q : 'M[F]_m.+1) (R : 'M[F]_(m.+1, n.+1)),
  [/\ qr_new (S:=exactE eps tiny) g (mat_of A) = Ok d,
      qr_get_q d = Ok (mat_of Q), forall g', qr_get_r g' d = Ok (mat_of R) &
  [/\ upper R, Q *m R = A &
      forall i j : 'I_m.+1, (Q^T *m Q) i j = ((i == j) && (i < minn m.+1 n.+1)%N)%:R]].
Proof.
move=> F eps tiny m n A g; have [d [f [r [e Hd Hr [K1 K2 K3]]]]] := @qr_new_mx F eps tiny _ _ A g.
have Hok : qr_ok m.+1 n.+1 (fn 0 A) f r (minn m.+1 n.+1) by split=> //; rewrite mxf_fn.
have /wp_ex [Q eq [h [HQ Hh]]] := qr_get_q_ok Hd Hr Hok (ltn0Sn _) (ltn0Sn _).
exists d, (mxf m.+1 m.+1 h), (wmx m.+1 n.+1 f r (minn m.+1 n.+1)); split=> //.
- by rewrite eq; congr Ok; apply: rep_mat_of HQ _ => i j; rewrite mxE.
- by move=> g'; apply: get_r_mx.
split; first exact: upper_w.
  by rewrite Hh -mulmxA wmx_E0.
move=> i j; rewrite Hh trmx_mul mulmxA -(mulmxA _ _ (hprod _ _ _ _)) hprod_orth // mulmx1.
by rewrite tr_pid_mx pid_mx_id ?geq_minl // mxE val_eqE.
Qed.

(*@doc C26 (holds exactly when the matrix is not tall): Q is orthogonal. *)
Lemma qr_q_orthogonal_partial_L : forall (F : rcfType) (eps tiny : F) m n (A : 'M[F]_(m.+1, n.+1)) g,
  (m <= n)%N ->
  exists (d : qr_decomp (exactE eps tiny)) (Q : 'M[F]_m.+1),
  [/\ qr_new (S:=exactE eps tiny) g (mat_of A) = Ok d,
      qr_get_q d = Ok (mat_of Q), Q^T *m Q = 1%:M & Q *m Q^T = 1%:M].
Proof.
move=> F eps tiny m n A g mn; have [d [Q [R [e eq er [_ _ H]]]]] := @qr_factorisation_L F eps tiny _ _ A g.
have HQ : Q^T *m Q = 1%:M.
  apply/matrixP => i j; rewrite H !mxE.
  by have -> : (i < minn m.+1 n.+1)%N by [rewrite (minn_idPl _) //]; rewrite andbT.
by exists d, Q; split=> //; apply: mulmx1C.
Qed.

(*@doc C26 refuted for every tall matrix: the columns n, .., m-1 of Q are zero, so Q is not orthogonal. *)
Lemma qr_q_orthogonal_refuted_L : forall (F : rcfType) (eps tiny : F) m n (A : 'M[F]_(m.+1, n.+1)) g,
  (n < m)%N ->
  exists (d : qr_decomp (exactE eps tiny)) (Q : 'M[F]_m.+1),
  [/\ qr_new (S:=exactE eps tiny) g (mat_of A) = Ok d,
      qr_get_q d = Ok (mat_of Q),
      forall i j : 'I_m.+1, (n < j)%N -> Q i j = 0 & Q^T *m Q <> 1%:M].
Proof.
move=> F eps tiny m n A g nm; have [d [Q [R [e eq er [_ _ H]]]]] := @qr_factorisation_L F eps tiny _ _ A g.
exists d, Q; split=> //; last first.
  move/matrixP => /(_ ord_max ord_max); rewrite H !mxE eqxx /=.
  have -> : (m < minn m.+1 n.+1)%N = false by rewrite leq_min; lia.
  by move/eqP; rewrite eq_sym oner_eq0.
move=> i j nj; have := H j j; rewrite eqxx.
have -> : (j < minn m.+1 n.+1)%N = false by rewrite leq_min; lia.
rewrite mxE => /eqP; rewrite psumr_eq0; last by move=> l _; rewrite !mxE -expr2 sqr_ge0.
move/allP/(_ i); rewrite mem_index_enum => /(_ isT); rewrite !mxE -expr2 sqrf_eq0 => /eqP; exact.
Qed.

Section Rank.
Variable F : rcfType.
Lemma hprod_unit m (f : nat -> nat -> F) (r : nat -> F) k : (forall l, (l < k)%N -> hh_ok_at m f r l) ->
  hprod m f r k \in unitmx.
Proof. by move=> H; have [] := mulmx1_unit (hprod_orth H). Qed.

Lemma rank_hprod m n (f : nat -> nat -> F) (r : nat -> F) k (W : 'M[F]_(m, n)) : (forall l, (l < k)%N -> hh_ok_at m f r l) ->
  \rank (hprod m f r k *m W) = \rank W.
Proof. by move=> /hprod_unit H; rewrite eqmxMfull // row_full_unit. Qed.

Lemma gram_hprod m n (f : nat -> nat -> F) (r : nat -> F) k (W : 'M[F]_(m, n)) : (forall l, (l < k)%N -> hh_ok_at m f r l) ->
  (hprod m f r k *m W)^T *m (hprod m f r k *m W) = W^T *m W.
Proof.
by move=> H; rewrite trmx_mul mulmxA -(mulmxA _ _ (hprod _ _ _ _)) hprod_orth // mulmx1.
Qed.

Lemma sqnorm_eq0 m n (X : 'M[F]_(m, n)) : X *m X^T = 0 -> X = 0.
Proof.
move=> H; apply/matrixP => i j; rewrite [RHS]mxE.
have /matrixP/(_ i i) := H; rewrite !mxE => /eqP; rewrite psumr_eq0; last first.
  by move=> l _; rewrite !mxE -expr2 sqr_ge0.
by move/allP/(_ j); rewrite mem_index_enum => /(_ isT); rewrite !mxE -expr2 sqrf_eq0 => /eqP.
Qed.

Lemma gram_unit m n (A : 'M[F]_(m, n)) : (A^T *m A \in unitmx) = (\rank A == n).
Proof.
apply/idP/idP => [H|/eqP r].
  rewrite eqn_leq rank_leq_col /=.
  have : row_full (A^T *m A) by rewrite row_full_unit.
  rewrite /row_full => /eqP {1}<-; exact: mxrankM_maxr.
rewrite -row_free_unit -kermx_eq0; apply/eqP.
set K := kermx _; have KE : K *m (A^T *m A) = 0 by exact: mulmx_ker.
have E : K *m A^T = 0.
  by apply: sqnorm_eq0; rewrite trmx_mul trmxK mulmxA -(mulmxA K) KE mul0mx.
have fr : row_free A^T by rewrite /row_free mxrank_tr r.
by apply/eqP; rewrite -(mulmx_free_eq0 _ fr) E.
Qed.

Lemma upper_unit n (T : 'M[F]_n) : upper T -> (T \in unitmx) = [forall i, T i i != 0].
Proof.
move=> H; rewrite unitmxE unitfE -det_tr det_trig; last first.
  by apply/is_trig_mxP => i j ij; rewrite mxE H.
apply/prodf_neq0/forallP => h i; first by have := h i isT; rewrite mxE.
by move=> _; rewrite mxE.
Qed.

Lemma all_iotaP n (p : pred nat) : all p (iota 0 n) = [forall i : 'I_n, p i].
Proof.
apply/allP/forallP => [h i|h x]; first by apply: h; rewrite mem_iota ltn_ord.
by rewrite mem_iota => hx; apply: (h (Ordinal hx)).
Qed.

Lemma w_rank m n (f : nat -> nat -> F) (r : nat -> F) : (n <= m)%N ->
  (\rank (wmx m n f r n) == n) = all (fun j => r j != 0) (iota 0 n).
Proof.
move=> nm; pose T := mxf n n (wfn f r n).
have WE : wmx m n f r n = (pid_mx n : 'M[F]_(m, n)) *m T.
  apply/matrixP => i j; rewrite !mxE; case: (ltnP i n) => hi.
    rewrite (bigD1 (Ordinal hi)) //= big1 ?addr0; last first.
      move=> l; rewrite -val_eqE /= => li; rewrite !mxE.
      by have -> : (i == l :> nat) = false by [lia]; rewrite mul0r.
    by rewrite !mxE /= eqxx hi mul1r.
  rewrite big1; last first.
    move=> l _; rewrite !mxE; have -> : (i == l :> nat) = false by have := ltn_ord l; lia.
    by rewrite mul0r.
  rewrite /wfn ltn_ord; have hj := ltn_ord j; have -> : (i < j)%N = false by lia.
  by have -> : (i == j :> nat) = false by lia.
rewrite -gram_unit WE trmx_mul mulmxA -(mulmxA T^T) tr_pid_mx mul_pid_mx minnn (minn_idPr nm) pid_mx_1 mulmx1.
rewrite unitmx_mul unitmx_tr andbb upper_unit.
  rewrite all_iotaP; apply: eq_forallb => i; rewrite mxE /wfn ltn_ord ltnn eqxx //.
move=> i j ji; rewrite mxE /wfn ltn_ord; have -> : (i < j)%N = false by lia.
by have -> : (i == j :> nat) = false by lia.
Qed.
End Rank.

(*@section C27 full rank test @*)
(*@doc C27 for matrices that are not wide: is_full_rank decides full column rank. *)
Lemma qr_full_rank_partial_L : forall (F : rcfType) (eps tiny : F) m n (A : 'M[F]_(m.+1, n.+1)) g,
  (n <= m)%N ->
  bind (qr_new (S:=exactE eps tiny) g (mat_of A)) (@qr_is_full_rank _) = Ok (\rank A == n.+1).
Proof.
move=> F eps tiny m n A g nm; have [d [f [r [e Hd Hr [K1 K2 K3]]]]] := @qr_new_mx F eps tiny _ _ A g.
rewrite e [bind _ _]/= (qr_full_rank_ok Hd Hr) //.
have em : minn m.+1 n.+1 = n.+1 by apply/minn_idPr.
rewrite em in K1 K2 K3; by rewrite K3 rank_hprod // w_rank.
Qed.

(*@doc C27 refuted for wide matrices: A = [A1 A2] with A1 square; is_full_rank panics (index out of
    bounds) when A1 is invertible, and answers false otherwise - even when A has full (row) rank. *)
Lemma qr_full_rank_wide_refuted_L : forall (F : rcfType) (eps tiny : F) m k (A1 : 'M[F]_m.+1)
    (A2 : 'M[F]_(m.+1, k.+1)) g,
  bind (qr_new (S:=exactE eps tiny) g (mat_of (row_mx A1 A2))) (@qr_is_full_rank _) =
  if A1 \in unitmx then Err Panic else Ok false.
Proof.
move=> F eps tiny m k A1 A2 g.
have [d [f [r [e Hd Hr [K1 K2 K3]]]]] := @qr_new_mx F eps tiny m (m + k.+1) (row_mx A1 A2) g.
rewrite e [bind _ _]/= (qr_full_rank_wide Hd Hr) //; last by rewrite ltnS addnS ltnS leq_addr.
have em : minn m.+1 (m + k.+1).+1 = m.+1 by apply/minn_idPl; rewrite ltnS leq_addr.
rewrite em in K1 K2 K3.
have A1E : A1 = hprod m.+1 f r m.+1 *m wmx m.+1 m.+1 f r m.+1.
  have := congr1 (@lsubmx F m.+1 m.+1 k.+1) K3; rewrite row_mxKl => ->.
  apply/matrixP => i j; rewrite !mxE; apply: eq_bigr => l _; by rewrite !mxE.
have -> : (A1 \in unitmx) = all (fun j => r j != 0) (iota 0 m.+1); last by [].
by rewrite A1E unitmx_mul hprod_unit //= -row_free_unit /row_free w_rank.
Qed.

(*@section C29 pseudo-inverse @*)
(*@doc C29: pinverse returns M iff A has full column rank and M is the Moore-Penrose inverse of A. *)
Lemma pinverse_partial_L : forall (F : rcfType) (eps tiny : F) m n (A : 'M[F]_(m.+1, n.+1))
    gp g1 g2 g3 g4 g5 g6 g7 g8,
  pinverse (S:=exactE eps tiny) gp g1 g2 g3 g4 g5 g6 g7 g8 (mat_of A) =
  if \rank A == n.+1 then Ok (mat_of (invmx (A^T *m A) *m A^T)) else Err Panic.
Proof.
move=> F eps tiny m n A gp g1 g2 g3 g4 g5 g6 g7 g8.
have [d [f [r [e Hd Hr [K1 K2 K3]]]]] := @qr_new_mx F eps tiny _ _ A g1.
rewrite /pinverse e [bind _ _]/= (get_r_mx g2 Hd Hr) [bind _ _]/=.
rewrite t_ok_L // [bind _ _]/= mul_exact // [bind _ _]/= inverse_ok_L.
have <- : A^T *m A = (wmx m.+1 n.+1 f r (minn m.+1 n.+1))^T *m wmx m.+1 n.+1 f r (minn m.+1 n.+1).
  by rewrite {1 2}K3 gram_hprod.
rewrite gram_unit; case: ifP => // _.
by rewrite [bind _ _]/= t_ok_L // [bind _ _]/= mul_exact.
Qed.

(*@doc C29: the Moore-Penrose inverse is unique. *)
Lemma moore_penrose_unique_L : forall (F : fieldType) m n (A : 'M[F]_(m, n)) X Y,
  moore_penrose A X -> moore_penrose A Y -> X = Y.
Proof.
move=> F m n A X Y [a1 a2 a3 a4] [b1 b2 b3 b4].
have e1 : A *m X = A *m Y.
  have -> : A *m X = (A *m Y) *m (A *m X) by rewrite mulmxA b1.
  by rewrite -{1}b3 -{1}a3 -trmx_mul mulmxA a1 b3.
have e2 : X *m A = Y *m A.
  have -> : X *m A = (X *m A) *m (Y *m A) by rewrite -mulmxA (mulmxA A) b1.
  by rewrite -{1}a4 -{1}b4 -trmx_mul -mulmxA (mulmxA A) a1 b4.
by rewrite -a2 e2 -mulmxA e1 mulmxA b2.
Qed.

(*@doc C29: in terms of the four Penrose conditions. *)
Lemma pinverse_sound_L : forall (F : rcfType) (eps tiny : F) m n (A : 'M[F]_(m.+1, n.+1))
    gp g1 g2 g3 g4 g5 g6 g7 g8 M,
  pinverse (S:=exactE eps tiny) gp g1 g2 g3 g4 g5 g6 g7 g8 (mat_of A) = Ok M <->
  \rank A = n.+1 /\ exists2 X, M = mat_of X & moore_penrose A X.
Proof.
move=> F eps tiny m n A gp g1 g2 g3 g4 g5 g6 g7 g8 M; rewrite pinverse_partial_L.
set X := _ *m _.
have HX : \rank A == n.+1 -> moore_penrose A X.
  rewrite -gram_unit => u; have XA : X *m A = 1%:M by rewrite /X -mulmxA mulVmx.
  split.
  - by rewrite -mulmxA XA mulmx1.
  - by rewrite XA mul1mx.
  - by rewrite /X !trmx_mul trmxK trmx_inv trmx_mul trmxK mulmxA.
  - by rewrite XA trmx1.
split.
  by case: ifP => // h [<-]; split; [apply/eqP|exists X => //; apply: HX].
move=> [/eqP h [Y -> HY]]; rewrite h; congr (Ok (mat_of _)).
by apply: moore_penrose_unique_L HY; apply: HX.
Qed.

(*@doc C29 refuted without full column rank: every rank deficient and every wide matrix makes pinverse
    panic, although every such matrix has a Moore-Penrose inverse (shown here for the zero matrix). *)
Lemma pinverse_refuted_L : forall (F : rcfType) (eps tiny : F) m n (A : 'M[F]_(m.+1, n.+1))
    gp g1 g2 g3 g4 g5 g6 g7 g8,
  (\rank A < n.+1)%N ->
  pinverse (S:=exactE eps tiny) gp g1 g2 g3 g4 g5 g6 g7 g8 (mat_of A) = Err Panic.
Proof.
move=> F eps tiny m n A gp g1 g2 g3 g4 g5 g6 g7 g8 h; rewrite pinverse_partial_L.
by case: eqP => // e; rewrite e ltnn in h.
Qed.

(*@section C46 Householder vectors @*)
Section H.
Variable F : rcfType.
Canonical mulmx_law m := @Monoid.Law _ _ (@mulmx F m m m) (@mulmxA F m m m m) (@mul1mx F m m) (@mulmx1 F m m).
Lemma reflector_refl m n (f : nat -> nat -> F) r (k : 'I_n) : (k < m)%N -> hh_ok_at m f r k ->
  (r k = 0 -> forall i, (k <= i < m)%N -> f i k = 0) ->
  reflector (col k (mxf m n (hfn f))) = refl m f r k.
Proof.
move=> km h1 h2; have -> : col k (mxf m n (hfn f)) = ucol m f k.
  by apply/matrixP => i j; rewrite !mxE.
rewrite /reflector /refl; case: (altP (r k =P 0)) => [r0|r0].
  have -> : ucol m f k = 0; last by rewrite eqxx.
  by apply/matrixP => i j; rewrite !mxE; case: ifP => // ki; rewrite h2 // ki /=.
have [f0 ss] := h1 r0.
have -> : (ucol m f k == 0) = false.
  apply/negbTE/eqP => /matrixP /(_ (Ordinal km) 0); rewrite !mxE /= leqnn => /eqP.
  by rewrite (negPf f0).
rewrite ucol_sq ss mxE eqxx mulr1n -scaleNr; congr (_ + _ *: _).
have c0 : r k * f k k != 0 by rewrite mulf_neq0.
have two : (2%:R : F) != 0 by rewrite pnatr_eq0.
rewrite -[X in _ / X]mulr_natl invfM invrN mulrN mulrN opprK mulrA ?mulfV // mul1r.
by [].
Qed.

Lemma reflect_hprod m n (f : nat -> nat -> F) r :
  (forall l, (l < minn m n)%N -> hh_ok_at m f r l) ->
  (forall l, (l < minn m n)%N -> r l = 0 -> forall i, (l <= i < m)%N -> f i l = 0) ->
  reflect_cols (mxf m n (hfn f)) = hprod m f r (minn m n).
Proof.
move=> K1 K2; rewrite /reflect_cols.
pose G k := if (k < minn m n)%N then refl m f r k else 1%:M.
have -> : \big[mulmx/1%:M]_(j < n) reflector (col j (mxf m n (hfn f))) = \big[mulmx/1%:M]_(j < n) G j.
  apply: eq_bigr => j _; rewrite /G; case: ifP => jm.
    move: (jm); rewrite leq_min => /andP[jm' _]; apply: reflector_refl => //; [exact: K1|exact: K2].
  have -> : col j (mxf m n (hfn f)) = 0; last by rewrite /reflector eqxx.
  apply/matrixP => i j'; rewrite !mxE /hfn.
  have hi := ltn_ord i; have hj := ltn_ord j; move/negbT: jm; rewrite -leqNgt geq_min => jm.
  by have -> : (j <= i)%N = false by lia.
suff gen k : \big[mulmx/1%:M]_(j < k) G j = hprod m f r (minn (minn m n) k).
  by rewrite gen -minnA minnn.
elim: k => [|k IH]; first by rewrite big_ord0 minn0.
rewrite big_ord_recr /= IH /G; case: (boolP (k < minn m n)%N) => hk.
  rewrite (minn_idPr (ltnW hk)) (minn_idPr hk) //.
rewrite mulmx1; move: hk; rewrite -leqNgt => hk.
by rewrite (minn_idPl hk) (minn_idPl (leqW hk)).
Qed.
End H.

(*@doc C46: get_h is lower trapezoidal and its columns define reflections whose product times R is A. *)
Lemma qr_get_h_spec_L : forall (F : rcfType) (eps tiny : F) m n (A : 'M[F]_(m.+1, n.+1)) g,
  exists (d : qr_decomp (exactE eps tiny)) (H R : 'M[F]_(m.+1, n.+1)),
  [/\ qr_new (S:=exactE eps tiny) g (mat_of A) = Ok d,
      forall g', qr_get_h g' d = Ok (mat_of H), forall g', qr_get_r g' d = Ok (mat_of R),
      lower H & reflect_cols H *m R = A].
Proof.
move=> F eps tiny m n A g; have [d [f [r [e Hd Hr [K1 K2 K3]]]]] := @qr_new_mx F eps tiny _ _ A g.
exists d, (mxf m.+1 n.+1 (hfn f)), (wmx m.+1 n.+1 f r (minn m.+1 n.+1)); split=> //.
- move=> g'; apply: wp_mat_of (qr_get_h_ok Hd (ltn0Sn _) (ltn0Sn _) g') _.
  by move=> i j; rewrite mxE.
- by move=> g'; apply: get_r_mx.
- by move=> i j ij; rewrite mxE /hfn leqNgt ij.
- by rewrite (reflect_hprod K1 K2) -K3.
Qed.

(*@section C28 solve @*)
(*@doc C28: row count mismatch panics. *)
Lemma qr_solve_panics_L : forall (F : rcfType) (eps tiny : F) m n m' k (A : 'M[F]_(m.+1, n.+1)) (B : 'M[F]_(m', k)) g,
  m' <> m.+1 ->
  bind (qr_new (S:=exactE eps tiny) g (mat_of A)) (fun d => qr_solve d (mat_of B)) = Err Panic.
Proof.
move=> F eps tiny m n m' k A B g ne; have [d [f [r [e Hd Hr _]]]] := @qr_new_mx F eps tiny _ _ A g.
rewrite e [bind _ _]/= /qr_solve /rows (rep_no_rows Hd) /=; by case: eqP.
Qed.

(*@doc C28, the part that holds: None for a rank deficient matrix that is not wide. *)
Lemma qr_solve_none_partial_L : forall (F : rcfType) (eps tiny : F) m n k (A : 'M[F]_(m.+1, n.+1)) (B : 'M[F]_(m.+1, k)) g,
  (n <= m)%N -> \rank A <> n.+1 ->
  bind (qr_new (S:=exactE eps tiny) g (mat_of A)) (fun d => qr_solve d (mat_of B)) = Ok None.
Proof.
move=> F eps tiny m n k A B g nm rk; have := @qr_full_rank_partial_L F eps tiny _ _ A g nm.
have [d [f [r [e Hd Hr _]]]] := @qr_new_mx F eps tiny _ _ A g.
rewrite e [bind _ _]/= => fr; rewrite /= /qr_solve /rows (rep_no_rows Hd) eqxx /= fr /=.
by case: eqP.
Qed.

Section Solve.
Variable F : rcfType.
Variables eps tiny : F.
Local Notation S := (exactE eps tiny).
(** the two loops of solve, for a full rank decomposition that is not wide *)
Lemma qr_solve_loops m n k (d : qr_decomp S) f r (B : 'M[F]_(m.+1, k.+1)) : (n <= m)%N ->
  rep m.+1 n.+1 (qr d) f -> repr1 (minn m.+1 n.+1) (rdiag d) r ->
  (forall l, (l < n.+1)%N -> f l l != 0) -> (forall l, (l < n.+1)%N -> r l != 0) ->
  exists y z x, [/\ repr m.+1 k.+1 x z,
    qr_solve d (mat_of B) = bind (new n.+1 k.+1 x) (fun X => Ok (Some X)),
    mxf m.+1 k.+1 y = gprod m.+1 f n.+1 *m B &
    forall i j, (i < n.+1)%N -> (j < k.+1)%N ->
      y i j = r i * z i j + \sum_(i.+1 <= l < n.+1) f i l * z l j].
Proof.
move=> nm Hd Hr f0 r0; have HB := mat_of_rep 0 B.
have /wp_ex [x1 e1 [y [Hy Ey]]] := @qr_solve_qt_ok F eps tiny m.+1 n.+1 k.+1 d f Hd nm _ _ f0 (proj2 HB).
have /wp_ex [x2 e2 [z [Hz Ez _]]] := @qr_solve_r_ok F eps tiny m.+1 n.+1 k.+1 d f r Hd Hr nm _ _ Hy r0.
exists y, z, x2; split=> //; last by rewrite Ey mxf_fn.
rewrite /qr_solve /rows (rep_no_rows Hd) eqxx; cbn [require].
rewrite (qr_full_rank_ok Hd Hr) //.
have -> : all (fun j => r j != 0) (iota 0 n.+1).
  by apply/allP => i; rewrite mem_iota => hi; apply: r0; lia.
cbn [bind negb]; rewrite (rep_cols HB) //; cbn [bind]; rewrite (rep_cols Hd) //; cbn [bind].
by rewrite e1; cbn [bind]; rewrite e2.
Qed.
End Solve.

(*@doc C28 refuted for every tall matrix of full column rank and every right hand side: solve panics. *)
Lemma qr_solve_tall_refuted_L : forall (F : rcfType) (eps tiny : F) m n k (A : 'M[F]_(m.+1, n.+1)) (B : 'M[F]_(m.+1, k.+1)) g,
  (n < m)%N -> \rank A = n.+1 ->
  bind (qr_new (S:=exactE eps tiny) g (mat_of A)) (fun d => qr_solve d (mat_of B)) = Err Panic.
Proof.
move=> F eps tiny m n k A B g nm rk; have [d [f [r [e Hd Hr [K1 K2 K3]]]]] := @qr_new_mx F eps tiny _ _ A g.
have em : minn m.+1 n.+1 = n.+1 by apply/minn_idPr/ltnW.
have r0 l : (l < n.+1)%N -> r l != 0.
  move=> hl; move/eqP: rk; rewrite K3 rank_hprod // em w_rank; last exact: ltnW.
  by move/allP/(_ l); rewrite mem_iota; apply.
have f0 l : (l < n.+1)%N -> f l l != 0 by move=> hl; have [] := K1 l _ (r0 l hl) => //; rewrite em.
have [y [z [x [Hz eS _ _]]]] := qr_solve_loops B (ltnW nm) Hd Hr f0 r0.
rewrite e [bind _ _]/= eS /new (repr_size Hz).
have -> // : (n.+1 * k.+1 == m.+1 * k.+1)%N = false.
by rewrite eqn_pmul2r //; lia.
Qed.

(*@doc C28, what solve computes for a square invertible A: X with R X = G_(n-1)...G_0 B where G_k is
    I - h_k h_k^T / h_kk. The property needs the reflections I + h_k h_k^T / (r_kk h_kk) here, so the result
    is the solution of A X = B when every diagonal element of R is -1 (see qr_solve_refuted for the rest). *)
Lemma qr_solve_square_partial_L : forall (F : rcfType) (eps tiny : F) n k (A : 'M[F]_n.+1) (B : 'M[F]_(n.+1, k.+1)) g,
  A \in unitmx ->
  exists (d : qr_decomp (exactE eps tiny)) (H R : 'M[F]_n.+1) (X : 'M[F]_(n.+1, k.+1)),
  [/\ qr_new (S:=exactE eps tiny) g (mat_of A) = Ok d,
      forall g', qr_get_h g' d = Ok (mat_of H), forall g', qr_get_r g' d = Ok (mat_of R) &
  [/\ qr_solve d (mat_of B) = Ok (Some (mat_of X)), R \in unitmx,
      R *m X = (\big[mulmx/1%:M]_(j < n.+1) (1%:M - (H (rev_ord j) (rev_ord j))^-1 *: (col (rev_ord j) H *m (col (rev_ord j) H)^T))) *m B &
      (forall i, R i i = -1) -> A *m X = B]].
Proof.
move=> F eps tiny n k A B g Au; have [d [f [r [e Hd Hr [K1 K2 K3]]]]] := @qr_new_mx F eps tiny _ _ A g.
have em : minn n.+1 n.+1 = n.+1 by rewrite minnn.
rewrite em in Hr K1 K2 K3.
have r0 l : (l < n.+1)%N -> r l != 0.
  move=> hl; move: Au; rewrite K3 unitmx_mul hprod_unit //= -row_free_unit /row_free w_rank //.
  by move/allP/(_ l); rewrite mem_iota; apply.
have f0 l : (l < n.+1)%N -> f l l != 0 by move=> hl; have [] := K1 l _ (r0 l hl).
rewrite -{1}em in Hr.
have [y [z [x [Hz eS Ey Ez]]]] := qr_solve_loops B (leqnn n) Hd Hr f0 r0.
set R := wmx n.+1 n.+1 f r n.+1.
have RX : R *m mxf n.+1 k.+1 z = mxf n.+1 k.+1 y.
  apply/matrixP => i j; rewrite !mxE Ez //.
  have -> : \sum_(j0 < n.+1) R i j0 * mxf n.+1 k.+1 z j0 j = \sum_(l < n.+1) wfn f r n.+1 i l * z l j.
    by apply: eq_bigr => l _; rewrite !mxE.
  rewrite (sum_fn n.+1 (fun l => wfn f r n.+1 i l * z l j)) (@big_cat_nat _ _ _ i) //=; last exact: ltnW.
  rewrite big_nat big1 ?add0r; last first.
    move=> l hl; rewrite /wfn; have -> : (l < n.+1)%N by have := ltn_ord i; lia.
    have -> : (i < l)%N = false by lia.
    by have -> : (i == l :> nat) = false by [lia]; rewrite mul0r.
  rewrite big_ltn //; congr (_ + _); first by rewrite /wfn ltn_ord ltnn eqxx.
  by apply: eq_big_nat => l /andP[hl1 hl2]; rewrite /wfn hl2 hl1.
have GE : gprod n.+1 f n.+1 = \big[mulmx/1%:M]_(j < n.+1)
    (1%:M - (mxf n.+1 n.+1 (hfn f) (rev_ord j) (rev_ord j))^-1 *:
       (col (rev_ord j) (mxf n.+1 n.+1 (hfn f)) *m (col (rev_ord j) (mxf n.+1 n.+1 (hfn f)))^T)).
  rewrite [RHS](eq_bigr (fun j : 'I_n.+1 => gmx n.+1 f (n.+1 - j.+1)%N)); last first.
    move=> j _; rewrite /gmx !mxE /hfn leqnn /=.
    by have -> : col (rev_ord j) (mxf n.+1 n.+1 (hfn f)) = ucol n.+1 f (n.+1 - j.+1)
      by apply/matrixP => a b; rewrite !mxE.
  suff gen p : gprod n.+1 f p = \big[mulmx/1%:M]_(j < p) gmx n.+1 f (p - j.+1)%N by exact: gen.
  elim: p => [|p IH]; first by rewrite big_ord0.
  rewrite big_ord_recl /= subSS subn0 IH; congr (_ *m _).
exists d, (mxf n.+1 n.+1 (hfn f)), R, (mxf n.+1 k.+1 z); split=> //.
- move=> g'; apply: wp_mat_of (qr_get_h_ok Hd (ltn0Sn _) (ltn0Sn _) g') _.
  by move=> i j; rewrite mxE.
- by move=> g'; rewrite (get_r_mx g' Hd Hr) minnn.
split.
- rewrite eS; have /wp_ex [X -> HX] := new_rep (ltn0Sn n) (ltn0Sn k) Hz; rewrite [bind _ _]/=.
  by congr (Ok (Some _)); apply: rep_mat_of HX _ => i j; rewrite mxE.
- by move: Au; rewrite K3 unitmx_mul => /andP[].
- by rewrite RX Ey GE.
- move=> Hm1; rewrite K3 -mulmxA -/R RX Ey mulmxA.
  suff -> : hprod n.+1 f r n.+1 *m gprod n.+1 f n.+1 = 1%:M by rewrite mul1mx.
  have gE l : (l < n.+1)%N -> gmx n.+1 f l = refl n.+1 f r l.
    move=> hl; rewrite /gmx /refl (negPf (r0 l hl)).
    have := Hm1 (Ordinal hl); rewrite mxE /wfn /= hl ltnn eqxx => ->.
    by rewrite mulN1r invrN scaleNr.
  suff gen p : (p <= n.+1)%N -> hprod n.+1 f r p *m gprod n.+1 f p = 1%:M by exact: gen.
  elim: p => [|p IH] hp; first by rewrite mulmx1.
  rewrite /= gE // mulmxA -(mulmxA (hprod n.+1 f r p)) refl_invol ?mulmx1; last exact: K1.
  by rewrite IH // ltnW.
Qed.

(*@doc C28 refuted: for a 1 x 1 system a x = b with a <> 0 solve returns b (2a - 1) / a, which is the
    solution b / a only if a = 1 or b = 0. *)
Lemma qr_solve_refuted_L : forall (F : rcfType) (eps tiny : F) (a b : F) g,
  a != 0 ->
  bind (qr_new (S:=exactE eps tiny) g (mat_of (const_mx a : 'M_1))) (fun d => qr_solve d (mat_of (const_mx b : 'M_1)))
    = Ok (Some (mat_of (const_mx (b * (2%:R * a - 1) / a) : 'M_1))) /\
  ((const_mx a : 'M_1) *m const_mx (b * (2%:R * a - 1) / a) = const_mx b :> 'M_1 <-> a = 1 \/ b = 0).
Proof.
move=> F eps tiny a b g a0; have one (x : F) : mat_of (const_mx x : 'M_1) = Mat 1 [:: x].
  by rewrite /mat_of enum_ordSl enum_ord0 /= mxE.
have two : (2%:R : F) != 0 by rewrite pnatr_eq0.
split; last first.
  have -> : (const_mx a : 'M_1) *m const_mx (b * (2%:R * a - 1) / a) = const_mx (b * (2%:R * a - 1)) :> 'M_1.
    by apply/matrixP => i j; rewrite !mxE big_ord1 !mxE mulrC divfK.
  split=> [/matrixP/(_ 0 0)|h]; last first.
    apply/matrixP => i j; rewrite !mxE; case: h => ->; last by rewrite mul0r.
    by rewrite mulr1 -[2%:R]/(1 + 1) addrK mulr1.
  rewrite !mxE => /eqP; rewrite -subr_eq0.
  have -> : b * (2%:R * a - 1) - b = 2%:R * (b * (a - 1)) by ring.
  rewrite !mulf_eq0 (negPf two) /= subr_eq0 => /orP[/eqP|/eqP]; [by right|by left].
rewrite !one /qr_new /cols /= /for_ /= /perform_householder_reflection /qr_norm_sqr /= /for_ /= add0r.
have -> : (a * a < 0) = false by rewrite ltNge -expr2 sqr_ge0.
rewrite /= -[a * a]/(a ^+ 2) sqrtr_sqr.
set r := (if 0 < a then _ else _).
have rE : r = - a.
  rewrite /r; case: (Order.TotalTheory.ltP 0 a) => h; first by rewrite gtr0_norm.
  by rewrite ler0_norm.
rewrite rE oppr_eq0 (negPf a0) /=.
rewrite /qr_solve /= /qr_is_full_rank /cols /= /forc /= oppr_eq0 (negPf a0) /=.
rewrite /qr_solve_qt /= /for_ /= opprK.
have aa : a + a != 0 by rewrite -mulr2n mulrn_eq0.
rewrite (negPf aa) /= /qr_solve_r /= /for_rev /= /for_ /= oppr_eq0 (negPf a0) /= /new /=.
congr (Ok (Some (Mat _ [:: _]))).
rewrite add0r divfK // invrN mulrN -mulNr; congr (_ / a).
by ring.
Qed.
(*@example
(** the hypotheses are met by a tall full rank matrix, by a rank deficient one and by wide ones *)
Example qr_tall_full_rank (F : rcfType) : \rank (col_mx 1%:M 0 : 'M[F]_(2 + 1, 2)) = 2%N.
Proof. by apply/eqP; rewrite -gram_unit tr_col_mx mul_row_col trmx1 mulmx1 mulmx0 addr0 unitmx1. Qed.
Example qr_rank_deficient (F : rcfType) : \rank (const_mx 0 : 'M[F]_(3, 2)) <> 2%N.
Proof. by have -> : const_mx 0 = 0 :> 'M[F]_(3, 2) by []; rewrite mxrank0. Qed.
Example qr_solve_wrong (F : rcfType) (eps tiny : F) g :
  bind (qr_new (S:=exactE eps tiny) g (mat_of (const_mx 2%:R : 'M_1))) (fun d => qr_solve d (mat_of (const_mx 2%:R : 'M_1)))
    = Ok (Some (mat_of (const_mx 3%:R : 'M_1))).
Proof.
have two : (2%:R : F) != 0 by rewrite pnatr_eq0.
rewrite (proj1 (@qr_solve_refuted F eps tiny _ _ g two)) mulrAC mulfV // mul1r.
by congr (Ok (Some (mat_of (const_mx _)))); rewrite -natrM -[1]/(1%:R) -natrB.
Qed.
@*)

(*@section C45 agreement with the other decompositions @*)
(*@doc C45: for an invertible matrix pinverse and inverse return the same matrix. *)
Lemma pinverse_inverse_L : forall (F : rcfType) (eps tiny : F) n (A : 'M[F]_n.+1)
    gp g1 g2 g3 g4 g5 g6 g7 g8 gp' g1' g2' M,
  inverse (S:=exactE eps tiny) gp' g1' g2' (mat_of A) = Ok (Some M) ->
  pinverse (S:=exactE eps tiny) gp g1 g2 g3 g4 g5 g6 g7 g8 (mat_of A) = Ok M.
Proof.
move=> F eps tiny n A gp g1 g2 g3 g4 g5 g6 g7 g8 gp' g1' g2' M.
rewrite inverse_ok_L pinverse_partial_L; case: ifP => // Au [<-].
have -> : \rank A == n.+1 by rewrite -[_ == _]/(row_free A) row_free_unit.
congr (Ok (mat_of _)); have Gu : A^T *m A \in unitmx by rewrite unitmx_mul unitmx_tr Au.
by apply: (can_inj (mulKmx Gu)); rewrite mulKVmx // -mulmxA mulmxV // mulmx1.
Qed.

(*@doc C45: the diagonal of R gives the determinant up to sign. *)
Lemma qr_det_L : forall (F : rcfType) (eps tiny : F) n (A : 'M[F]_n.+1) g gp,
  exists (d : qr_decomp (exactE eps tiny)) (R : 'M[F]_n.+1) (x : F),
  [/\ qr_new (S:=exactE eps tiny) g (mat_of A) = Ok d,
      forall g', qr_get_r g' d = Ok (mat_of R),
      det (S:=exactE eps tiny) gp (mat_of A) = Ok x & `|\prod_i R i i| = `|x|].
Proof.
move=> F eps tiny n A g gp; have [d [f [r [e Hd Hr [K1 K2 K3]]]]] := @qr_new_mx F eps tiny _ _ A g.
rewrite minnn in K1 K2 K3 *.
exists d, (wmx n.+1 n.+1 f r n.+1), (\det A); split=> //.
- by move=> g'; rewrite (get_r_mx g' Hd Hr) minnn.
- by rewrite det_ok_L.
rewrite K3 det_mulmx normrM.
have -> : `|\det (hprod n.+1 f r n.+1)| = 1.
  have /(congr1 (fun M => `|\det M|)) := hprod_orth K1.
  rewrite det_mulmx det_tr det1 normr1 normrM -expr2 => /eqP.
  by rewrite sqrf_eq1 => /orP[/eqP //|/eqP h]; have := normr_ge0 (\det (hprod n.+1 f r n.+1)); rewrite h oppr_ge0 ler10.
rewrite mul1r -det_tr det_trig; last first.
  apply/is_trig_mxP => i j ij; rewrite mxE; have H := @upper_w F n.+1 n.+1 f r; rewrite minnn in H; exact: H.
by congr (`| _ |); apply: eq_bigr => i _; rewrite [RHS]mxE.
Qed.
