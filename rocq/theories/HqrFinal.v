(** * HqrFinal: EigenDecomposition::new on matrices that are not symmetric
    (eigen.rs:794-812): orthes and hqr2 put together. *)
From mathcomp Require Import all_ssreflect all_algebra zify ring.
From Verif Require Import Base Scalar Hoare ModelMatrix ModelEigen Spec SpecDecomp MatrixProofs LUProofs LUThms MiscThms Orth TredProofs TqlProofs EigenProofs OrthesProofs EigenThms HqrStep HqrSweep HqrIter HqrMore HqrTwo HqrAll HqrBack.

Set Implicit Arguments.
Unset Strict Implicit.
Unset Printing Implicit Defensive.
Import Order.TTheory GRing.Theory Num.Theory.
Local Open Scope ring_scope.

(** ** determinants of quasi-triangular matrices *)
Section Det.
Variable R : comRingType.
Implicit Types t : nat -> nat -> R.

Definition detf n t := \det (\matrix_(i < n, j < n) t i j).

Lemma detf1 n t : (forall j, (j < n)%N -> t n j = 0) -> detf n.+1 t = t n n * detf n t.
Proof.
move=> h; rewrite /detf (expand_det_row _ ord_max) big_ord_recr /= big1 ?add0r => [|i _]; last first.
  by rewrite mxE h ?mul0r //=.
rewrite mxE /=; congr (_ * _); rewrite /cofactor /= addnn -muln2 exprM sqrr_sign mul1r.
by congr (\det _); apply/matrixP => i j; rewrite !mxE !lift_max.
Qed.

Lemma detf2 n t : (forall j, (j < n)%N -> t n j = 0 /\ t n.+1 j = 0) ->
  detf n.+2 t = (t n n * t n.+1 n.+1 - t n n.+1 * t n.+1 n) * detf n t.
Proof.
move=> h; rewrite {1}/detf (expand_det_row _ ord_max) !big_ord_recr /= big1 ?add0r => [|i _]; last first.
  by rewrite mxE (proj2 (h _ _)) ?mul0r //=.
rewrite !mxE /= /cofactor /= addnn -muln2 exprM sqrr_sign mul1r.
have -> : (-1) ^+ (n.+1 + n) = -1 :> R by rewrite addSn addnn -muln2 exprS exprM sqrr_sign mulr1.
set M1 := row' _ _; set M2 := row' _ _.
have -> : \det M2 = detf n.+1 t.
  by congr (\det _); apply/matrixP => i j; rewrite !mxE !lift_max.
have -> : \det M1 = detf n.+1 (fun i j => if j == n then t i n.+1 else t i j).
  congr (\det _); apply/matrixP => i j; rewrite !mxE lift_max /= /bump.
  case: (altP (_ =P _)) => [->|jn]; first by rewrite leqnn.
  have jl : (j < n.+1)%N := ltn_ord j.
  by have -> : (n <= j)%N = false by move: (nat_of_ord j) jn jl => k kn kl; lia.
rewrite !detf1 => [||j hj]; last 2 first.
- by move=> j /h [].
- by have -> : (j == n) = false by [lia]; have [] := h j hj.
rewrite eqxx.
have -> : detf n (fun i j => if j == n then t i n.+1 else t i j) = detf n t.
  congr (\det _); apply/matrixP => i j; rewrite !mxE; have := ltn_ord j.
  by case: (altP (_ =P _)) => // ->; rewrite ltnn.
ring.
Qed.
End Det.

Section Final.
Variable F : rcfType.

Lemma froM m n p (A : 'M[F]_(m, n)) (B : 'M[F]_(n, p)) : fro (A *m B) <= fro A * fro B.
Proof.
rewrite /fro -sqrtrM; last by apply: sumr_ge0 => i _; apply: sumr_ge0 => j _; apply: sqr_ge0.
apply: ler_wsqrtr; rewrite mulr_suml; apply: ler_sum => i _.
rewrite [X in _ <= _ * X]exchange_big mulr_sumr /=; apply: ler_sum => j _; rewrite mxE.
have := @ip_CS F 1 n (row i A) (col j B)^T; rewrite /ip !big_ord1.
under eq_bigr do rewrite !mxE; under [X in _ <= X * _ -> _]eq_bigr do rewrite !mxE -expr2.
by under [X in _ <= _ * X -> _]eq_bigr do rewrite !mxE -expr2.
Qed.

Section Poly.
Variables (n : nat) (d e : nat -> F) (f : nat -> nat -> F).
Hypothesis Hfin : forall i, (i < n)%N -> fin n 0 d e f i.
Local Notation T := (Tt e f).

Definition facf i : {poly F} := if e i == 0 then 'X - (d i)%:P
  else if 0 < e i then ('X - (d i)%:P) ^+ 2 + (e i ^+ 2)%:P else 1.

Lemma char_T : char_poly (mxf n n T) = \prod_(0 <= i < n) facf i.
Proof.
pose t a b : {poly F} := (if a == b then 'X else 0) - (T a b)%:P.
have -> : char_poly (mxf n n T) = detf n t.
  congr (\det _); apply/matrixP => i j; rewrite !mxE /t -(inj_eq val_inj) /=.
  by case: eqP.
suff H m : (m <= n)%N -> (forall i, (i < m)%N -> 0 < e i -> (i.+1 < m)%N) -> detf m t = \prod_(0 <= i < m) facf i.
  by apply: H => // i hi ei; have [] := pos_next Hfin hi ei.
elim/ltn_ind: m => -[|m] IH mn hb.
  by rewrite /detf big_geq // det_mx00.
have mn' : (m < n)%N by nl F.
have em : e m <= 0 by rewrite leNgt; apply/negP => /(hb m (ltnSn m)); rewrite ltnn.
case: (altP (e m =P 0)) => em0.
  rewrite detf1 => [|j hj]; last first.
    by rewrite /t Tt_low ?em0 // subr0; have -> : (m == j) = false by nl F.
  rewrite IH //; [|exact: ltnW|move=> i hi ei]; last first.
    have := hb i (ltnW hi) ei; rewrite ltnS leq_eqVlt => /orP[/eqP iE|//].
    have [_ h _ _ _] := pos_next Hfin (ltn_trans hi mn') ei.
    by move: ei; rewrite -[e i]opprK -h iE em0 oppr0 ltxx.
  rewrite big_nat_recr //= mulrC; congr (_ * _).
  rewrite /t /facf em0 !eqxx Tt_up //; have := Hfin mn'; rewrite /fin em0 eqxx => ->.
  by [].
have {em em0} em : e m < 0 by rewrite lt_neqAle em0.
have [m0 em1] := neg_prev Hfin mn' em.
case: m m0 mn mn' hb IH em em1 => [|m] // _ mn mn' hb IH em1 /= em.
have [_ eE dE tr dt] := pos_next Hfin (ltnW mn') em.
have em2 : e m <= 0 -> False by rewrite leNgt em.
rewrite detf2 => [|j hj]; last first.
  rewrite /t; have -> : (m == j) = false by nl F.
  have -> : (m.+1 == j) = false by nl F.
  by rewrite Tt_low ?(ltW em) // Tt_low2 ?subr0.
rewrite IH; [|by nl F|by nl F|move=> i hi ei]; last first.
  have := hb i (leqW (leqW hi)) ei; rewrite ltnS leq_eqVlt => /orP[/eqP|]; first by nl F.
  rewrite ltnS leq_eqVlt => /orP[/eqP iE|//].
  have im : (i < n)%N by nl F.
  have [_ h _ _ _] := pos_next Hfin im ei.
  by move: em; rewrite -iE h oppr_gt0 ltNge (ltW ei).
rewrite !big_nat_recr //= -mulrA mulrC; congr (_ * _).
rewrite /facf gt_eqF // em lt_eqF // [0 < e m.+1]ltNge (ltW em1) mulr1.
rewrite /t !eqxx; have -> : (m == m.+1) = false by nl F.
have -> : (m.+1 == m) = false by nl F.
rewrite Tt_pair // !Tt_up // !sub0r.
have fE : f m.+1 m.+1 = d m *+ 2 - f m m by rewrite -tr addrC addKr.
have pE : f m m.+1 * f m.+1 m = f m m * f m.+1 m.+1 - d m ^+ 2 - e m ^+ 2.
  by rewrite -addrA -opprD -dt opprB addrC subrK.
have -> : - (f m m.+1)%:P * - (f m.+1 m)%:P = (f m m * (d m *+ 2 - f m m) - d m ^+ 2 - e m ^+ 2)%:P.
  by rewrite mulrNN -polyCM pE fE.
rewrite fE !(polyCB, polyCM, polyCMn, polyC_exp); ring.
Qed.
End Poly.

Lemma char_conj n (V T : 'M[F]_n) : orthogonal V -> char_poly (V *m T *m V^T) = char_poly T.
Proof.
move=> [_ oV]; rewrite /char_poly.
pose W := map_mx (@polyC F) V.
have WE : W *m W^T = 1%:M by rewrite map_trmx -map_mxM oV map_mx1.
have -> : char_poly_mx (V *m T *m V^T) = W *m char_poly_mx T *m W^T.
  rewrite /char_poly_mx mulmxBr mulmxBl !map_mxM -map_trmx -/W; congr (_ - _).
  by rewrite scalar_mxC -mulmxA WE mulmx1.
by rewrite !det_mulmx mulrAC -det_mulmx WE det1 mul1r.
Qed.

Variables eps tiny : F.
Hypothesis eps0 : 0 < eps.
Local Notation S := (exactE eps tiny).
Variable n : nat.
Hypothesis n0 : (0 < n)%N.

(** the norm *)
Lemma norm_bounds f : let norm := \sum_(0 <= i < n) \sum_(i - 1 <= j < n) `|f i j| in
  mxf n n (hessf f) != 0 :> 'M[F]_n -> 0 < norm /\ norm <= (n * n)%:R * fro (mxf n n (hessf f)).
Proof.
move=> norm nz.
have t0 i j : 0 <= `|f i j| by [].
have hE i j : (i - 1 <= j)%N -> hessf f i j = f i j by move=> h; rewrite /hessf; ifn F.
split.
  rewrite lt_neqAle eq_sym sumr_ge0 ?andbT; last by move=> i _; apply: sumr_ge0.
  apply: contra nz => /eqP n00; apply/eqP/matrixP => i j; rewrite !mxE.
  rewrite /hessf; case: ifP => // ij.
  have : \sum_(i - 1 <= j0 < n) `|f i j0| = 0.
    move: n00; rewrite /norm big_mkord => /psumr_eq0P -> // k _; exact: sumr_ge0.
  move/eqP; rewrite psumr_eq0 // => /allP /(_ (val j)); rewrite mem_index_iota ltn_ord andbT.
  have ij1 : (i - 1 <= j)%N by move: ij; clear; lia.
  by move=> /(_ ij1) /=; rewrite normr_eq0 => /eqP.
have B : forall i, (i < n)%N -> \sum_(i - 1 <= j < n) `|f i j| <= n%:R * fro (mxf n n (hessf f)).
  move=> i hi; apply: (@le_trans _ _ (\sum_(i - 1 <= j < n) fro (mxf n n (hessf f)))).
    apply: ler_sum_nat => j hj; rewrite -(hE i j); last by nl F.
    have hjn : (j < n)%N by nl F.
    by have := fro_entry (mxf n n (hessf f)) (Ordinal hi) (Ordinal hjn); rewrite mxE.
  rewrite sumr_const_nat -[X in X <= _]mulr_natl ler_wpmul2r ?fro_ge0 // ler_nat; nl F.
rewrite natrM -mulrA; apply: (@le_trans _ _ (\sum_(0 <= i < n) (n%:R * fro (mxf n n (hessf f))))).
  by apply: ler_sum_nat => i hi; apply: B.
by rewrite sumr_const_nat subn0 -mulr_natl.
Qed.

Lemma T_Tf ex e f : mxf n n (Tf 0 ex e f) = mxf n n (Tt e f) :> 'M[F]_n.
Proof.
apply/matrixP => a b; rewrite !mxE /Tf /Tt /keepT ltn0 andbF addr0; case: ifP => // _.
by case: (altP (_ =P _)) => //= ->.
Qed.

Lemma nth_mk (x : nat -> F) i : (i < n)%N -> nth 0 (mkseq x n) i = x i.
Proof. exact: nth_mkseq. Qed.

Theorem hqr2_ok (E : err -> Prop) fuel gz gr gs dd ee h v d0 e0 f V (A : 'M[F]_n) :
  (forall norm (st : hq S), 0 < norm -> norm <= (n * n)%:R * fro A -> @hinv F eps tiny n A 0 st ->
     wpe E (loop_ fuel (hqr2_iter (S:=S) n norm) st) (fun st' => @hinv F eps tiny n A fuel st' /\ hq_n1 st' = 0%N)) ->
  repr1 n dd d0 -> repr1 n ee e0 -> repr n n h f -> repr n n v V ->
  orthogonal (mxf n n V) -> A = mxf n n V *m mxf n n (hessf f) *m (mxf n n V)^T -> A != 0 ->
  wpe E (hqr2 (S:=S) fuel n gz gr gs dd ee h v) (fun '(dd', ee', v') => exists (W B : 'M[F]_n) d e,
    [/\ [/\ dd' = mkseq d n, ee' = mkseq e n & repr n n v' (fn 0 W)],
        conj_pairs n (mkseq d n) (mkseq e n),
        fro (A - B) <= ((1 + eps * KK F n) ^+ fuel - 1) * fro A /\ char_poly B = eig_poly n (mkseq d n) (mkseq e n),
        W \in unitmx &
        distinct_pairs n (mkseq d n) (mkseq e n) ->
        fro (A *m W - W *m pair_blocks n (mkseq d n) (mkseq e n))
          <= ((1 + eps * KK F n) ^+ fuel - 1 + eps * (n * n)%:R) * fro A * fro W]).
Proof.
move=> HL Hd He Hh Hv oV AE A0; rewrite /hqr2 (norm_ok tiny eps0 Hh); cbn [bind].
set norm := \sum_(0 <= i < n) _.
have nz : mxf n n (hessf f) != 0 :> 'M[F]_n by apply: contra A0 => /eqP h0; rewrite AE h0 mulmx0 mul0mx.
have fE : fro (mxf n n (hessf f)) = fro A by rewrite AE; exact: esym (fro_cong _ oV).
have [norm0 norm_le] := norm_bounds nz; rewrite -/norm fE in norm0 norm_le.
have I0 : @hinv F eps tiny n A 0 (HQ (S:=S) dd ee h v 0 n 0).
  exists d0, e0, f, V; split=> //=.
  - by split=> //; rewrite normr0 mulrn_wge0 // NN0.
  - rewrite /cong; have -> : mxf n n (Tf n 0 e0 f) = mxf n n (hessf f) :> 'M[F]_n.
      apply/matrixP => a b; rewrite !mxE /Tf /hessf /keepT ltn_ord orTb andbT if_same addr0.
      have [h1|[h1|h1]] : (a <= b)%N \/ a = b.+1 :> nat \/ (b.+1 < a)%N by nl F.
      + by ifn F.
      + by ifn F.
      + by ifn F.
    by rewrite -AE subrr fro0 /NN expr0 mul1r subrr.
  - by move=> i; nl F.
apply: wpe_bind; apply: wpe_mono (HL norm _ norm0 norm_le I0) => st [[d [e [f1 [V1 [[Hd1 He1 Hf1 HV1] _ [oV1 _] Tb Hfin]]]]] n10].
rewrite n10 in Tb Hfin; rewrite /cong T_Tf in Tb; exs; rewrite (gt_eqF norm0).
have {}Hfin i : (i < n)%N -> fin n 0 d e f1 i by move=> hi; apply: Hfin.
apply: wpe_bind; apply: wpe_mono (back_ok eps0 norm0 Hfin E gz gr gs Hd1 He1 Hf1) => h2 [g [Hg Hok]].
apply: wpe_bind; apply: wpe_mono (trans_ok eps tiny E Hg HV1) => v2 Hv2.
apply: wpe_ok.
pose X : 'M[F]_n := mxf n n (Xg g).
pose T : 'M[F]_n := mxf n n (Tt e f1).
pose U : 'M[F]_n := mxf n n V1.
pose D := pair_blocks n (mkseq d n) (mkseq e n).
have WE : mxf n n (fun i j => \sum_(0 <= k < j.+1) V1 i k * g k j) = U *m X.
  apply/matrixP => i j; rewrite !mxE; have jn := ltn_ord j.
  rewrite (big_nat_widen _ _ n) // big_mkord [RHS](bigID (fun k : 'I_n => (k < j.+1)%N)) /=.
  rewrite [X in _ = _ + X]big1 ?addr0 => [|k hk]; last first.
    by rewrite !mxE /Xg; have -> : (k <= j)%N = false by [nl F]; rewrite mulr0.
  by apply: eq_bigr => k hk; rewrite !mxE /Xg -ltnS hk.
have XT : T *m X - X *m D = mxf n n (fun i j => resid n d e f1 g i j).
  apply/matrixP => i j; rewrite !mxE /resid big_mkord -addrA; congr (_ + _).
    by apply: eq_bigr => k _; rewrite !mxE.
  have DE (k : 'I_n) : X i k * D k j = (if k == j then d j * Xg g i j else 0)
     - (if 0 < e j then (if k == j.+1 :> nat then e j * Xg g i j.+1 else 0)
        else if e j < 0 then (if k.+1 == j :> nat then e j * Xg g i j.-1 else 0) else 0).
    rewrite !mxE !nth_mk //; case: (altP (k =P j)) => [->|kj].
      have -> : (j == j.+1 :> nat) = false by nl F.
      have -> : (j.+1 == j :> nat) = false by nl F.
      by rewrite /= !if_same subr0 mulrC.
    have kj' : (k == j :> nat) = false by rewrite (inj_eq val_inj) (negPf kj).
    rewrite sub0r.
    have [h1|[h1|[h1 h1']]] : k = j.+1 :> nat \/ j = k.+1 :> nat \/ (k != j.+1 :> nat) /\ (j != k.+1 :> nat).
      case: (altP (k =P j.+1 :> nat)) => [->|]; first by left.
      by case: (altP (j =P k.+1 :> nat)) => [->|]; [right; left|right; right].
    - have kn := ltn_ord k; rewrite h1 in kn.
      have -> : (j == k.+1 :> nat) = false by nl F.
      rewrite h1 eqxx /=; have -> : (j.+2 == j :> nat) = false by nl F.
      case: (ltP (e j.+1) 0) => ek.
        have [_ ej] := neg_prev Hfin kn ek; have [_ eE _ _ _] := pos_next Hfin (ltn_ord j) ej.
        rewrite /= in ej *; rewrite ej eE; ring.
      rewrite mulr0; case: (ltP 0 (e j)) => ej.
        have [_ eE _ _ _] := pos_next Hfin (ltn_ord j) ej.
        by move: ek; rewrite eE oppr_ge0 leNgt ej.
      by rewrite if_same oppr0.
    - have -> : (k == j.+1 :> nat) = false by nl F.
      rewrite h1 eqxx /=; have jn := ltn_ord j; rewrite h1 in jn.
      rewrite orbF; case: (ltP 0 (e k)) => ek.
        have [_ eE _ _ _] := pos_next Hfin (ltn_ord k) ek.
        rewrite eE oppr_gt0 oppr_lt0 ek ltNge (ltW ek) /=; ring.
      rewrite mulr0; case: (ltP 0 (e k.+1)) => ej; first by rewrite oppr0.
      case: (ltP (e k.+1) 0) => ej'; last by rewrite oppr0.
      by have [_] := neg_prev Hfin jn ej'; rewrite /= ltNge ek.
    - rewrite (negPf h1) (negPf h1') /= mulr0.
      have -> : (k.+1 == j) = false by nl F.
      by rewrite !if_same oppr0.
  under eq_bigr do rewrite DE.
  rewrite big_split /= -big_mkcond big_pred1_eq sumrN opprD opprK; congr (_ + _).
  case: ifP => ej.
    have [jn _ _ _ _] := pos_next Hfin (ltn_ord j) ej.
    rewrite (bigD1 (Ordinal jn)) //= eqxx big1 ?addr0 // => k.
    by rewrite -(inj_eq val_inj) /= => /negPf ->.
  case: ifP => ej'; last by rewrite big1.
  have [j0 _] := neg_prev Hfin (ltn_ord j) ej'.
  have j1 : (j.-1 < n)%N by have := ltn_ord j; nl F.
  rewrite (bigD1 (Ordinal j1)) //= prednK // eqxx big1 ?addr0 // => k.
  rewrite -(inj_eq val_inj) /= => hk; case: ifP => // /eqP kE; exfalso; move: hk; rewrite -kE /=.
  by rewrite eqxx.
exists (U *m X), (U *m T *m U^T), d, e; split.
- split; [exact: repr1_eq|exact: repr1_eq|].
  apply: repr_ext Hv2 _ => i j hi hj.
  by rewrite (fn_lt _ _ hi hj) -WE mxE.
- split; rewrite ?size_mkseq // => i hi; rewrite (nth_mk e hi) (nth_mk d hi).
  case: (ltgtP (e i) 0) => ei; [constructor 3|constructor 2|by constructor 1].
    have [i0 ei1] := neg_prev Hfin hi ei; have i1 : (i.-1 < n)%N by nl F.
    have [_ eE dE _ _] := pos_next Hfin i1 ei1; rewrite prednK // in eE dE.
    by rewrite !nth_mk // eE dE opprK.
  by have [i1 eE dE _ _] := pos_next Hfin hi ei; rewrite !nth_mk.
- split; first by rewrite mulrBl mul1r.
  rewrite char_conj // (char_T Hfin) /eig_poly big_mkord; apply: eq_bigr => i _.
  by rewrite /facf !nth_mk.
- rewrite unitmx_mul; apply/andP; split.
    by rewrite unitmxE; apply/unitrPr; exists (\det U^T); rewrite -det_mulmx (proj2 oV1) det1.
  rewrite unitmxE -det_tr det_trig; last first.
    by apply/is_trig_mxP => i j ij; rewrite !mxE /Xg; have -> : (j <= i)%N = false by nl F.
  by rewrite unitfE; apply/prodf_neq0 => i _; rewrite !mxE; have [] := Hok i (ltn_ord i).
move=> ds; set dl := (1 + _) ^+ fuel - 1.
have dall : distall n d e by move=> i j hi hj ei ej dij eij; apply: ds; rewrite ?nth_mk.
have -> : A *m (U *m X) - U *m X *m D = (A - U *m T *m U^T) *m (U *m X) + U *m (T *m X - X *m D).
  case: oV1 => o1 _; rewrite mulmxBl mulmxBr !mulmxA -[U *m T *m _ *m _]mulmxA o1 mulmx1.
  by rewrite addrA subrK.
apply: le_trans (froD _ _) _; rewrite mulrDl mulrDl; apply: ler_add.
  apply: le_trans (froM _ _) _; rewrite ler_wpmul2r ?fro_ge0 // /dl mulrBl mul1r.
  exact: Tb.
rewrite fro_orth_l // (fro_orth_l X oV1) XT.
apply: (@le_trans _ _ (fro ((eps * norm) *: X))).
  apply: fro_le => i j; rewrite !mxE normrM (gtr0_norm (mulr_gt0 eps0 norm0)).
  by have [_ H] := Hok j (ltn_ord j); apply: H.
rewrite froZ (gtr0_norm (mulr_gt0 eps0 norm0)) ler_wpmul2r ?fro_ge0 // -mulrA ler_wpmul2l //.
exact: ltW.
Qed.

End Final.
