(** * HqrMore: the outer loop of hqr2 (eigen.rs:382-608). *)
From mathcomp Require Import all_ssreflect all_algebra zify ring.
From Verif Require Import Base Scalar Hoare ModelMatrix ModelEigen Spec SpecDecomp MatrixProofs LUProofs LUThms MiscThms Orth TredProofs TqlProofs OrthesProofs HqrStep HqrSweep HqrIter.

Set Implicit Arguments.
Unset Strict Implicit.
Unset Printing Implicit Defensive.
Import Order.TTheory GRing.Theory Num.Theory.
Local Open Scope ring_scope.

Section Loop.
Variable F : rcfType.
Variables eps tiny : F.
Hypothesis eps0 : 0 < eps.
Local Notation S := (exactE eps tiny).
Variable n : nat.
Implicit Types (f g V : nat -> nat -> F) (d e : nat -> F).

(** the matrix the state stands for: n1 rows are active (shifted by ex), the
    others carry finished 1x1 and 2x2 blocks *)
Definition keepT n1 e i := (i < n1)%N || ((n1 < i)%N && (e i < 0)).
Definition Tf n1 ex e f a b : F :=
  if (a <= b)%N then f a b + (if (a == b) && (a < n1)%N then ex else 0)
  else if (a == b.+1) && keepT n1 e a then f a b else 0.

Lemma Tf_split ex e f m t : (m <= t)%N ->
  mxf n n (Tf t.+1 ex e f) = mxf n n (WW (fun i => e i < 0) m t f)
    + (if (0 < m)%N then f m m.-1 else 0) *: (ecol F n m *m (ecol F n m.-1)^T) + ex *: proj F n t.
Proof.
move=> mt; apply/matrixP => a b; rewrite !mxE big_ord1 !mxE /Tf /WW /kp /keepT ltnS.
move: (nat_of_ord a) (nat_of_ord b) => {}a {}b.
case: (leqP a b) => ab /=.
  have -> : (a == m)%:R * (b == m.-1)%:R = (((a == m) && (b == m.-1))%:R : F) by rewrite -natrM mulnb.
  case: (posnP m) => [_|m0]; first by rewrite mul0r addr0; case: ifP => _; rewrite ?mulr1 ?mulr0.
  have -> : (a == m) && (b == m.-1) = false by nl F.
  by rewrite mulr0 addr0; case: ifP => _; rewrite ?mulr1 ?mulr0.
have -> : (a == b) = false by nl F.
rewrite /= mulr0 addr0.
case: (altP (a =P b.+1)) => [ab1|ab1] /=; last first.
  rewrite add0r; case: (posnP m) => [_|m0]; first by rewrite mul0r.
  have -> : (a == m)%:R * (b == m.-1)%:R = (((a == m) && (b == m.-1))%:R : F) by rewrite -natrM mulnb.
  by have -> : (a == m) && (b == m.-1) = false by [nl F]; rewrite mulr0.
case: (altP (a =P m)) => [am|am] /=; last by rewrite mul0r mulr0 addr0.
have -> : (a <= t)%N by nl F.
have -> : (0 < m)%N by nl F.
have bm : b = m.-1 by nl F.
by rewrite /= add0r bm eqxx !mulr1 am.
Qed.

Lemma err_step (A V T Q T' V' : 'M[F]_n) : orthogonal V -> orthogonal Q -> V' = V *m Q ->
  fro (A - V' *m T' *m V'^T) <= fro (A - V *m T *m V^T) + fro (T' - Q^T *m T *m Q).
Proof.
move=> oV oQ ->; set E := T' - _.
have oV' := orthogonalM oV oQ.
have -> : A - V *m Q *m T' *m (V *m Q)^T = A - V *m T *m V^T + - (V *m Q *m E *m (V *m Q)^T).
  have -> : V *m Q *m E *m (V *m Q)^T = V *m Q *m T' *m (V *m Q)^T - V *m T *m V^T.
    rewrite /E mulmxBr mulmxBl; congr (_ - _).
    case: oQ => _ q2; rewrite trmx_mul !mulmxA -[V *m Q *m Q^T]mulmxA q2 mulmx1.
    by rewrite -[_ *m Q *m Q^T]mulmxA q2 mulmx1.
  by rewrite opprB addrA subrK.
apply: le_trans (froD _ _) _; rewrite froN ler_add2l.
by rewrite fro_orth_r ?fro_orth_l //; apply: orthogonalT.
Qed.

Lemma fro_outer (u : 'cV[F]_n) j : fro (u *m (ecol F n j)^T) <= fro u.
Proof.
apply: ler_wsqrtr; apply: ler_sum => i _; rewrite [X in _ <= X]big_ord1.
case: (ltnP j n) => jn; last first.
  rewrite big1 ?sqr_ge0 // => k _; rewrite mxE big_ord1 !mxE.
  by have -> : (k == j :> nat) = false by [have := ltn_ord k; lia]; rewrite mulr0 expr0n.
rewrite (bigD1 (Ordinal jn)) //= big1 ?addr0; last first.
  by move=> k; rewrite -val_eqE /= => /negPf kj; rewrite mxE big_ord1 !mxE kj mulr0 expr0n.
by rewrite mxE big_ord1 !mxE eqxx mulr1 //; case: (0 : 'I_1).
Qed.

Lemma froZ m' n' c (B : 'M[F]_(m', n')) : fro (c *: B) = `|c| * fro B.
Proof.
by rewrite !froE; have [_ _ H _] := @normF_norm F m' n'; apply: H.
Qed.

Section WithA.
Variables (A : 'M[F]_n) (norm : F).
Hypothesis norm0 : 0 < norm.
Hypothesis norm_le : norm <= (n * n)%:R * fro A.

Definition KK : F := (18 + 2 * (n * n))%:R.
Definition NN k : F := (1 + eps * KK) ^+ k * fro A.

Lemma KK0 : 0 <= KK. Proof. exact: ler0n. Qed.
Lemma NN_S k : NN k.+1 = NN k + eps * KK * NN k.
Proof. by rewrite /NN exprS; ring. Qed.
Lemma NN0 k : 0 <= NN k.
Proof. by rewrite /NN mulr_ge0 ?fro_ge0 // exprn_ge0 // addr_ge0 ?ler01 // mulr_ge0 ?KK0 // ltW. Qed.
Lemma NN_mono k : NN k <= NN k.+1.
Proof. by rewrite NN_S ler_addl mulr_ge0 ?NN0 // mulr_ge0 ?KK0 // ltW. Qed.
Lemma NN_A k : fro A <= NN k.
Proof. by elim: k => [|k IH]; [rewrite /NN expr0 mul1r|apply: le_trans IH (NN_mono k)]. Qed.

(** a finished block *)
Definition fin n1 d e f i : Prop :=
  if e i == 0 then f i i = d i
  else if 0 < e i then
    [/\ (i.+1 < n)%N, e i.+1 = - e i, d i.+1 = d i, f i i + f i.+1 i.+1 = d i *+ 2 &
        f i i * f i.+1 i.+1 - f i i.+1 * f i.+1 i = d i ^+ 2 + e i ^+ 2]
  else (n1 < i)%N /\ 0 < e i.-1.

Definition hinv k (st : hq S) : Prop := exists d e f V,
  [/\ [/\ repr1 n (hq_d st) d, repr1 n (hq_e st) e, repr n n (hq_h st) f & repr n n (hq_v st) V],
      (hq_n1 st <= n)%N,
      orthogonal (mxf n n V) /\ `|hq_ex st| <= NN k *+ 2,
      fro (A - cong n V (Tf (hq_n1 st) (hq_ex st) e f)) <= NN k - fro A &
      forall i, (hq_n1 st <= i < n)%N -> fin (hq_n1 st) d e f i].

Lemma froT k V f : orthogonal (mxf n n V) -> fro (A - cong n V f) <= NN k - fro A -> fro (mxf n n f) <= NN k.
Proof.
move=> oV H; rewrite -(fro_cong _ oV).
have -> : cong n V f = A - (A - cong n V f) by rewrite opprB addrC subrK.
by apply: le_trans (froD _ _) _; rewrite froN -ler_subr_addl.
Qed.

Lemma T_entry n1 ex e f (M : F) a b : fro (mxf n n (Tf n1 ex e f)) <= M -> (a < n)%N -> (b < n)%N ->
  `|Tf n1 ex e f a b| <= M.
Proof.
move=> H an bn; apply: le_trans H; have := fro_entry (mxf n n (Tf n1 ex e f)) (Ordinal an) (Ordinal bn).
by rewrite mxE.
Qed.

Lemma diag_le n1 ex e f (M : F) a : fro (mxf n n (Tf n1 ex e f)) <= M -> (a < n1)%N -> (a < n)%N ->
  `|ex| <= M *+ 2 -> `|f a a| <= M *+ 3.
Proof.
move=> H a1 an hex; have := T_entry H an an; rewrite /Tf leqnn eqxx a1 /= => h.
have -> : f a a = (f a a + ex) - ex by rewrite addrK.
by apply: le_trans (ler_norm_sub _ _) _; rewrite mulrS; apply: ler_add.
Qed.

Lemma sc_le n1 ex e f (M : F) a : fro (mxf n n (Tf n1 ex e f)) <= M -> (a < n1)%N -> (0 < a)%N -> (n1 <= n)%N ->
  `|ex| <= M *+ 2 -> fro A <= M -> sc norm f a <= (6 + n * n)%:R * M.
Proof.
move=> H a1 a0 n1n hex hA.
have M0 : 0 <= M := le_trans (fro_ge0 _) hA.
rewrite natrD mulrDl /sc; case: ifP => _.
  apply: (@le_trans _ _ ((n * n)%:R * M)); last by rewrite ler_addr mulr_ge0 // ler0n.
  by apply: le_trans norm_le _; rewrite ler_wpmul2l // ler0n.
apply: (@le_trans _ _ (6%:R * M)); last by rewrite ler_addl mulr_ge0 // ler0n.
have -> : 6%:R * M = M *+ 3 + M *+ 3 by rewrite -mulrnDr mulr_natl.
apply: ler_add; apply: diag_le H _ _ hex; nl F.
Qed.

(** *** no convergence yet *)
Lemma more_ok k (st : hq S) t l d e f V :
  repr1 n (hq_d st) d -> repr1 n (hq_e st) e -> repr n n (hq_h st) f -> repr n n (hq_v st) V ->
  hq_n1 st = t.+1 -> (t < n)%N -> (l.+2 <= t)%N ->
  orthogonal (mxf n n V) -> `|hq_ex st| <= NN k *+ 2 ->
  fro (A - cong n V (Tf t.+1 (hq_ex st) e f)) <= NN k - fro A ->
  (forall i, (t.+1 <= i < n)%N -> fin t.+1 d e f i) ->
  ((0 < l)%N -> `|f l l.-1| <= eps * sc norm f l) ->
  (forall i, (l < i <= t)%N -> f i i.-1 != 0) ->
  wp (hqr2_more (S:=S) n t l st) (hinv k.+1).
Proof.
move=> Hd He Hf HV n1E tn lt oV exb Tb Hfin hl nz.
have TM := froT oV Tb.
rewrite /hqr2_more.
have t1 : (1 < t)%N by nl F.
have bt1 : `|f t t + hq_ex st| <= NN k.
  by have := T_entry TM tn tn; rewrite /Tf leqnn eqxx ltnSn.
have bt2 : `|f t t.-1| <= NN k.
  have tn1 : (t.-1 < n)%N by nl F.
  by have := T_entry TM tn tn1; rewrite /Tf /keepT; ifn F.
have bt3 : `|f t.-1 t| <= NN k.
  have tn1 : (t.-1 < n)%N by nl F.
  by have := T_entry TM tn1 tn; rewrite /Tf; ifn F; rewrite addr0.
apply: wpe_bind; apply: wpe_mono (@shift_ok F eps tiny n noerr t (hq_iter st) _ _ _ _ t1 tn Hf (NN0 k) bt1 bt2 bt3 exb) => -[[[[h1 ex1] x] y] w] [exb1 Hf1].
move: Hf1; set f1 := (fun a b => _) => Hf1.
have T1 : mxf n n (Tf t.+1 ex1 e f1) = mxf n n (Tf t.+1 (hq_ex st) e f).
  apply/matrixP => a b; rewrite !mxE /Tf /f1 ltnS; case: (leqP a b) => ab; last first.
    by have -> : (a == b :> nat) = false by nl F.
  by case: ifP => _; rewrite ?addr0 //; ring.
have nz1 i : (l < i <= t)%N -> f1 i i.-1 != 0.
  by move=> hi; rewrite /f1; have -> : (i == i.-1) = false by [nl F]; apply: nz.
have lc : (l + (t - 2 - l) + 2 <= t)%N by nl F.
apply: wpe_bind.
apply: wpe_mono (@find_m_ok F eps tiny n noerr t l _ x y w _ _ tn lc Hf1 nz1) => -[[[m p] q] r] [lm mt pqr hm].
apply: wpe_bind; apply: wpe_mono (@clear_ok F eps tiny n noerr m t _ _ mt tn Hf1) => h2 [f2 [Hf2 hz z0 f2E]].
have T2 : mxf n n (Tf t.+1 ex1 e f2) = mxf n n (Tf t.+1 (hq_ex st) e f).
  rewrite -T1; apply/matrixP => a b; rewrite !mxE /Tf; case: (leqP a b) => ab; first by rewrite f2E //; nl F.
  by case: ifP => // /andP[/eqP ab1 _]; rewrite f2E //; nl F.
apply: wpe_bind; apply: wpe_mono (@qr_ok F eps tiny n noerr (fun i => e i < 0) l m t p q r x _ _ _ _ lm mt tn pqr hz Hf2 HV) => -[h3 v3].
move=> [f3 [V3 [Q [[Hf3 HV3] [oQ VE TE] _ hrow [Qp Qe fm]]]]]; have -> : (t == m) = false by nl F.
cbn [fst snd] in Hf3, HV3 => Qb; apply: wpe_ok.
have tm : (m < t)%N by nl F.
have mt' : (m <= t)%N by nl F.
rewrite (W_start _ _ _ z0) (W_end _ _ _ tm) in TE.
pose cc := if (0 < m)%N then f2 m m.-1 else 0.
pose c3 := if (0 < m)%N then f3 m m.-1 else 0.
have ErrE : mxf n n (Tf t.+1 ex1 e f3) - Q^T *m mxf n n (Tf t.+1 ex1 e f2) *m Q =
    (c3 *: ecol F n m - cc *: (Q^T *m ecol F n m)) *m (ecol F n m.-1)^T.
  rewrite [RHS]mulmxBl !(Tf_split ex1 e _ mt') -/cc -/c3 !mulmxDr !mulmxDl TE.
  rewrite -!scalemxAr -!scalemxAl Qp opprD addrACA subrr addr0 opprD addrACA subrr add0r.
  congr (_ - _); case: (posnP m) => m0.
    by rewrite /cc m0 !scale0r.
  congr (_ *: _); rewrite -!mulmxA; do 2 congr (_ *m _).
  by apply: trmx_inj; rewrite trmx_mul trmxK Qe.
have ErrB : fro (mxf n n (Tf t.+1 ex1 e f3) - Q^T *m mxf n n (Tf t.+1 ex1 e f2) *m Q) <= eps * KK * NN k.
  rewrite ErrE; apply: le_trans (fro_outer _ _) _.
  have rhs0 : 0 <= eps * KK * NN k by rewrite mulr_ge0 ?NN0 // mulr_ge0 ?KK0 // ltW.
  rewrite /c3 /cc; case: (posnP m) => m0.
    by rewrite !scale0r subr0 fro0.
  rewrite fm // tm /=; have c0 : f2 m m.-1 = f m m.-1.
    rewrite f2E; last by nl F.
    by rewrite /f1; have -> : (m == m.-1) = false by nl F.
  rewrite c0; case: (altP (l =P m)) => lmE /=.
    rewrite -scalerBr froZ.
    apply: (@le_trans _ _ (eps * ((6 + n * n)%:R * NN k) * 2%:R)).
      apply: ler_pmul => //; first exact: fro_ge0.
        rewrite -lmE in m0 *; apply: le_trans (hl m0) _; rewrite ler_wpmul2l ?(ltW eps0) //.
        by apply: sc_le TM _ _ _ exb (NN_A k); nl F.
      apply: le_trans (froD _ _) _; rewrite froN fro_orth_l; last exact: orthogonalT.
      have := @fro_ecol F n 1 m; rewrite scale1r normr1 => h; rewrite (_ : 2%:R = 1 + 1) //; exact: ler_add.
    rewrite -mulrA -[eps * KK * _]mulrA ler_wpmul2l ?(ltW eps0) // mulrAC ler_wpmul2r ?NN0 // /KK -natrM ler_nat; nl F.
  have lm' : (l < m)%N by nl F.
  have {hm} hm := hm lm'.
  rewrite scaleNr -opprD -scalerDr froN froZ addrC.
  have hm0 : f1 m m.-1 = f m m.-1 by rewrite /f1; have -> : (m == m.-1) = false by nl F.
  rewrite hm0 in hm; set D := (_ + `|f1 m.+1 m.+1|) in hm.
  have DB : D <= 9%:R * NN k.
    have TM1 : fro (mxf n n (Tf t.+1 ex1 e f1)) <= NN k by rewrite T1.
    have -> : 9%:R * NN k = NN k *+ 3 + NN k *+ 3 + NN k *+ 3 by rewrite -!mulrnDr mulr_natl.
    by apply: ler_add; [apply: ler_add|]; apply: diag_le TM1 _ _ exb1; nl F.
  set c := f m m.-1 in hm *; set G := fro _ in Qb *.
  have p0 : 0 < `|p|.
    rewrite lt_neqAle normr_ge0 andbT eq_sym; apply: contraTneq hm => ->.
    by rewrite mul0r mulr0 -leNgt mulr_ge0 // addr_ge0.
  rewrite -(ler_pmul2l p0) mulrCA.
  apply: (@le_trans _ _ (`|c| * ((`|q| + `|r|) *+ 2))); first by rewrite ler_wpmul2l.
  rewrite mulrnAr; apply: (@le_trans _ _ ((eps * (`|p| * D)) *+ 2)); first by rewrite ler_muln2r ltW.
  rewrite -mulrnAr -mulrnAr mulrCA ler_wpmul2l ?(ltW p0) // -mulrA ler_wpmul2l ?(ltW eps0) //.
  apply: (@le_trans _ _ ((9%:R * NN k) *+ 2)); first by rewrite ler_muln2r.
  rewrite -mulrnAl ler_wpmul2r ?NN0 // -mulrnA ler_nat; nl F.
exists d, e, f3, V3; split=> //.
- by rewrite n1E.
- split; first by rewrite VE; apply: orthogonalM.
  by apply: le_trans exb1 _; rewrite ler_muln2r NN_mono.
- rewrite n1E NN_S /cong VE addrAC; apply: le_trans (err_step _ (mxf n n (Tf t.+1 ex1 e f2)) _ oV oQ erefl) _.
  by apply: ler_add => //; rewrite T2.
move=> i; cbn [hq_n1]; rewrite n1E => hi; have := Hfin i hi; rewrite /fin.
have fE a b : (t < a)%N -> f3 a b = f a b.
  move=> ta; rewrite hrow // f2E; last by rewrite ta orbT.
  by rewrite /f1; have -> : (a <= t)%N = false by [nl F]; rewrite andbF.
by rewrite !fE //; nl F.
Qed.

(** *** one root *)
Lemma e_first n1 d e f : (forall i, (n1 <= i < n)%N -> fin n1 d e f i) -> (n1 < n)%N -> (e n1 < 0) = false.
Proof.
move=> H h; have := H n1; rewrite leqnn h /fin => /(_ isT).
by case: (ltgtP (e n1) 0) => // _; rewrite ltnn => -[].
Qed.

Lemma drop_ok n1 ex e f a : (a < n)%N ->
  fro (mxf n n (fun i j => if (i == a) && (j.+1 == a) then 0 else Tf n1 ex e f i j)
     - (1%:M)^T *m mxf n n (Tf n1 ex e f) *m 1%:M) <= (if (0 < a)%N then `|Tf n1 ex e f a a.-1| else 0).
Proof.
move=> an; rewrite trmx1 mul1mx mulmx1; case: (posnP a) => [a0|a0].
  rewrite (_ : _ - _ = 0) ?fro0 //; apply/matrixP => i j; rewrite !mxE.
  by have -> : (j.+1 == a) = false by [nl F]; rewrite andbF subrr.
have an1 : (a.-1 < n)%N by nl F.
rewrite (@fro_single F n n (Ordinal an) (Ordinal an1)) => [|i j].
  by rewrite !mxE eqxx /= prednK // eqxx sub0r normrN.
rewrite xpair_eqE -!val_eqE /= => hij; rewrite !mxE; case: ifP; last by rewrite subrr.
by move=> h; exfalso; nl F.
Qed.

Lemma fin_next n1 n1' d e f d' e' f' i : fin n1 d e f i -> (n1' <= n1)%N -> (n1 <= i)%N ->
  (forall j, (n1 <= j)%N -> [/\ d' j = d j, e' j = e j & forall b, f' j b = f j b]) ->
  fin n1' d' e' f' i.
Proof.
move=> H le hi E; move: H; rewrite /fin.
have [d1 e1 f1] := E i hi; have [d2 e2 f2] := E i.+1 ltac:(nl F).
rewrite d1 e1 d2 e2 !f1 !f2; case: ifP => // _; case: ifP => // _ [h1 h2]; split; first by nl F.
have [_ -> _] := E i.-1 ltac:(nl F); exact: h2.
Qed.

Lemma one_ok k (st : hq S) t d e f V :
  repr1 n (hq_d st) d -> repr1 n (hq_e st) e -> repr n n (hq_h st) f -> repr n n (hq_v st) V ->
  hq_n1 st = t.+1 -> (t < n)%N ->
  orthogonal (mxf n n V) -> `|hq_ex st| <= NN k *+ 2 ->
  fro (A - cong n V (Tf t.+1 (hq_ex st) e f)) <= NN k - fro A ->
  (forall i, (t.+1 <= i < n)%N -> fin t.+1 d e f i) ->
  ((0 < t)%N -> `|f t t.-1| <= eps * sc norm f t) ->
  wp (hqr2_one (S:=S) n t st) (hinv k.+1).
Proof.
move=> Hd He Hf HV n1E tn oV exb Tb Hfin hl.
have TM := froT oV Tb.
rewrite /hqr2_one /at2 /set2 (repr_get Hf) //; cbn [bind].
apply: wpe_bind; apply: (wpe_repr_set Hf) => // h1 H1.
rewrite (repr_get H1) //; cbn [bind]; rewrite eqxx /=.
apply: wpe_bind; apply: (wpe_repr1_set Hd) => // d1 Hd1.
apply: wpe_bind; apply: (wpe_repr1_set He) => // e1 He1.
apply: wpe_ok.
pose f' a b := if (a == t) && (b == t) then f t t + hq_ex st else f a b.
exists (upd d t (f t t + hq_ex st)), (upd e t 0), f', V; split; cbn [hq_d hq_e hq_h hq_v hq_n1 hq_ex] => //.
- by nl F.
- by split=> //; apply: le_trans exb _; rewrite ler_muln2r NN_mono.
- rewrite NN_S /cong addrAC.
  have V1 : mxf n n V = mxf n n V *m 1%:M by rewrite mulmx1.
  apply: le_trans (err_step _ (mxf n n (Tf t.+1 (hq_ex st) e f)) _ oV (orthogonal1 _ _) V1) _.
  apply: ler_add => //.
  have -> : mxf n n (Tf t (hq_ex st) (upd e t 0) f') = mxf n n (fun i j => if (i == t) && (j.+1 == t) then 0 else Tf t.+1 (hq_ex st) e f i j).
    apply/matrixP => a b; rewrite !mxE /Tf /keepT ltnS; have bn := ltn_ord b; have an := ltn_ord a.
    move: (nat_of_ord a) (nat_of_ord b) an bn => {}a {}b an bn.
    case: (leqP a b) => ab.
      have -> : (a == t) && (b.+1 == t) = false by nl F.
      rewrite /f'; case: (altP (a =P t)) => [->|at'].
        have -> : (t == b) && (t < t)%N = false by nl F.
        by rewrite leqnn andbT eq_sym /=; case: eqP => [->|_]; rewrite !addr0.
      by have -> : (a < t)%N = (a <= t)%N by nl F.
    rewrite /f'; case: (altP (a =P b.+1)) => [abE|abn] /=; last by rewrite if_same.
    have [at'|[at'|[at'|at']]] : (a < t)%N \/ a = t \/ a = t.+1 \/ (t.+1 < a)%N by nl F.
    - by ifn F.
    - have -> : (a == t) && (b.+1 == t) by nl F.
      by rewrite at' ltnn.
    - have -> : (a == t) && (b.+1 == t) = false by nl F.
      have -> : (a == t) = false by nl F.
      have -> : (a < t)%N = false by nl F.
      have -> : (t < a)%N by nl F.
      have -> : (a <= t)%N = false by nl F.
      have -> : (t.+1 < a)%N = false by nl F.
      rewrite /= /upd; have -> : (a == t) = false by nl F.
      by rewrite at' (e_first Hfin) // -at'.
    - rewrite /upd; have -> : (a == t) = false by nl F.
      have -> : (a <= t)%N = false by nl F.
      have -> : (a < t)%N = false by nl F.
      by rewrite at' /=; have -> : (t < a)%N by nl F.
  apply: le_trans (drop_ok _ _ _ _ tn) _; case: (posnP t) => t0.
    by rewrite mulr_ge0 ?NN0 // mulr_ge0 ?KK0 // ltW.
  rewrite /Tf /keepT; ifn F; apply: le_trans (hl t0) _.
  rewrite -mulrA ler_wpmul2l ?(ltW eps0) //.
  apply: le_trans (sc_le TM _ _ _ exb (NN_A k)) _; [nl F|nl F|nl F|].
  by rewrite ler_wpmul2r ?NN0 // ler_nat; nl F.
move=> i hi; case: (altP (i =P t)) => [->|it]; last first.
  apply: (@fin_next t.+1 t d e f); [apply: Hfin; nl F|nl F|nl F|] => j hj.
  rewrite /f' /upd; have -> : (j == t) = false by nl F.
  by split.
by rewrite /fin /f' /upd !eqxx.
Qed.

End WithA.
End Loop.
