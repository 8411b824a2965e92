(** * HqrTwo: deflation of a 2x2 block and the whole iteration of hqr2
    (eigen.rs:369-608). *)
From mathcomp Require Import all_ssreflect all_algebra zify ring.
From Verif Require Import Base Scalar Hoare ModelMatrix ModelEigen Spec SpecDecomp MatrixProofs LUProofs LUThms MiscThms Orth TredProofs TqlProofs OrthesProofs HqrStep HqrSweep HqrIter HqrMore.

Set Implicit Arguments.
Unset Strict Implicit.
Unset Printing Implicit Defensive.
Import Order.TTheory GRing.Theory Num.Theory.
Local Open Scope ring_scope.

Section Two.
Variable F : rcfType.
Variables eps tiny : F.
Hypothesis eps0 : 0 < eps.
Local Notation S := (exactE eps tiny).
Variable n : nat.
Implicit Types (f g V : nat -> nat -> F) (d e : nat -> F).

(** *** plane rotations of rows and columns *)
Lemma rot_rows_ok (E : err -> Prop) lo hi a b p q h f : (a < n)%N -> (b < n)%N -> a != b -> (lo <= hi <= n)%N -> repr n n h f ->
  wpe E (hqr2_rot_rows (S:=S) n lo hi a b p q h)
    (fun h => repr n n h (fun i j => if (lo <= j < hi)%N then rot2 a b q p (fun x y => f y x) j i else f i j)).
Proof.
move=> an bn ab lh Hf; rewrite /hqr2_rot_rows; apply: wpe_mono; last first.
  apply: (for_own (fun i j => j) (fun i j => rot2 a b q p (fun x y => f y x) j i) _ Hf); first by nl F.
  move=> k v1 f1 hk Hv1 E1; rewrite /at2 /set2.
  have E1' i : (i < n)%N -> f1 i k = f i k by move=> hi'; apply: E1; rewrite ?eqxx //; nl F.
  rewrite (repr_get Hv1); [|by nl F|by nl F]; cbn [bind].
  rewrite (repr_get Hv1); [|by nl F|by nl F]; cbn [bind].
  apply: wpe_bind; apply: (wpe_repr_set Hv1); [by nl F|by nl F|] => v2 Hv2.
  rewrite (repr_get Hv2); [|by nl F|by nl F]; cbn [bind].
  rewrite [b == a]eq_sym (negPf ab) /=.
  apply: (wpe_repr_set Hv2); [by nl F|by nl F|] => v3 Hv3; apply: repr_ext Hv3 _ => i j hi' hj.
  exs; rewrite /rot2; case: (altP (j =P k)) => [->|jk]; last by rewrite !andbF.
  rewrite !andbT !E1' //; case: (altP (i =P b)) => [->|ib]; last by [].
  by rewrite [b == a]eq_sym (negPf ab).
by [].
Qed.

Lemma rot_cols_ok (E : err -> Prop) lo hi a b p q h f : (a < n)%N -> (b < n)%N -> a != b -> (lo <= hi <= n)%N -> repr n n h f ->
  wpe E (hqr2_rot_cols (S:=S) n lo hi a b p q h)
    (fun h => repr n n h (fun i j => if (lo <= i < hi)%N then rot2 a b q p f i j else f i j)).
Proof.
move=> an bn ab lh Hf; rewrite /hqr2_rot_cols; apply: wpe_mono; last first.
  apply: (for_own (fun i j => i) (fun i j => rot2 a b q p f i j) _ Hf); first by nl F.
  move=> k v1 f1 hk Hv1 E1; rewrite /at2 /set2.
  have E1' i : (i < n)%N -> f1 k i = f k i by move=> hi'; apply: E1; rewrite ?eqxx //; nl F.
  rewrite (repr_get Hv1); [|by nl F|by nl F]; cbn [bind].
  rewrite (repr_get Hv1); [|by nl F|by nl F]; cbn [bind].
  apply: wpe_bind; apply: (wpe_repr_set Hv1); [by nl F|by nl F|] => v2 Hv2.
  rewrite (repr_get Hv2); [|by nl F|by nl F]; cbn [bind].
  rewrite [b == a]eq_sym (negPf ab) andbF.
  apply: (wpe_repr_set Hv2); [by nl F|by nl F|] => v3 Hv3; apply: repr_ext Hv3 _ => i j hi' hj.
  exs; rewrite /rot2; case: (altP (i =P k)) => [->|jk] //=.
  rewrite !E1' //; case: (altP (j =P b)) => [->|ib]; last by [].
  by rewrite [b == a]eq_sym (negPf ab).
by [].
Qed.

(** the rotation that splits a 2x2 block with real eigenvalues *)
Definition frot t p q f i j : F :=
  let f1 i j := if (t.-1 <= j < n)%N then rot2 t.-1 t q p (fun x y => f y x) j i else f i j in
  if (0 <= i < t.+1)%N then rot2 t.-1 t q p f1 i j else f1 i j.
Definition fex t ex f i j : F := if (i == j) && (t.-1 <= i <= t)%N then f i j + ex else f i j.
Definition drop a f i j : F := if (i == a) && (j.+1 == a) then 0 else f i j.

Section Algebra.
Variables (a b c x z ka : F).
Hypothesis zE : z ^+ 2 = (a - x) * z + c * b.
Hypothesis kE : ka ^+ 2 * (c ^+ 2 + z ^+ 2) = 1.
Let p := c * ka.
Let q := z * ka.

Lemma alg_one : q * q + p * p = 1.
Proof. by rewrite -kE /p /q; ring. Qed.
Lemma alg_low : q * (q * c - p * a) + p * (q * x - p * b) = 0.
Proof.
have -> : q * (q * c - p * a) + p * (q * x - p * b) = ka ^+ 2 * c * (z ^+ 2 - (a - x) * z - c * b) by rewrite /p /q; ring.
by rewrite zE; ring.
Qed.
Lemma alg_d1 : q * (q * a + p * c) + p * (q * b + p * x) = x + z.
Proof.
rewrite -[x + z]mulr1 -kE /p /q; apply/eqP; rewrite -subr_eq0; apply/eqP.
transitivity (ka ^+ 2 * z * ((a - x) * z + c * b - z ^+ 2)); first by ring.
by rewrite zE; ring.
Qed.
Lemma alg_d2 : q * (q * x - p * b) - p * (q * c - p * a) = a - z.
Proof.
rewrite -[a - z]mulr1 -kE /p /q; apply/eqP; rewrite -subr_eq0; apply/eqP.
transitivity (- (ka ^+ 2 * z * ((a - x) * z + c * b - z ^+ 2))); first by ring.
by rewrite zE; ring.
Qed.
End Algebra.

Lemma two_rot t ex e d f z ka : (0 < t < n)%N ->
  let a := f t.-1 t.-1 + ex in let b := f t.-1 t in let c := f t t.-1 in let x := f t t + ex in
  z ^+ 2 = (a - x) * z + c * b -> ka ^+ 2 * (c ^+ 2 + z ^+ 2) = 1 ->
  (forall i, (t.+1 <= i < n)%N -> fin n t.+1 d e f i) ->
  let f' := frot t (c * ka) (z * ka) (fex t ex f) in
  let G := givens n t.-1 t (z * ka) (c * ka) in
  [/\ G^T *m mxf n n (drop t.-1 (Tf t.+1 ex e f)) *m G = mxf n n (Tf t.-1 ex (upd (upd e t.-1 0) t 0) f'),
      orthogonal G, f' t.-1 t.-1 = x + z, f' t t = a - z & forall i j, (t < i)%N -> f' i j = f i j].
Proof.
move=> tn a b c x zE kE Hfin f' G; set p := c * ka; set q := z * ka.
have ab : t.-1 != t by nl F.
have t1 : (t.-1 < n)%N by nl F.
have t2 : (t < n)%N by nl F.
have A1 := alg_one kE; have A2 := alg_low ka zE; have A3 := alg_d1 zE kE; have A4 := alg_d2 zE kE.
rewrite -/p -/q in A1 A2 A3 A4.
have fh i j : (t < i)%N -> f' i j = f i j.
  move=> ti; rewrite /f' /frot /fex /rot2; have -> : (i < t.+1)%N = false by nl F.
  have -> : (i == t.-1) = false by nl F.
  have -> : (i == t) = false by nl F.
  have -> : (i <= t)%N = false by nl F.
  by rewrite !andbF if_same.
have d1 : f' t.-1 t.-1 = x + z.
  rewrite -A3 /f' /frot /fex /rot2 -/p -/q; ifn F.
  rewrite /a /b /c /x; ring.
have d2 : f' t t = a - z.
  rewrite -A4 /f' /frot /fex /rot2 -/p -/q; ifn F.
  rewrite /a /b /c /x; ring.
split=> //; last by apply: givens_orth.
rewrite /G givens_lE // givens_rE //; apply/matrixP => i j; rewrite !mxE.
have := ltn_ord i; have := ltn_ord j.
move: (nat_of_ord i) (nat_of_ord j) => {}i {}j jn iN.
have keep_hi i' : (i' < n)%N -> (t < i')%N ->
    keepT t.-1 (upd (upd e t.-1 0) t 0) i' = keepT t.+1 e i'.
  move=> hi' ti; rewrite /keepT /upd; ifn F.
  have -> : (i' < t.-1)%N = false by nl F.
  have -> : (i' < t.+1)%N = false by nl F.
  have -> : (t.-1 < i')%N by nl F.
  case: (altP (i' =P t.+1)) => [iE|iN']; last by have -> : (t.+1 < i')%N by nl F.
  by rewrite iE ltnn /= (e_first Hfin) // -iE.
have kt : keepT t.-1 (upd (upd e t.-1 0) t 0) t = false.
  by rewrite /keepT /upd eqxx ltxx andbF orbF; nl F.
have kt1 : keepT t.-1 (upd (upd e t.-1 0) t 0) t.-1 = false.
  by rewrite /keepT ltnn.
have klo i' e1 : (i' < t.-1)%N -> keepT t.-1 e1 i' by move=> h; rewrite /keepT h.
have klo' i' e1 : (i' < t.+1)%N -> keepT t.+1 e1 i' by move=> h; rewrite /keepT h.
rewrite -/p -/q; set D := drop t.-1 _; set T' := Tf t.-1 _ _ f'.
have tt : (t < t.-1)%N = false by nl F.
have D11 : D t.-1 t.-1 = a by rewrite /D /drop /Tf; ifn F.
have D12 : D t.-1 t = b by rewrite /D /drop /Tf; ifn F; rewrite addr0.
have D21 : D t t.-1 = c by rewrite /D /drop /Tf klo' //; ifn F.
have D22 : D t t = x by rewrite /D /drop /Tf; ifn F.
have D1lo j' : (j' < t.-1)%N -> D t.-1 j' = 0.
  by move=> h; rewrite /D /drop /Tf; case: ifP => // h1; ifn F.
have D2lo j' : (j' < t.-1)%N -> D t j' = 0 by move=> h; rewrite /D /drop /Tf; ifn F.
have D1hi j' : (t < j')%N -> D t.-1 j' = f t.-1 j' by move=> h; rewrite /D /drop /Tf; ifn F; rewrite addr0.
have D2hi j' : (t < j')%N -> D t j' = f t j' by move=> h; rewrite /D /drop /Tf; ifn F; rewrite addr0.
have Dlo1 i' : (i' < t.-1)%N -> D i' t.-1 = f i' t.-1 by move=> h; rewrite /D /drop /Tf; ifn F; rewrite addr0.
have Dlo2 i' : (i' < t.-1)%N -> D i' t = f i' t by move=> h; rewrite /D /drop /Tf; ifn F; rewrite addr0.
have Dhi1 i' : (i' < n)%N -> (t < i')%N -> D i' t.-1 = 0.
  by move=> hn h; rewrite /D /drop /Tf; ifn F.
have Dhi2 i' : (i' < n)%N -> (t < i')%N -> D i' t = 0.
  move=> hn h; rewrite /D /drop /Tf -keep_hi //.
  have -> : (i' == t.-1) = false by nl F.
  have -> : (i' <= t)%N = false by nl F.
  rewrite keep_hi // /keepT; have -> : (i' < t.+1)%N = false by nl F.
  case: (altP (i' =P t.+1)) => //= ->; by rewrite ltnn.
have f'lo i' j' : (i' < t.-1)%N -> f' i' j' = rot2 t.-1 t q p f i' j'.
  move=> h; rewrite /f' /frot; have -> : (0 <= i' < t.+1)%N by nl F.
  have E j2 : (if (t.-1 <= j2 < n)%N then rot2 t.-1 t q p (fun x0 y => fex t ex f y x0) j2 i' else fex t ex f i' j2) = f i' j2.
    by rewrite /rot2 /fex; ifn F; rewrite if_same.
  by rewrite /rot2 !E.
have [hi|[hi|[hi|hi]]] : i = t.-1 \/ i = t \/ (i < t.-1)%N \/ (t < i)%N by nl F.
- have [hj|[hj|[hj|hj]]] : j = t.-1 \/ j = t \/ (j < t.-1)%N \/ (t < j)%N by nl F.
  + by rewrite hi hj /rot2 !eqxx D11 D12 D21 D22 /T' /Tf leqnn eqxx ltnn /= addr0 d1 -A3.
  + rewrite hi hj /rot2 !eqxx; ifn F; rewrite D11 D12 D21 D22 /T' /Tf /f' /frot /fex /rot2; ifn F.
    rewrite -/p -/q /a /b /c /x; ring.
  + rewrite hi /rot2; ifn F; rewrite D1lo // D2lo // /T' /Tf kt1 andbF; ifn F; ring.
  + rewrite hi /rot2; ifn F; rewrite D1hi // D2hi // /T' /Tf /f' /frot /fex /rot2; ifn F.
    rewrite -/p -/q; ring.
- have [hj|[hj|[hj|hj]]] : j = t.-1 \/ j = t \/ (j < t.-1)%N \/ (t < j)%N by nl F.
  + rewrite hi hj /rot2 !eqxx; ifn F; rewrite D11 D12 D21 D22 /T' /Tf kt andbF; ifn F; exact: A2.
  + rewrite hi hj /rot2 !eqxx; ifn F; rewrite D11 D12 D21 D22 /T' /Tf leqnn eqxx; ifn F; rewrite addr0 d2; exact: A4.
  + rewrite hi /rot2; ifn F; rewrite D1lo // D2lo // /T' /Tf kt andbF; ifn F; ring.
  + rewrite hi /rot2; ifn F; rewrite D1hi // D2hi // /T' /Tf /f' /frot /fex /rot2; ifn F.
    rewrite -/p -/q; ring.
- have [hj|[hj|[hj|hj]]] : j = t.-1 \/ j = t \/ (j < t.-1)%N \/ (t < j)%N by nl F.
  + rewrite hj /rot2; ifn F; rewrite Dlo1 // Dlo2 // /T' /Tf f'lo // /rot2; ifn F; ring.
  + rewrite hj /rot2; ifn F; rewrite Dlo1 // Dlo2 // /T' /Tf f'lo // /rot2; ifn F; ring.
  + rewrite /rot2; ifn F; rewrite /T' /D /Tf klo // /drop klo' ?f'lo /rot2; [|nl F|nl F].
    by ifn F; have -> : (i < t.+1)%N = (i < t.-1)%N by nl F.
  + by rewrite /rot2; ifn F; rewrite /T' /D /Tf /drop f'lo // /rot2; ifn F.
- have [hj|[hj|[hj|hj]]] : j = t.-1 \/ j = t \/ (j < t.-1)%N \/ (t < j)%N by nl F.
  + rewrite hj /rot2; ifn F; rewrite Dhi1 // Dhi2 // /T' /Tf; ifn F; ring.
  + rewrite hj /rot2; ifn F; rewrite Dhi1 // Dhi2 // !mulr0 subr0 /T' /Tf keep_hi //.
    have := Dhi2 i iN hi; rewrite /D /drop /Tf; ifn F => <-; rewrite fh //; by case: ifP.
  + by rewrite /rot2; ifn F; rewrite /T' /D /Tf /drop fh // keep_hi //; ifn F.
  + rewrite /rot2; ifn F; rewrite /T' /D /Tf /drop fh // keep_hi //.
    have -> : (i < t.-1)%N = false by nl F.
    have -> : (i < t.+1)%N = false by nl F.
    by have -> : (i == t.-1) = false by nl F.
Qed.


Section WithA.
Variables (A : 'M[F]_n) (norm : F).
Hypothesis norm0 : 0 < norm.
Hypothesis norm_le : norm <= (n * n)%:R * fro A.
Local Notation NN := (NN eps A).
Local Notation hinv := (@hinv F eps tiny n A).

(** the 2x2 block of a complex pair *)
Lemma two_cplx t ex e d f z : (0 < t < n)%N -> 0 < z ->
  (forall i, (t.+1 <= i < n)%N -> fin n t.+1 d e f i) ->
  mxf n n (drop t.-1 (Tf t.+1 ex e f)) = mxf n n (Tf t.-1 ex (upd (upd e t.-1 z) t (- z)) (fex t ex f)).
Proof.
move=> tn z0 Hfin; apply/matrixP => i j; rewrite !mxE.
have := ltn_ord i; have := ltn_ord j.
move: (nat_of_ord i) (nat_of_ord j) => {}i {}j jn iN.
rewrite /drop /Tf /fex.
case: (leqP i j) => ij.
  have -> : (i == t.-1) && (j.+1 == t.-1) = false by nl F.
  case: (altP (i =P j)) => //= ->.
  have [h|[h|h]] : (j < t.-1)%N \/ (t.-1 <= j <= t)%N \/ (t < j)%N by nl F.
  - by ifn F.
  - by ifn F; rewrite addr0.
  - by ifn F.
have -> : (i == j) = false by nl F.
case: (altP (i =P j.+1)) => [ijE|ijn] /=; last by rewrite if_same.
rewrite /keepT /upd.
have [h|[h|[h|[h|h]]]] : (i < t.-1)%N \/ i = t.-1 \/ i = t \/ i = t.+1 \/ (t.+1 < i)%N by nl F.
- by ifn F.
- by ifn F.
- have -> : (i == t) by rewrite h.
  rewrite oppr_lt0 z0 andbT; by ifn F.
- have -> : (i == t) = false by nl F.
  have -> : (i == t.-1) = false by nl F.
  rewrite h (e_first Hfin) ?andbF; last by rewrite -h.
  have -> : (t.+1 < t.-1)%N = false by nl F.
  by rewrite ltnn.
- have -> : (i == t) = false by nl F.
  have -> : (i == t.-1) = false by nl F.
  have -> : (i < t.-1)%N = false by nl F.
  have -> : (i < t.+1)%N = false by nl F.
  have -> : (t.-1 < i)%N by nl F.
  by rewrite h.
Qed.

Lemma two_ok k (st : hq S) t d e f V :
  repr1 n (hq_d st) d -> repr1 n (hq_e st) e -> repr n n (hq_h st) f -> repr n n (hq_v st) V ->
  hq_n1 st = t.+1 -> (0 < t < n)%N ->
  orthogonal (mxf n n V) -> `|hq_ex st| <= NN k *+ 2 ->
  fro (A - cong n V (Tf t.+1 (hq_ex st) e f)) <= NN k - fro A ->
  (forall i, (t.+1 <= i < n)%N -> fin n t.+1 d e f i) ->
  ((0 < t.-1)%N -> `|f t.-1 t.-2| <= eps * sc norm f t.-1) ->
  f t t.-1 != 0 ->
  wp (hqr2_two (S:=S) n t st) (hinv k.+1).
Proof.
move=> Hd He Hf HV n1E tn oV exb Tb Hfin hl c0.
have TM := froT oV Tb.
set ex := hq_ex st in exb Tb TM *.
have t1 : (t.-1 < n)%N by nl F.
have t2 : (t < n)%N by nl F.
have tt : (t == t.-1) = false by nl F.
have tt' : (t.-1 == t) = false by nl F.
have dropB : fro (mxf n n (drop t.-1 (Tf t.+1 ex e f)) - (1%:M)^T *m mxf n n (Tf t.+1 ex e f) *m 1%:M) <= eps * KK F n * NN k.
  apply: le_trans (drop_ok _ _ _ _ t1) _; case: (posnP t.-1) => t0.
    by rewrite mulr_ge0 ?NN0 // mulr_ge0 ?KK0 // ltW.
  rewrite /Tf /keepT; ifn F; apply: le_trans (hl t0) _.
  rewrite -mulrA ler_wpmul2l ?(ltW eps0) //.
  apply: le_trans (sc_le norm_le TM _ _ _ exb (NN_A eps0 A k)) _; [nl F|nl F|nl F|].
  by rewrite ler_wpmul2r ?NN0 // ler_nat; nl F.
have V1 : mxf n n V = mxf n n V *m 1%:M by rewrite mulmx1.
have dropA : fro (A - cong n V (drop t.-1 (Tf t.+1 ex e f))) <= NN k.+1 - fro A.
  rewrite NN_S addrAC /cong.
  apply: le_trans (err_step _ (mxf n n (Tf t.+1 ex e f)) _ oV (orthogonal1 _ _) V1) _.
  exact: ler_add.
rewrite /hqr2_two /at2 /set2 subn1.
rewrite (repr_get Hf) //; cbn [bind]; rewrite (repr_get Hf) //; cbn [bind].
rewrite (repr_get Hf) //; cbn [bind]; rewrite (repr_get Hf) //; cbn [bind].
exs.
have -> : ((2%:R : F) == 0) = false by apply/negP; rewrite pnatr_eq0.
cbn [bind]; set p := _ / 2%:R; set w := _ * f t.-1 t; set q := p * p + w.
rewrite ltNge normr_ge0; cbn [negb bind].
apply: wpe_bind; apply: (wpe_repr_set Hf) => // h1 H1.
rewrite (repr_get H1) //; cbn [bind]; rewrite tt' /=.
apply: wpe_bind; apply: (wpe_repr_set H1) => // h2 H2.
rewrite (repr_get H2) //; cbn [bind]; rewrite tt !eqxx /=.
have {}H2 : repr n n h2 (fex t ex f).
  apply: repr_ext H2 _ => i j hi hj; rewrite /fex.
  have [h|[h|h]] : i = t.-1 \/ i = t \/ (i <> t.-1 /\ i <> t) by nl F.
  - rewrite h; case: (altP (j =P t.-1)) => [->|jt]; first by ifn F.
    have -> : (t.-1 == j) = false by nl F.
    by rewrite tt' andbF.
  - rewrite h; case: (altP (j =P t)) => [->|jt]; first by ifn F.
    have -> : (t == j) = false by nl F.
    by rewrite tt andbF.
  - have -> : (i == t.-1) = false by nl F.
    have -> : (i == t) = false by nl F.
    by have -> : (t.-1 <= i <= t)%N = false by [nl F]; rewrite andbF.
set z0 := Num.sqrt `|q|; set x := f t t + ex.
have pE : f t.-1 t.-1 - f t t = p *+ 2 by rewrite -mulr_natr /p mulfVK // pnatr_eq0.
case: (leP 0 q) => q0; last first.
  have z00 : 0 < z0 by rewrite sqrtr_gt0 normr_gt0 lt_eqF.
  apply: wpe_bind; apply: (wpe_repr1_set Hd) => // d1 Hd1.
  apply: wpe_bind; apply: (wpe_repr1_set Hd1) => // d2 Hd2.
  apply: wpe_bind; apply: (wpe_repr1_set He) => // e1 He1.
  apply: wpe_bind; apply: (wpe_repr1_set He1) => // e2 He2.
  apply: wpe_ok.
  exists (upd (upd d t.-1 (x + p)) t (x + p)), (upd (upd e t.-1 z0) t (- z0)), (fex t ex f), V.
  split; cbn [hq_d hq_e hq_h hq_v hq_n1 hq_ex] => //.
  - by nl F.
  - by split=> //; apply: le_trans exb _; rewrite ler_muln2r NN_mono.
  - by rewrite -/ex /cong -(two_cplx ex tn z00 Hfin).
  move=> i hi.
  have [h|[h|h]] : i = t.-1 \/ i = t \/ (t < i)%N by nl F.
  - rewrite h /fin /upd tt' eqxx gt_eqF // z00.
    have -> : t.-1.+1 = t by nl F.
    rewrite !eqxx; split=> //.
    + rewrite /fex; ifn F; rewrite /x.
      have -> : f t.-1 t.-1 = f t t + p *+ 2 by rewrite -pE addrC subrK.
      ring.
    + rewrite /fex; ifn F.
      have -> : z0 ^+ 2 = - q by rewrite sqr_sqrtr // ltr0_norm.
      rewrite /x /q /w; have -> : f t.-1 t.-1 = f t t + p *+ 2 by rewrite -pE addrC subrK.
      ring.
  - rewrite h /fin /upd tt' eqxx eqxx oppr_eq0 gt_eqF // oppr_gt0 ltNge (ltW z00) /=.
    by split=> //; nl F.
  - apply: (@fin_next _ _ t.+1 t.-1 d e f); [apply: Hfin; nl F|nl F|nl F|] => j hj.
    rewrite /upd /fex; have -> : (j == t) = false by nl F.
    have -> : (j == t.-1) = false by nl F.
    have -> : (t.-1 <= j <= t)%N = false by nl F.
    by split=> // b; rewrite andbF.
set z := (if 0 <= p then _ else _).
have z0E : z0 ^+ 2 = p ^+ 2 + w by rewrite sqr_sqrtr // ger0_norm // expr2.
have z00 : 0 <= z0 by exact: sqrtr_ge0.
have zE : z ^+ 2 = p *+ 2 * z + w.
  rewrite /z; case: ifP => _.
    have -> : (p + z0) ^+ 2 = p ^+ 2 + p * z0 *+ 2 + z0 ^+ 2 by ring.
    rewrite z0E; ring.
  have -> : (p - z0) ^+ 2 = p ^+ 2 - p * z0 *+ 2 + z0 ^+ 2 by ring.
  rewrite z0E; ring.
have zp : z = 0 -> p = 0.
  rewrite /z; case: (leP 0 p) => hp h.
    by apply/eqP; rewrite eq_le hp andbT -h ler_addl.
  have pz : p = z0 by apply/eqP; rewrite -subr_eq0; apply/eqP.
  by move: hp; rewrite {1}pz ltNge z00.
set dn := if z == 0 then x + z else x - w / z.
apply: wpe_bind; apply: (wpe_repr1_set Hd) => // d1 Hd1.
rewrite (repr1_get Hd1) //; cbn [bind]; rewrite eqxx.
apply: wpe_bind; apply: (wpe_repr1_set Hd1) => // d2 Hd2.
apply: (wpe_bind2 (P := fun dd => repr1 n dd (upd (upd d t.-1 (x + z)) t dn))).
  rewrite /dn; case: (altP (z =P 0)) => hz; cbn [negb bind].
    by apply: wpe_ok; apply: repr1_ext Hd2 _ => i hi.
  apply: (wpe_repr1_set Hd2) => // d3 Hd3; apply: repr1_ext Hd3 _ => i hi; rewrite /upd.
  by case: (i == t).
move=> d3 Hd3.
apply: wpe_bind; apply: (wpe_repr1_set He) => // e1 He1.
apply: wpe_bind; apply: (wpe_repr1_set He1) => // e2 He2.
rewrite (repr_get H2) //; cbn [bind].
have -> : fex t ex f t t.-1 = f t t.-1 by rewrite /fex tt.
set c := f t t.-1; set s := `|c| + `|z|.
have s0 : 0 < s by rewrite ltr_paddr ?normr_gt0.
rewrite (gt_eqF s0); cbn [bind].
have r2 : 0 < c / s * (c / s) + z / s * (z / s).
  rewrite -!expr2 ltr_paddr ?sqr_ge0 // exprn_even_gt0 //= mulf_neq0 ?invr_eq0 ?(gt_eqF s0) //.
rewrite ltNge (ltW r2); cbn [negb bind].
set r := Num.sqrt _; have r0 : 0 < r by rewrite sqrtr_gt0.
have rE : r ^+ 2 = c / s * (c / s) + z / s * (z / s) by rewrite sqr_sqrtr // ltW.
rewrite (gt_eqF r0); cbn [bind].
pose ka := (s * r)^-1.
have kE : ka ^+ 2 * (c ^+ 2 + z ^+ 2) = 1.
  rewrite /ka exprVn exprMn rE; field.
  by rewrite (gt_eqF s0) /= -!expr2 gt_eqF // ltr_paddr ?sqr_ge0 // exprn_even_gt0.
have -> : c / s / r = c * ka by rewrite /ka invfM mulrA.
have -> : z / s / r = z * ka by rewrite /ka invfM mulrA.
have zE' : z ^+ 2 = (f t.-1 t.-1 + ex - x) * z + c * f t.-1 t.
  by rewrite zE /x opprD addrACA subrr addr0 pE.
have [T1 oG g1 g2 g3] := @two_rot t ex e d f z ka tn zE' kE Hfin.
have ab : t.-1 != t by rewrite tt'.
have lh1 : (t.-1 <= n <= n)%N by nl F.
have lh2 : (0 <= t + 1 <= n)%N by nl F.
have lh3 : (0 <= n <= n)%N by nl F.
apply: wpe_bind; apply: wpe_mono (@rot_rows_ok noerr _ _ _ _ _ _ _ _ t1 t2 ab lh1 H2) => h3 H3.
apply: wpe_bind; apply: wpe_mono (@rot_cols_ok noerr _ _ _ _ _ _ _ _ t1 t2 ab lh2 H3) => h4 H4.
apply: wpe_bind; apply: wpe_mono (@rot_cols_ok noerr _ _ _ _ _ _ _ _ t1 t2 ab lh3 HV) => v4 HV4.
apply: wpe_ok.
pose V' := rot2 t.-1 t (z * ka) (c * ka) V.
exists (upd (upd d t.-1 (x + z)) t dn), (upd (upd e t.-1 0) t 0), (frot t (c * ka) (z * ka) (fex t ex f)), V'.
have VE : mxf n n V' = mxf n n V *m givens n t.-1 t (z * ka) (c * ka) by rewrite givens_rE.
split; cbn [hq_d hq_e hq_h hq_v hq_n1 hq_ex] => //.
- split=> //.
    by apply: repr_ext H4 _ => i j hi hj; rewrite /frot addn1.
  by apply: repr_ext HV4 _ => i j hi hj; rewrite hi.
- by nl F.
- split; first by rewrite VE; apply: orthogonalM.
  by apply: le_trans exb _; rewrite ler_muln2r NN_mono.
- rewrite -/ex /cong -T1 VE trmx_mul !mulmxA; case: oG => _ o2.
  set G := givens _ _ _ _ _ in o2 *; rewrite -[_ *m G *m G^T]mulmxA o2 mulmx1.
  by rewrite -[_ *m G *m G^T]mulmxA o2 mulmx1.
move=> i hi.
have [h|[h|h]] : i = t.-1 \/ i = t \/ (t < i)%N by nl F.
- by rewrite h /fin /upd tt' !eqxx g1.
- rewrite h /fin /upd !eqxx g2 /dn.
  have aE : f t.-1 t.-1 = f t t + p *+ 2 by rewrite -pE addrC subrK.
  case: (altP (z =P 0)) => hz.
    by rewrite aE (zp hz) mul0rn addr0 hz addr0 subr0.
  have wE : w = z ^+ 2 - p *+ 2 * z by rewrite zE addrAC subrr add0r.
  rewrite wE aE /x; field; exact: hz.
- apply: (@fin_next _ _ t.+1 t.-1 d e f); [apply: Hfin; nl F|nl F|nl F|] => j hj.
  rewrite /upd; have -> : (j == t) = false by nl F.
  have -> : (j == t.-1) = false by nl F.
  by split=> // b; apply: g3.
Qed.

End WithA.
End Two.
