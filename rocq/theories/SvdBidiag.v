(** * SvdBidiag: the Householder bidiagonalisation of SVD::new (svd.rs:60-222) *)
From mathcomp Require Import all_ssreflect all_algebra zify ring.
From Verif Require Import Base Scalar Hoare ModelMatrix ModelHypot ModelSVD Spec SpecDecomp LUProofs LUThms MiscThms Orth TredProofs TqlProofs OrthesProofs.

Set Implicit Arguments.
Unset Strict Implicit.
Unset Printing Implicit Defensive.
Import Order.TTheory GRing.Theory Num.Theory.
Local Open Scope ring_scope.

Section Prod.
Variable F : rcfType.
Fixpoint mprod n (H : nat -> 'M[F]_n) k : 'M[F]_n := if k is k'.+1 then mprod H k' *m H k' else 1%:M.

Lemma mprod_ext n (H H' : nat -> 'M[F]_n) k : (forall l, (l < k)%N -> H l = H' l) -> mprod H k = mprod H' k.
Proof. by elim: k => //= k IH E; rewrite IH ?E // => l lk; apply: E; lia. Qed.

Lemma mprod_orth n (H : nat -> 'M[F]_n) k : (forall l, (l < k)%N -> orthogonal (H l)) -> orthogonal (mprod H k).
Proof.
elim: k => [|k IH] E /=; first exact: orthogonal1.
by apply: orthogonalM; [apply: IH => l lk; apply: E; lia|apply: E].
Qed.
End Prod.

Section Bidiag.
Variable F : rcfType.
Variables eps tiny : F.
Local Notation S := (exactE eps tiny).

(** the reflection that maps x to a multiple of the unit vector, as the code forms it *)
Lemma hh_facts lo hi (x : nat -> F) (c : F) : (lo < hi)%N -> c != 0 ->
  c * c = \sum_(lo <= i < hi) x i * x i -> 0 <= c * x lo ->
  let u i := x i / c + (i == lo)%:R in
  [/\ u lo != 0, \sum_(lo <= i < hi) u i * u i = u lo *+ 2,
      \sum_(lo <= i < hi) u i * x i = c * u lo & forall i, x i - c * u i = - c *+ (i == lo)].
Proof.
move=> lh c0 cc cx u.
have cc0 : 0 < c * c by rewrite -expr2 lt_def sqrf_eq0 c0 sqr_ge0.
have u0 : 0 < u lo.
  rewrite /u eqxx; apply: ltr_paddl; last exact: ltr01.
  have -> : x lo / c = (c * x lo) / (c * c) by field.
  by rewrite divr_ge0 // ltW.
have S1 (G : nat -> F) (y : F) : \sum_(lo <= i < hi) (G i + y *+ (i == lo)) = \sum_(lo <= i < hi) G i + y.
  rewrite !(@big_ltn _ _ _ lo hi) // eqxx mulr1n [RHS]addrAC; congr (_ + _); apply: eq_big_nat => i hi'.
  by have -> : (i == lo) = false by [lia]; rewrite mulr0n addr0.
split; first by rewrite gt_eqF.
- have -> : \sum_(lo <= i < hi) u i * u i = \sum_(lo <= i < hi) (x i * x i / (c * c) + (x lo / c *+ 2 + 1) *+ (i == lo)).
    apply: eq_bigr => i _; rewrite /u; case: eqP => [->|_] /=; rewrite ?mulr1n ?mulr0n ?addr0; last by field.
    by field.
  by rewrite S1 -mulr_suml -cc divff ?mulf_neq0 // /u eqxx /= mulr1n; ring.
- have -> : \sum_(lo <= i < hi) u i * x i = \sum_(lo <= i < hi) (x i * x i / c + x lo *+ (i == lo)).
    by apply: eq_bigr => i _; rewrite /u; case: eqP => [->|_] /=; rewrite ?mulr1n ?mulr0n ?addr0; field.
  by rewrite S1 -mulr_suml -cc /u eqxx /= mulr1n; field.
- by move=> i; rewrite /u; case: eqP => _ /=; rewrite ?mulr1n ?mulr0n; field.
Qed.

(** *** the reusable column operation *)
Lemma col_dot_ok r w lo c1 c2 v f : (lo <= r)%N -> (c1 < w)%N -> (c2 < w)%N -> repr r w v f ->
  col_dot (S:=S) lo r w c1 c2 v = Ok (\sum_(lo <= i < r) f i c1 * f i c2).
Proof.
move=> lr h1 h2 Hv; rewrite /col_dot; apply: for_sum0 => k s hk.
by rewrite !(repr_get Hv) //; lia.
Qed.

Lemma col_axpy_ok (E : err -> Prop) r w lo c1 c2 t v f : (lo <= r)%N -> (c1 < w)%N -> (c2 < w)%N -> c1 != c2 -> repr r w v f ->
  wpe E (col_axpy (S:=S) lo r w c1 c2 t v) (fun v => repr r w v
    (fun i j => if (j == c2) && (lo <= i)%N then f i j + t * f i c1 else f i j)).
Proof.
move=> lr h1 h2 h12 Hv; rewrite /col_axpy; apply: wpe_mono; last first.
  apply: (for_own (fun a b => if b == c2 then a else r) (fun i j => f i j + t * f i c1) _ Hv) => //.
  move=> k v1 f1 hk Hv1 E1; rewrite !(repr_get Hv1); [|by lia..].
  cbn [bind]; apply: (wpe_repr_set Hv1); [by lia|by lia|] => v2 Hv2; exs.
  apply: repr_ext Hv2 _ => a b ha hb; case: (altP (b =P c2)) => [->|bc]; rewrite ?andbT ?andbF; last by iflia.
  case: (altP (a =P k)) => [->|//]; rewrite !E1 ?eqxx //; try lia.
  by rewrite (negPf h12); lia.
move=> v1 Hv1; apply: repr_ext Hv1 _ => a b ha hb; case: eqP => [->|_] /=; last by iflia.
by rewrite ha andbT.
Qed.

Definition refl_col r lo c1 c2 (f : nat -> nat -> F) (i j : nat) : F :=
  if (j == c2) && (lo <= i)%N then f i j - f i c1 * (\sum_(lo <= l < r) f l c1 * f l c2) / f lo c1 else f i j.

Lemma col_refl_ok (E : err -> Prop) r w lo c1 c2 v f (Q : seq F -> Prop) : (lo < r)%N -> (c1 < w)%N -> (c2 < w)%N -> c1 != c2 -> repr r w v f ->
  f lo c1 != 0 -> (forall v, repr r w v (refl_col r lo c1 c2 f) -> Q v) ->
  wpe E (t <-- col_dot (S:=S) lo r w c1 c2 v ;;
         x <-- vget v (lo * w + c1) ;;
         t <-- n_div (n:=S) (n_neg (n:=S) t) x ;;
         col_axpy (S:=S) lo r w c1 c2 t v) Q.
Proof.
move=> lr h1 h2 h12 Hv f0 HQ; rewrite (col_dot_ok _ h1 h2 Hv); last by lia.
cbn [bind]; rewrite (repr_get Hv) //; cbn [bind]; exs; rewrite (negPf f0); cbn [bind].
apply: wpe_mono; last by apply: (@col_axpy_ok _ _ _ _ c1 c2 _ _ _ (ltnW lr) h1 h2 h12 Hv).
move=> v1 Hv1; apply: HQ; apply: repr_ext Hv1 _ => a b ha hb; rewrite /refl_col; case: ifP => // /andP[/eqP -> _].
by move: (\sum_(lo <= l < r) _) => z; field.
Qed.

Variables m n : nat.
Hypothesis nm : (n <= m)%N.
Hypothesis n0 : (0 < n)%N.
Implicit Types (a U V : nat -> nat -> F) (s e : nat -> F).

Lemma col_house_ok k ad sd a s : (k < n)%N -> repr m n ad a -> repr1 n sd s ->
  wp (svd_col_house (S:=S) m n k ad sd) (fun st => exists c : F,
   [/\ c * c = \sum_(k <= i < m) a i k * a i k, 0 <= c * a k k,
       repr m n st.1 (fun i j => if [&& j == k, (k <= i)%N & c != 0] then a i k / c + (i == k)%:R else a i j) &
       repr1 n st.2 (fun j => if j == k then - c else s j)]).
Proof.
move=> kn Ha Hs; rewrite /svd_col_house.
apply: wpe_bind; apply: (wpe_repr1_set Hs) => // sd1 Hs1.
apply: wpe_bind; apply: (wpe_for (fun i sd => repr1 n sd (fun j => if j == k then Num.sqrt (\sum_(k <= l < i) a l k * a l k) else s j))); first by lia.
- by apply: repr1_ext Hs1 _ => j hj; rewrite big_geq // sqrtr0.
- move=> i sd2 hi Hs2; rewrite (repr1_get Hs2) // eqxx; cbn [bind].
  rewrite (repr_get Ha); [|by lia|by lia].
  cbn [bind]; rewrite hypot_ok_L; cbn [bind]; apply: (wpe_repr1_set Hs2) => // sd3 Hs3.
  apply: repr1_ext Hs3 _ => j hj; case: eqP => // _; congr Num.sqrt.
  rewrite sqr_sqrtr ?big_nat_recr //=; [by lia|].
  by apply: sumr_ge0 => l _; rewrite -expr2 sqr_ge0.
move=> sd2 Hs2; rewrite (repr1_get Hs2) // eqxx; cbn [bind].
set q := \sum_(k <= l < m) _; have q0 : 0 <= q by apply: sumr_ge0 => l _; rewrite -expr2 sqr_ge0.
exs; case: (altP (Num.sqrt q =P 0)) => c0; cbn [negb bind].
  rewrite (repr1_get Hs2) // eqxx; cbn [bind]; apply: wpe_bind; apply: (wpe_repr1_set Hs2) => // sd3 Hs3.
  apply: wpe_ok; exists 0; split=> //=; rewrite ?mul0r //.
  - by apply/eqP; rewrite eq_sym eq_le q0 andbT -sqrtr_eq0 c0.
  - by apply: repr_ext Ha _ => i j hi hj; rewrite eqxx !andbF.
  - by apply: repr1_ext Hs3 _ => j hj; rewrite -/q c0; case: eqP.
rewrite (repr_get Ha); [|by lia|by lia].
cbn [bind]; pose c := if a k k < 0 then - Num.sqrt q else Num.sqrt q.
have cc : c * c = q by rewrite /c; case: ifP => _; rewrite ?mulrNN -expr2 sqr_sqrtr.
have cne : c != 0 by rewrite /c; case: ifP => _; rewrite ?oppr_eq0.
have cx : 0 <= c * a k k.
  rewrite /c; case: ltP => h; first by rewrite mulNr oppr_ge0 mulr_ge0_le0 ?sqrtr_ge0 ?ltW.
  by rewrite mulr_ge0 ?sqrtr_ge0.
apply: wpe_bind; apply: (wpe_bind2 (P := fun sd => repr1 n sd (fun j => if j == k then c else s j))).
  rewrite /c; case: ifP => _; last by apply: wpe_ok.
  by apply: (wpe_repr1_set Hs2) => // sd3 Hs3; apply: repr1_ext Hs3 _ => j _; case: eqP.
move=> sd3 Hs3; apply: wpe_bind; apply: wpe_mono; last first.
  apply: (for_own (fun i j => if j == k then i else m) (fun i j => a i j / c) _ Ha); first by lia.
  move=> i ad1 a1 hi Ha1 E1; rewrite (repr_get Ha1); [|by lia|by lia].
  cbn [bind]; rewrite (repr1_get Hs3) // eqxx; cbn [bind]; exs; rewrite (negPf cne); cbn [bind].
  apply: (wpe_repr_set Ha1); [by lia|by lia|] => ad2 Ha2.
  apply: repr_ext Ha2 _ => x y hx hy; case: (altP (y =P k)) => [->|yk]; rewrite ?andbT ?andbF; last by iflia.
  by case: eqP => [->|//]; rewrite E1 ?eqxx //; lia.
move=> ad1 Ha1; cbn beta in Ha1; rewrite (repr_get Ha1); [|by lia|by lia].
rewrite eqxx; have -> : (k <= k < m)%N by lia.
cbn [bind]; apply: wpe_bind; apply: (wpe_repr_set Ha1); [by lia|by lia|] => ad2 Ha2.
apply: wpe_ok; rewrite (repr1_get Hs3) // eqxx; cbn [bind]; apply: wpe_bind; apply: (wpe_repr1_set Hs3) => // sd4 Hs4.
apply: wpe_ok; exists c; split=> //=.
- apply: repr_ext Ha2 _ => i j hi hj; rewrite cne andbT; case: (altP (j =P k)) => [->|jk] /=; rewrite ?andbT ?andbF.
    rewrite hi andbT; exs; case: (altP (i =P k)) => [->|ik]; first by rewrite leqnn.
    by rewrite addr0.
  by iflia.
- by apply: repr1_ext Hs4 _ => j hj; case: eqP.
Qed.

Lemma col_apply_ok k nct sd ad ed a s e : (k < n)%N -> (k < nct)%N -> repr m n ad a -> repr1 n sd s -> repr1 n ed e ->
  (s k != 0 -> a k k != 0) ->
  wp (svd_col_apply (S:=S) m n k nct sd ad ed) (fun st =>
    let a' i j := if [&& s k != 0, (k < j)%N & (k <= i)%N] then a i j - a i k * (\sum_(k <= l < m) a l k * a l j) / a k k else a i j in
    repr m n st.1 a' /\ repr1 n st.2 (fun j => if (k < j)%N then a' k j else e j)).
Proof.
move=> kn kt Ha Hs He s0; rewrite /svd_col_apply kt.
pose a' i j := if [&& s k != 0, (k < j)%N & (k <= i)%N] then a i j - a i k * (\sum_(k <= l < m) a l k * a l j) / a k k else a i j.
cbv zeta.
apply: (wpe_for (fun q (st : seq F * seq F) => repr m n st.1 (fun i j => if (j < q)%N then a' i j else a i j) /\
   repr1 n st.2 (fun j => if (k < j < q)%N then a' k j else e j))); first by lia.
- split; last by apply: repr1_ext He _ => j hj; iflia.
  by apply: repr_ext Ha _ => i j hi hj; rewrite /a'; case: ifP => // jk; rewrite addn1 ltnS in jk; rewrite ltnNge jk andbF.
- move=> j [ad1 ed1] hj [Ha1 He1]; cbn [fst snd] in Ha1, He1.
  rewrite (repr1_get Hs) //; cbn [bind]; change (@s_eqb S (s k) (n_zero S)) with (s k == 0).
  have uE l : (if (k < j)%N then a' l k else a l k) = a l k.
    by rewrite /a' ltnn andbF; case: ifP.
  apply: (wpe_bind2 (P := fun ad => repr m n ad (fun i q => if (q < j.+1)%N then a' i q else a i q))).
    case: (altP (s k =P 0)) => sk; cbn [negb].
      apply: wpe_ok; apply: repr_ext Ha1 _ => i q hi hq; rewrite /a' sk eqxx /=.
      by case: ifP; case: ifP.
    apply: (@col_refl_ok noerr m n k k j _ _ _ _ _ _ _ Ha1); try lia.
      by rewrite uE s0.
    move=> v Hv; apply: repr_ext Hv _ => i q hi hq; rewrite /refl_col !uE; rewrite ltnS.
    case: (ltngtP q j) => qj; rewrite ?andbF //=.
    have kj : (k < j)%N by lia.
    rewrite ltnn qj /a' sk kj ltnn /=; case: ifP => // _.
  move=> ad2 Ha2; rewrite (repr_get Ha2); [|by lia|by lia].
  rewrite ltnSn; cbn [bind]; apply: wpe_bind; apply: (wpe_repr1_set He1); [by lia|] => ed2 He2.
  apply: wpe_ok; split=> //; apply: repr1_ext He2 _ => q hq.
  case: (altP (q =P j)) => [->|qj]; first by have -> : (k < j < j.+1)%N by lia.
  by have -> : (k < q < j.+1)%N = (k < q < j)%N by lia.
- move=> [ad1 ed1] [Ha1 He1]; cbn [fst snd] in Ha1, He1; split.
    by apply: repr_ext Ha1 _ => i j hi hj; rewrite hj.
  by apply: repr1_ext He1 _ => j hj; rewrite hj andbT.
Qed.

Lemma store_u_ok k ad ud a U : (k < n)%N -> repr m n ad a -> repr m m ud U ->
  wp (svd_store_u (S:=S) m n k ad ud) (fun ud => repr m m ud (fun i j => if (j == k) && (k <= i)%N then a i k else U i j)).
Proof.
move=> kn Ha Hu; rewrite /svd_store_u; apply: wpe_mono; last first.
  apply: (for_own (fun i j => if j == k then i else m) (fun i j => a i j) _ Hu); first by lia.
  move=> i u1 U1 hi Hu1 E1; rewrite (repr_get Ha); [|by lia|by lia].
  cbn [bind]; apply: (wpe_repr_set Hu1); [by lia|by lia|] => u2 Hu2.
  apply: repr_ext Hu2 _ => x y hx hy; case: (altP (y =P k)) => [->|yk]; rewrite ?andbT ?andbF; last by iflia.
  by case: eqP => [->|].
move=> u1 Hu1; apply: repr_ext Hu1 _ => i j hi hj; case: (altP (j =P k)) => [->|jk] /=; last by iflia.
by rewrite hi andbT.
Qed.

Lemma row_house_ok k ed e : (k.+1 < n)%N -> repr1 n ed e ->
  wp (svd_row_house (S:=S) n k ed) (fun ed => exists c : F,
   [/\ c * c = \sum_(k.+1 <= i < n) e i * e i, 0 <= c * e k.+1 &
       repr1 n ed (fun j => if j == k then - c else if (k < j)%N && (c != 0) then e j / c + (j == k.+1)%:R else e j)]).
Proof.
move=> kn He; rewrite /svd_row_house addn1.
apply: wpe_bind; apply: (wpe_repr1_set He) => // [|ed1 He1]; first by lia.
apply: wpe_bind; apply: (wpe_for (fun i ed => repr1 n ed (fun j => if j == k then Num.sqrt (\sum_(k.+1 <= l < i) e l * e l) else e j))); first by lia.
- by apply: repr1_ext He1 _ => j hj; rewrite big_geq // sqrtr0.
- move=> i ed2 hi He2; rewrite (repr1_get He2); last by lia.
  rewrite eqxx; cbn [bind]; rewrite (repr1_get He2); last by lia.
  have -> : (i == k) = false by lia.
  cbn [bind]; rewrite hypot_ok_L; cbn [bind]; apply: (wpe_repr1_set He2); [by lia|] => ed3 He3.
  apply: repr1_ext He3 _ => j hj; case: eqP => // _; congr Num.sqrt.
  rewrite sqr_sqrtr ?big_nat_recr //=; [by lia|].
  by apply: sumr_ge0 => l _; rewrite -expr2 sqr_ge0.
move=> ed2 He2; rewrite (repr1_get He2); last by lia.
rewrite eqxx; cbn [bind].
set q := \sum_(k.+1 <= l < n) _; have q0 : 0 <= q by apply: sumr_ge0 => l _; rewrite -expr2 sqr_ge0.
exs; case: (altP (Num.sqrt q =P 0)) => c0; cbn [negb bind].
  rewrite (repr1_get He2); last by lia.
  rewrite eqxx; cbn [bind]; apply: (wpe_repr1_set He2); [by lia|] => ed3 He3.
  exists 0; split=> //=; rewrite ?mul0r //.
  - by apply/eqP; rewrite eq_sym eq_le q0 andbT -sqrtr_eq0 c0.
  - by apply: repr1_ext He3 _ => j hj; rewrite -/q c0 eqxx andbF; case: eqP.
rewrite (repr1_get He2) //; have -> : (k.+1 == k) = false by lia.
cbn [bind]; pose c := if e k.+1 < 0 then - Num.sqrt q else Num.sqrt q.
have cc : c * c = q by rewrite /c; case: ifP => _; rewrite ?mulrNN -expr2 sqr_sqrtr.
have cne : c != 0 by rewrite /c; case: ifP => _; rewrite ?oppr_eq0.
have cx : 0 <= c * e k.+1.
  rewrite /c; case: ltP => h; first by rewrite mulNr oppr_ge0 mulr_ge0_le0 ?sqrtr_ge0 ?ltW.
  by rewrite mulr_ge0 ?sqrtr_ge0.
apply: wpe_bind; apply: (wpe_bind2 (P := fun ed => repr1 n ed (fun j => if j == k then c else e j))).
  rewrite /c; case: ifP => _; last by apply: wpe_ok.
  by apply: (wpe_repr1_set He2) => // [|ed3 He3]; [lia|apply: repr1_ext He3 _ => j _; case: eqP].
move=> ed3 He3; apply: wpe_bind.
apply: (wpe_for (fun i ed => repr1 n ed (fun j => if j == k then c else if (k < j < i)%N then e j / c else e j))); first by lia.
- by apply: repr1_ext He3 _ => j hj; case: eqP => // _; iflia.
- move=> i ed4 hi He4; rewrite (repr1_get He4); last by lia.
  have -> : (i == k) = false by lia.
  have -> : (k < i < i)%N = false by lia.
  cbn [bind]; rewrite (repr1_get He4); last by lia.
  rewrite eqxx; cbn [bind]; exs; rewrite (negPf cne); cbn [bind].
  apply: (wpe_repr1_set He4); [by lia|] => ed5 He5.
  apply: repr1_ext He5 _ => j hj; case: (altP (j =P i)) => [->|ji].
    by have -> : (i == k) = false by [lia]; have -> : (k < i < i.+1)%N by lia.
  by have -> : (k < j < i.+1)%N = (k < j < i)%N by lia.
move=> ed4 He4; rewrite (repr1_get He4) //.
have -> : (k.+1 == k) = false by lia.
have -> : (k < k.+1 < n)%N by lia.
cbn [bind]; apply: (wpe_repr1_set He4) => // ed5 He5.
rewrite (repr1_get He5); last by lia.
have -> : (k == k.+1) = false by lia.
rewrite eqxx; cbn [bind]; apply: (wpe_repr1_set He5); [by lia|] => ed6 He6.
exists c; split=> //.
apply: repr1_ext He6 _ => j hj; case: eqP => // /eqP jk; rewrite hj andbT cne andbT; exs.
case: (altP (j =P k.+1)) => [->|jk1]; first by rewrite ltnSn.
by rewrite addr0.
Qed.

Lemma row_apply_ok k ed ad wd e a w : (k.+1 < n)%N -> repr1 n ed e -> repr m n ad a -> repr1 m wd w ->
  (e k != 0 -> e k.+1 != 0) ->
  wp (svd_row_apply (S:=S) m n k ed ad wd) (fun st =>
    repr m n st.1 (fun i j => if [&& e k != 0, (k < i)%N & (k < j)%N] then a i j - (\sum_(k.+1 <= l < n) e l * a i l) / e k.+1 * e j else a i j) /\
    exists w', repr1 m st.2 w').
Proof.
move=> kn He Ha Hw e0; rewrite /svd_row_apply addn1 (repr1_get He); last by lia.
have -> : (k.+1 < m)%N by lia.
cbn [bind]; exs; case: (altP (e k =P 0)) => ek; cbn [negb andb].
  apply: wpe_ok; split; last by exists w.
  by apply: repr_ext Ha _.
apply: wpe_bind; apply: wpe_mono; last first.
  apply: (for_own1 (fun _ => 0) _ Hw); first by lia.
  by [].
move=> wd1 Hw1; cbn beta in Hw1.
apply: wpe_bind; apply: (wpe_for (fun j wd => repr1 m wd (fun i => if (k < i)%N then \sum_(k.+1 <= l < j) e l * a i l else w i))); first by lia.
- by apply: repr1_ext Hw1 _ => i hi; rewrite hi andbT big_geq.
- move=> j wd2 hj Hw2; apply: wpe_mono; last first.
    apply: (for_own1 (fun i => \sum_(k.+1 <= l < j.+1) e l * a i l) _ Hw2); first by lia.
    move=> i wd3 w3 hi Hw3 E3; rewrite (repr1_get Hw3); last by lia.
    cbn [bind]; rewrite (repr1_get He); last by lia.
    cbn [bind]; rewrite (repr_get Ha); [|by lia|by lia].
    cbn [bind]; exs; congr (vset _ _ _); rewrite E3; [|by lia|by lia].
    by have -> : (k < i)%N by [lia]; rewrite big_nat_recr //=; lia.
  move=> wd3 Hw3; apply: repr1_ext Hw3 _ => i hi; rewrite hi andbT.
  by case: (k < i)%N.
move=> wd2 Hw2; apply: wpe_bind; apply: wpe_mono; last first.
  apply: (for_own (fun i j => j) (fun i j => if (k < i)%N then a i j - (\sum_(k.+1 <= l < n) e l * a i l) / e k.+1 * e j else a i j) _ Ha); first by lia.
  move=> j ad1 a1 hj Ha1 E1; rewrite (repr1_get He); last by lia.
  cbn [bind]; rewrite (repr1_get He) //; cbn [bind]; exs; rewrite (negPf (e0 ek)); cbn [bind].
  apply: wpe_mono; last first.
    apply: (for_own (fun x y => if y == j then x else m) (fun i j => a i j - (\sum_(k.+1 <= l < n) e l * a i l) / e k.+1 * e j) _ Ha1); first by lia.
    move=> i ad2 a2 hi Ha2 E2; rewrite (repr_get Ha2); [|by lia|by lia].
    cbn [bind]; rewrite (repr1_get Hw2); last by lia.
    have -> : (k < i)%N by lia.
    cbn [bind]; apply: (wpe_repr_set Ha2); [by lia|by lia|] => ad3 Ha3.
    apply: repr_ext Ha3 _ => x y hx hy; exs; case: (altP (y =P j)) => [->|yj]; rewrite ?andbT ?andbF; last by iflia.
    case: eqP => [->|//]; rewrite E2 ?eqxx //; [|by lia|by lia].
    rewrite E1 ?eqxx //; [|by lia|by lia].
    by move: (\sum_(k.+1 <= l < n) _) (e0 ek) => z z1; field.
  move=> ad2 Ha2; apply: repr_ext Ha2 _ => x y hx hy; case: (altP (y =P j)) => [->|yj] /=; last by iflia.
  by rewrite hx andbT; case: ifP => // _; rewrite E1 ?eqxx //; lia.
move=> ad1 Ha1; apply: wpe_ok; split; last by eexists; exact: Hw2.
by apply: repr_ext Ha1 _ => i j hi hj; rewrite hj andbT; case: (k < i)%N; case: (k < j)%N.
Qed.

Lemma store_v_ok k ed vd e V : (k < n)%N -> repr1 n ed e -> repr n n vd V ->
  wp (svd_store_v (S:=S) n k ed vd) (fun vd => repr n n vd (fun i j => if (j == k) && (k < i)%N then e i else V i j)).
Proof.
move=> kn He Hv; rewrite /svd_store_v addn1; apply: wpe_mono; last first.
  apply: (for_own (fun i j => if j == k then i else n) (fun i j => e i) _ Hv); first by lia.
  move=> i u1 U1 hi Hu1 E1; rewrite (repr1_get He); last by lia.
  cbn [bind]; apply: (wpe_repr_set Hu1); [by lia|by lia|] => u2 Hu2.
  apply: repr_ext Hu2 _ => x y hx hy; case: (altP (y =P k)) => [->|yk]; rewrite ?andbT ?andbF; last by iflia.
  by case: eqP => [->|].
move=> u1 Hu1; apply: repr_ext Hu1 _ => i j hi hj; case: (altP (j =P k)) => [->|jk] /=; last by iflia.
by rewrite hi andbT.
Qed.

(** *** one step of the reduction *)
Local Notation nct := (minn m.-1 n).
Local Notation nrt := (n - 2)%N.

Definition Wf k a s e (i j : nat) : F :=
  if (i < k)%N then (if j == i then s i else if j == i.+1 then (if (i < nrt)%N then e i else a i j) else 0)
  else if (j < k)%N then 0 else a i j.
Definition Hu U s k : 'M[F]_m := house m (padm k (fun i => U i k)) (if s k == 0 then 0 else U k k).
Definition Hv V e k : 'M[F]_n := house n (padm k.+1 (fun i => V i k)) (if (k < nrt)%N && (e k != 0) then V k.+1 k else 0).

Definition okU U s l := s l != 0 -> U l l != 0 /\ \sum_(l <= i < m) U i l * U i l = U l l *+ 2.
Definition okV V e l := (l < nrt)%N -> e l != 0 -> V l.+1 l != 0 /\ \sum_(l.+1 <= i < n) V i l * V i l = V l.+1 l *+ 2.

Lemma Hu_orth U s l : (l < m)%N -> okU U s l -> orthogonal (Hu U s l).
Proof.
move=> lm H; apply: house_orth; case: (altP (s l =P 0)) => [_|sl _]; first by rewrite eqxx.
have [_ <-] := H sl; rewrite (padm_norm (n:=m)) //; lia.
Qed.

Lemma Hv_orth V e l : (l < n)%N -> okV V e l -> orthogonal (Hv V e l).
Proof.
move=> lm H; apply: house_orth; case: ifP => [/andP[h1 h2] _|_]; last by rewrite eqxx.
have [_ <-] := H h1 h2; rewrite (padm_norm (n:=n)) //; lia.
Qed.

Lemma sumsq0 lo hi (x : nat -> F) : \sum_(lo <= i < hi) x i * x i = 0 -> forall i, (lo <= i < hi)%N -> x i = 0.
Proof.
move=> H i hi'; have : x i * x i = 0.
  apply: (@absr0 F hi lo (fun i => x i * x i)) hi'; rewrite -[RHS]H.
  by apply: eq_bigr => j _; rewrite ger0_norm // -expr2 sqr_ge0.
by move/eqP; rewrite mulf_eq0 orbb => /eqP.
Qed.

(** stage 1: the reflection from the left *)
Lemma left_stage k a (u : nat -> F) (c : F) (W Z : nat -> nat -> F) : (k < n)%N ->
  c * c = \sum_(k <= i < m) a i k * a i k -> 0 <= c * a k k ->
  (c != 0 -> forall i, (k <= i < m)%N -> u i = a i k / c + (i == k)%:R) ->
  (forall i j, (i < m)%N -> (j < n)%N -> (k <= i)%N -> W i j = if (j < k)%N then 0 else a i j) ->
  (forall i j, (i < m)%N -> (j < n)%N -> Z i j = if (i < k)%N then W i j else if (j < k)%N then 0
      else if j == k then (if i == k then - c else 0)
      else if c == 0 then a i j else a i j - u i * (\sum_(k <= l < m) u l * a l j) / u k) ->
  [/\ mxf m n W = house m (padm k u) (if c == 0 then 0 else u k) *m mxf m n Z
    & c != 0 -> u k != 0 /\ \sum_(k <= i < m) u i * u i = u k *+ 2].
Proof.
move=> kn cc cx uE WE ZE; case: (altP (c =P 0)) => [c0|c0].
  split=> //; rewrite /house eqxx mul1mx; apply/matrixP => i j; rewrite !mxE ZE // c0 eqxx oppr0 if_same.
  case: ltnP => // ki; rewrite WE //; case: ltnP => // kj; case: eqP => // ->.
  by rewrite (@sumsq0 k m (fun i => a i k)) ?ki ?ltn_ord // -cc c0 mulr0.
have km : (k < m)%N by lia.
have [u0 u1 u2 u3] := hh_facts km c0 cc cx.
have E1 (G : nat -> F) : \sum_(k <= i < m) (a i k / c + (i == k)%:R) * G i = \sum_(k <= i < m) u i * G i.
  by apply: eq_big_nat => i hi; rewrite uE.
have uk : a k k / c + (k == k)%:R = u k by rewrite uE //; lia.
rewrite uk in u0 u1 u2; rewrite E1 in u2.
have u1' : \sum_(k <= i < m) u i * u i = u k *+ 2.
  by rewrite -u1; apply: eq_big_nat => i hi; rewrite uE.
split=> //.
have H : house m (padm k u) (u k) *m house m (padm k u) (u k) = 1%:M.
  by apply: house_invol => _; rewrite (padm_norm (n:=m)) //; lia.
have -> : mxf m n Z = house m (padm k u) (u k) *m mxf m n W.
  rewrite house_lE //; apply/matrixP => i j; rewrite !mxE ZE // (padm_sum (n:=m)); last by lia.
  rewrite /padm; case: (ltnP i k) => ik; first by rewrite !mul0r subr0.
  rewrite WE //.
  have -> : \sum_(k <= l < m) u l * W l j = if (j < k)%N then 0 else \sum_(k <= l < m) u l * a l j.
    case: ifP => jk; last by apply: eq_big_nat => l hl; rewrite WE ?jk //; lia.
    by rewrite big_nat big1 // => l hl; rewrite WE ?jk ?mulr0 //; lia.
  case: ifP => jk; first by rewrite mulr0 mul0r subr0.
  case: (altP (j =P k :> nat)) => [->|jk']; last by rewrite (negPf c0).
  rewrite u2 mulrA mulfK // [u i * c]mulrC uE ?ik ?ltn_ord // u3.
  by case: eqP => _; rewrite ?mulr1n ?mulr0n.
by rewrite mulmxA H mul1mx.
Qed.

(** stage 2: the reflection from the right *)
Lemma right_stage k (u x : nat -> F) (c : F) (Z Y : nat -> nat -> F) : (k.+1 < n)%N ->
  c * c = \sum_(k.+1 <= i < n) x i * x i -> 0 <= c * x k.+1 ->
  (c != 0 -> forall i, (k < i < n)%N -> u i = x i / c + (i == k.+1)%:R) ->
  (forall i j, (i < k)%N -> (k < j < n)%N -> Z i j = 0) ->
  (forall j, (k < j < n)%N -> Z k j = x j) ->
  (forall i j, (i < m)%N -> (j < n)%N -> Y i j = if (i < k)%N || (j <= k)%N then Z i j
      else if i == k then (if j == k.+1 then - c else 0)
      else if c == 0 then Z i j else Z i j - (\sum_(k.+1 <= l < n) u l * Z i l) / u k.+1 * u j) ->
  [/\ mxf m n Z = mxf m n Y *m house n (padm k.+1 u) (if c == 0 then 0 else u k.+1)
    & c != 0 -> u k.+1 != 0 /\ \sum_(k.+1 <= i < n) u i * u i = u k.+1 *+ 2].
Proof.
move=> kn cc cx uE Z0 ZE YE; case: (altP (c =P 0)) => [c0|c0].
  split=> //; rewrite /house eqxx mulmx1; apply/matrixP => i j; rewrite !mxE YE // c0 eqxx oppr0 if_same.
  case: ifP => // /norP []; rewrite -leqNgt -ltnNge => ki kj; case: eqP => // ->.
  rewrite ZE ?kj ?ltn_ord //.
  by rewrite (@sumsq0 k.+1 n x) ?kj ?ltn_ord // -cc c0 mulr0.
have [u0 u1 u2 u3] := hh_facts kn c0 cc cx.
have E1 (G : nat -> F) : \sum_(k.+1 <= i < n) (x i / c + (i == k.+1)%:R) * G i = \sum_(k.+1 <= i < n) u i * G i.
  by apply: eq_big_nat => i hi; rewrite uE.
have uk : x k.+1 / c + (k.+1 == k.+1)%:R = u k.+1 by rewrite uE //; lia.
rewrite uk in u0 u1 u2; rewrite E1 in u2.
have u1' : \sum_(k.+1 <= i < n) u i * u i = u k.+1 *+ 2.
  by rewrite -u1; apply: eq_big_nat => i hi; rewrite uE.
split=> //.
have H : house n (padm k.+1 u) (u k.+1) *m house n (padm k.+1 u) (u k.+1) = 1%:M.
  by apply: house_invol => _; rewrite (padm_norm (n:=n)) //; lia.
have -> : mxf m n Y = mxf m n Z *m house n (padm k.+1 u) (u k.+1).
  rewrite house_rE //; apply/matrixP => i j; rewrite !mxE YE //.
  have -> : \sum_(0 <= l < n) Z i l * padm k.+1 u l = \sum_(k.+1 <= l < n) u l * Z i l.
    rewrite -(@padm_sum F n k.+1 u (fun l => Z i l)); last by lia.
    by apply: eq_bigr => l _; rewrite mulrC.
  rewrite /padm; case: (leqP j k) => jk; first by rewrite orbT mulr0 subr0.
  rewrite orbF; case: (ltngtP i k) => ik.
  - by rewrite big_nat big1 ?mul0r ?subr0 // => l hl; rewrite Z0 ?mulr0.
  - by rewrite (negPf c0).
  rewrite ik ZE ?jk ?ltn_ord //.
  have -> : \sum_(k.+1 <= l < n) u l * Z k l = c * u k.+1.
    by rewrite -u2; apply: eq_big_nat => l hl; rewrite ZE.
  rewrite mulfK // uE ?jk ?ltn_ord // u3.
  by case: eqP => _; rewrite ?mulr1n ?mulr0n.
by rewrite -mulmxA H mulmx1.
Qed.

Definition bd_inv (A : 'M[F]_(m, n)) k (st : bidiag S) : Prop := exists a s U V e w,
  [/\ repr m n (b_a st) a, repr1 n (b_s st) s, repr m m (b_u st) U, repr n n (b_v st) V & repr1 n (b_e st) e /\ repr1 m (b_w st) w] /\
  [/\ forall l, (l < k)%N -> okU U s l, forall l, (l < k)%N -> okV V e l
    & A = mprod (Hu U s) k *m mxf m n (Wf k a s e) *m (mprod (Hv V e) k)^T].

Lemma Hu_ext U s U' s' l : (l < m)%N -> s l = s' l -> (forall i, (l <= i < m)%N -> U i l = U' i l) -> Hu U s l = Hu U' s' l.
Proof.
move=> lm Es EU; rewrite /Hu -Es; apply: house_ext => [|h i hi].
  by case: ifP => // _; rewrite EU //; lia.
by rewrite /padm; case: ifP => // h1; rewrite EU //; lia.
Qed.

Lemma Hv_ext V e V' e' l : (l.+1 < n)%N || (nrt <= l)%N -> e l = e' l -> (forall i, (l < i < n)%N -> V i l = V' i l) -> Hv V e l = Hv V' e' l.
Proof.
move=> lm Es EU; rewrite /Hv -Es; apply: house_ext => [|h i hi].
  by case: ifP => // /andP[h _]; rewrite EU //; lia.
by rewrite /padm; case: ifP => // h1; rewrite EU //; lia.
Qed.

Lemma okU_ext U s U' s' l : (l < m)%N -> s l = s' l -> (forall i, (l <= i < m)%N -> U i l = U' i l) -> okU U s l -> okU U' s' l.
Proof.
move=> lm Es EU; rewrite /okU -Es => H h; have [h1 h2] := H h; rewrite -EU; last by lia.
by split=> //; rewrite -h2; apply: eq_big_nat => i hi; rewrite EU.
Qed.

Lemma okV_ext V e V' e' l : e l = e' l -> (forall i, (l < i < n)%N -> V i l = V' i l) -> okV V e l -> okV V' e' l.
Proof.
move=> Es EU; rewrite /okV -Es => H h0 h; have [h1 h2] := H h0 h; rewrite -EU; last by lia.
by split=> //; rewrite -h2; apply: eq_big_nat => i hi; rewrite EU.
Qed.

Lemma bidiag_step_ok A k st : (k < nct)%N -> bd_inv A k st ->
  wp (svd_bidiag_step (S:=S) m n nct nrt k st) (bd_inv A k.+1).
Proof.
case: st => [ad sd ud vd ed wd] kt [a [s [U [V [e [w]]]]]] [] /=.
move=> [Ha Hs Hud Hvd [He Hw]] [oU oV AE]; rewrite /svd_bidiag_step kt; cbn [b_a b_s b_u b_v b_e b_w].
have kn : (k < n)%N by lia.
have km : (k < m)%N by lia.
apply: wpe_bind; apply: wpe_mono (col_house_ok kn Ha Hs) => -[ad1 sd1] [c [cc cx]]; cbn [fst snd] => Ha1 Hs1.
pose a1 i j := if [&& j == k, (k <= i)%N & c != 0] then a i k / c + (i == k)%:R else a i j.
pose s1 j := if j == k then - c else s j.
have sk1 : s1 k = - c by rewrite /s1 eqxx.
pose W := Wf k a s e.
pose Z i j := if (i < k)%N then W i j else if (j < k)%N then 0
      else if j == k then (if i == k then - c else 0)
      else if c == 0 then a i j else a i j - a1 i k * (\sum_(k <= l < m) a1 l k * a l j) / a1 k k.
have [| | |L1 L2] := @left_stage k a (fun i => a1 i k) c W Z kn cc cx.
- by move=> c0 i hi; rewrite /a1 eqxx c0; have -> : (k <= i)%N by lia.
- by move=> i j hi hj ki; rewrite /W /Wf ltnNge ki.
- by [].
apply: wpe_bind; apply: wpe_mono; last first.
  apply: (@col_apply_ok k nct sd1 ad1 ed a1 s1 e kn kt Ha1 Hs1 He).
  by rewrite sk1 oppr_eq0 => /L2 [].
cbv zeta => -[ad2 ed2]; cbn [fst snd]; rewrite sk1 oppr_eq0 => -[Ha2 He2].
pose a2 i j := if [&& c != 0, (k < j)%N & (k <= i)%N] then a1 i j - a1 i k * (\sum_(k <= l < m) a1 l k * a1 l j) / a1 k k else a1 i j.
have a1j i j : j != k -> a1 i j = a i j by move=> jk; rewrite /a1 (negPf jk).
have a2k i : a2 i k = a1 i k by rewrite /a2 ltnn andbF.
have a2Z i j : (k <= i)%N -> (k < j)%N -> a2 i j = Z i j.
  move=> ki kj; rewrite /a2 /Z ki kj !andbT ltnNge ki ltnNge (ltnW kj) /=.
  have jk : j != k by lia.
  rewrite (negPf jk) (a1j i j jk) //; case: (c == 0) => //=.
  by rewrite (eq_bigr (fun l => a1 l k * a l j)) // => l _; rewrite (a1j l j jk).
have a2r i j : (i < k)%N -> a2 i j = a i j.
  move=> ik; rewrite /a2 /a1; have -> : (k <= i)%N = false by lia.
  by rewrite !andbF.
apply: wpe_bind; apply: wpe_mono (store_u_ok kn Ha2 Hud) => ud1 Hud1; cbn beta in Hud1.
pose U1 i j := if (j == k) && (k <= i)%N then a1 i k else U i j.
have {}Hud1 : repr m m ud1 U1.
  by apply: repr_ext Hud1 _ => i j hi hj; rewrite /U1; case: ifP => // _; rewrite ltnn andbF.
have U1k i : (k <= i)%N -> U1 i k = a1 i k by move=> h; rewrite /U1 eqxx h.
have U1l i l : (l < k)%N -> U i l = U1 i l by move=> h; rewrite /U1; have -> : (l == k) = false by lia.
have s1l l : (l < k)%N -> s l = s1 l by move=> h; rewrite /s1; have -> : (l == k) = false by lia.
have oU1 l : (l < k.+1)%N -> okU U1 s1 l.
  rewrite ltnS leq_eqVlt => /orP [/eqP ->|lk].
    rewrite /okU sk1 oppr_eq0 => /L2 [h1 h2]; rewrite U1k //; split=> //.
    by rewrite -h2; apply: eq_big_nat => i hi; rewrite U1k //; lia.
  by apply: (@okU_ext U s); [lia|exact: s1l|move=> i _; exact: U1l|exact: oU].
have HuE : mprod (Hu U1 s1) k.+1 = mprod (Hu U s) k *m house m (padm k (fun i => a1 i k)) (if c == 0 then 0 else a1 k k).
  rewrite /=; congr (_ *m _).
    by apply: mprod_ext => l lk; apply: Hu_ext; [lia|rewrite s1l|move=> i _; rewrite U1l].
  rewrite /Hu sk1 oppr_eq0; apply: house_ext; first by case: ifP => // _; rewrite U1k.
  by move=> _ i hi; rewrite /padm; case: ifP => // h; rewrite U1k.
have {AE} AE : A = mprod (Hu U1 s1) k.+1 *m mxf m n Z *m (mprod (Hv V e) k)^T.
  by rewrite AE HuE -/W L1 !mulmxA.
pose e1 j := if (k < j)%N then a2 k j else e j.
case: (ltnP k nrt) => kr; last first.
  (* no row transformation *)
  apply: wpe_ok; exists a2, s1, U1, V, e1, w; split=> //; split=> //.
  - move=> l lk; apply: (@okV_ext V e) => //; first by rewrite /e1; have -> : (k < l)%N = false by lia.
    move: lk; rewrite ltnS leq_eqVlt => /orP [/eqP ->|lk]; last exact: oV.
    by move=> h; lia.
  - rewrite AE; congr (_ *m _ *m _^T).
      apply/matrixP => i j; rewrite !mxE /Z /W /Wf ltnS.
      have hj := ltn_ord j.
      case: (ltngtP i k) => ik /=.
      + case: eqP => // _; first by rewrite s1l.
        case: eqP => // ji; rewrite a2r //; case: ifP => // _; rewrite /e1.
        by have -> : (k < i)%N = false by lia.
      + rewrite ltnS; case: (ltngtP j k) => jk //; rewrite a2Z //; last by lia.
        rewrite /Z; have -> : (i < k)%N = false by lia.
        have -> : (j < k)%N = false by lia.
        by have -> : (nat_of_ord j == k) = false by lia.
      + rewrite ik; case: (ltngtP j k) => jk; first by iflia.
          have -> : nat_of_ord j == k.+1 by lia.
          have -> : (k < nrt)%N = false by lia.
          rewrite a2Z // /Z ltnn; have -> : (j < k)%N = false by lia.
          by have -> : (nat_of_ord j == k) = false by lia.
        by rewrite sk1.
    rewrite /= [X in _ = _ *m X](_ : _ = 1%:M) ?mulmx1; last first.
      by rewrite /Hv; have -> : (k < nrt)%N = false by [lia]; rewrite /= /house eqxx.
    apply: mprod_ext => l lk; apply: Hv_ext => //; first by lia.
    by rewrite /e1; have -> : (k < l)%N = false by lia.
have kn1 : (k.+1 < n)%N by lia.
apply: wpe_bind; apply: wpe_mono (row_house_ok kn1 He2) => ed3 [c2 [cc2 cx2 He3]].
pose e2 j := if j == k then - c2 else if (k < j)%N && (c2 != 0) then e1 j / c2 + (j == k.+1)%:R else e1 j.
have e2k : e2 k = - c2 by rewrite /e2 eqxx.
have e1Z j : (k < j)%N -> e1 j = Z k j by move=> kj; rewrite /e1 kj a2Z.
pose Y i j := if (i < k)%N || (j <= k)%N then Z i j
      else if i == k then (if j == k.+1 then - c2 else 0)
      else if c2 == 0 then Z i j else Z i j - (\sum_(k.+1 <= l < n) e2 l * Z i l) / e2 k.+1 * e2 j.
have [| | | |R1 R2] := @right_stage k e2 e1 c2 Z Y kn1 cc2 cx2.
- move=> c0 i hi; rewrite /e2 c0; have -> : (i == k) = false by lia.
  by have -> : (k < i)%N by lia.
- move=> i j ik hj; rewrite /Z /W /Wf ik; iflia; iflia; by [].
- by move=> j /andP[hj _]; rewrite e1Z.
- by [].
apply: wpe_bind; apply: wpe_mono; last first.
  apply: (@row_apply_ok k ed3 ad2 wd e2 a2 w kn1 He3 Ha2 Hw).
  by rewrite e2k oppr_eq0 => /R2 [].
move=> [ad3 wd3]; cbn [fst snd]; rewrite e2k oppr_eq0 => -[Ha3 [w3 Hw3]].
pose a3 i j := if [&& c2 != 0, (k < i)%N & (k < j)%N] then a2 i j - (\sum_(k.+1 <= l < n) e2 l * a2 i l) / e2 k.+1 * e2 j else a2 i j.
apply: wpe_bind; apply: wpe_mono (store_v_ok kn He3 Hvd) => vd1 Hvd1; cbn beta in Hvd1.
pose V1 i j := if (j == k) && (k < i)%N then e2 i else V i j.
have V1k i : (k < i)%N -> V1 i k = e2 i by move=> h; rewrite /V1 eqxx h.
have V1l i l : (l < k)%N -> V i l = V1 i l by move=> h; rewrite /V1; have -> : (l == k) = false by lia.
have e2l l : (l < k)%N -> e l = e2 l.
  move=> h; rewrite /e2 /e1; have -> : (l == k) = false by lia.
  by have -> : (k < l)%N = false by lia.
apply: wpe_ok; exists a3, s1, U1, V1, e2, w3; split=> //; split=> //.
- move=> l; rewrite ltnS leq_eqVlt => /orP [/eqP ->|lk].
    rewrite /okV e2k oppr_eq0 => _ /R2 [h1 h2]; rewrite V1k //; split=> //.
    by rewrite -h2; apply: eq_big_nat => i hi; rewrite V1k //; lia.
  by apply: (@okV_ext V e); [exact: e2l|move=> i _; exact: V1l|exact: oV].
- have HvE : mprod (Hv V1 e2) k.+1 = mprod (Hv V e) k *m house n (padm k.+1 e2) (if c2 == 0 then 0 else e2 k.+1).
    rewrite /=; congr (_ *m _).
      by apply: mprod_ext => l lk; apply: Hv_ext; [lia|rewrite e2l|move=> i _; rewrite V1l].
    rewrite /Hv e2k oppr_eq0 kr /=; apply: house_ext; first by case: (c2 == 0) => //=; rewrite V1k.
    by move=> _ i hi; rewrite /padm; case: ifP => // h; rewrite V1k.
  suff YE : mxf m n Y = mxf m n (Wf k.+1 a3 s1 e2) by rewrite AE R1 YE HvE trmx_mul house_tr !mulmxA.
  apply/matrixP => i j; rewrite !mxE /Y /Wf ltnS; have hj := ltn_ord j.
  case: (ltngtP i k) => ik /=.
  + rewrite /Z ik /W /Wf ik; case: eqP => // _; first by rewrite s1l.
    by case: eqP => // ji; have -> : (i < nrt)%N by [lia]; rewrite e2l.
  + rewrite ltnS; case: (leqP j k) => jk.
      rewrite /Z; have -> : (i < k)%N = false by lia.
      have -> : (nat_of_ord i == k) = false by lia.
      by case: (ltngtP j k) jk.
    rewrite /a3 ik jk /= !andbT a2Z //; last by lia.
    case: (c2 == 0) => //=.
    rewrite (eq_big_nat _ _ (F2:=fun l => e2 l * a2 i l)) // => l hl; rewrite a2Z //; lia.
  + rewrite ik kr e2k sk1; case: (leqP j k) => jk.
      rewrite /Z ltnn eqxx; have -> : (nat_of_ord j == k.+1) = false by lia.
      by case: (ltngtP j k) jk.
    by have -> : (nat_of_ord j == k) = false by lia.
Qed.

(** *** the final bidiagonal matrix *)
Definition bidf s e (i j : nat) : F := if j == i then s i else if j == i.+1 then e i else 0.

Lemma final_bidiag_ok ad sd ed a s e : repr m n ad a -> repr1 n sd s -> repr1 n ed e ->
  wp (svd_final_bidiag (S:=S) m n nct nrt n ad sd ed) (fun st => exists s' e',
    [/\ repr1 n st.1 s', repr1 n st.2 e', forall l, (l < nct)%N -> s' l = s l, forall l, (l < nrt)%N -> e' l = e l
      & e' n.-1 = 0 /\ mxf m n (Wf nct a s e) = mxf m n (bidf s' e')]).
Proof.
move=> Ha Hs He; rewrite /svd_final_bidiag.
pose s' i := if (nct < n)%N && (i == nct) then a nct nct else s i.
pose e' i := if i == n.-1 then 0 else if (nrt.+1 < n)%N && (i == nrt) then a nrt n.-1 else e i.
apply: (wpe_bind2 (P := fun sd => repr1 n sd s')).
  case: ifP => h; last by apply: wpe_ok; apply: repr1_ext Hs _ => i hi; rewrite /s' h.
  rewrite (repr_get Ha) //; last by lia.
  by cbn [bind]; apply: (wpe_repr1_set Hs) => // sd1 Hs1; apply: repr1_ext Hs1 _ => i hi; rewrite /s' h.
move=> sd1 Hs1; rewrite /usub n0 subn1; cbn [bind].
have -> : (m < n)%N = false by lia.
cbn [bind]; apply: (wpe_bind2 (P := fun ed => repr1 n ed (fun i => if (nrt.+1 < n)%N && (i == nrt) then a nrt n.-1 else e i))).
  rewrite addn1; case: ifP => h; last by apply: wpe_ok; apply: repr1_ext He _ => i hi; rewrite ?h.
  rewrite (repr_get Ha) //; [|by lia|by lia].
  by cbn [bind]; apply: (wpe_repr1_set He); [lia|] => ed1 He1; apply: repr1_ext He1 _ => i hi; rewrite ?h.
move=> ed1 He1; apply: wpe_bind; apply: (wpe_repr1_set He1); [by lia|] => ed2 He2.
apply: wpe_ok; exists s', e'; split=> //.
- by move=> l hl; rewrite /s'; iflia.
- by move=> l hl; rewrite /e'; iflia; iflia.
split; first by rewrite /e' eqxx.
apply/matrixP => i j; rewrite !mxE /Wf /bidf /s' /e'; have hi := ltn_ord i; have hj := ltn_ord j.
case: (ltnP i nct) => ik.
  case: eqP => [ji|ji]; first by iflia.
  case: eqP => [ji'|//]; have -> : (nat_of_ord i == n.-1) = false by lia.
  case: (ltnP i nrt) => ir; first by iflia.
  have -> : nat_of_ord i = nrt by lia.
  have -> : nat_of_ord j = n.-1 by lia.
  by rewrite eqxx; have -> : (nrt.+1 < n)%N by lia.
case: (ltnP j nct) => jk; first by iflia; iflia.
have -> : nat_of_ord i = nct by lia.
have -> : nat_of_ord j = nct by lia.
by rewrite !eqxx; have -> : (nct < n)%N by lia.
Qed.

(** *** accumulating the reflections *)
Lemma refl_cols_ok (E : err -> Prop) r w lo c v f : (lo < r)%N -> (c < w)%N -> repr r w v f -> f lo c != 0 ->
  wpe E (for_ (c + 1) w (fun j v =>
         t <-- col_dot (S:=S) lo r w c j v ;;
         x <-- vget v (lo * w + c) ;;
         t <-- n_div (n:=S) (n_neg (n:=S) t) x ;;
         col_axpy (S:=S) lo r w c j t v) v)
   (fun v => repr r w v (fun i j => if (c < j)%N && (lo <= i)%N then f i j - f i c * (\sum_(lo <= l < r) f l c * f l j) / f lo c else f i j)).
Proof.
move=> lr cw Hv0 f0.
apply: wpe_mono; last first.
  apply: (for_own (fun i j => j) (fun i j => if (lo <= i)%N then f i j - f i c * (\sum_(lo <= l < r) f l c * f l j) / f lo c else f i j) _ Hv0); first by lia.
  move=> j v1 f1 hj Hv1 E1.
  have E1c l : (l < r)%N -> f1 l c = f l c by move=> lr'; rewrite E1 //; lia.
  have E1j l : (l < r)%N -> f1 l j = f l j by move=> lr'; rewrite E1 ?eqxx //; lia.
  apply: (@col_refl_ok E r w lo c j _ _ _ _ _ _ _ Hv1); try lia; first by rewrite E1c.
  move=> v2 Hv2; apply: repr_ext Hv2 _ => i q hi hq; rewrite /refl_col; case: (altP (q =P j)) => [->|//] /=.
  case: ifP => // li; last by rewrite E1j.
  rewrite E1j // !E1c //; congr (_ - _ * _ / _); apply: eq_big_nat => l hl.
  by rewrite E1c ?E1j //; lia.
move=> v1 Hv1; apply: repr_ext Hv1 _ => i j hi hj; rewrite hj andbT addn1.
by case: (c < j)%N; case: (lo <= i)%N.
Qed.

Lemma gen_u_ok sd ud s U : repr1 n sd s -> repr m m ud U -> (forall l, (l < nct)%N -> okU U s l) ->
  wp (svd_gen_u (S:=S) m nct sd ud) (fun ud => exists2 U', repr m m ud U' & mxf m m U' = mprod (Hu U s) nct).
Proof.
move=> Hs Hud oU; rewrite /svd_gen_u; apply: wpe_bind.
apply: wpe_mono; last first.
  apply: (for_own (fun i j => j) (fun i j => (i == j)%:R) _ Hud); first by lia.
  move=> j u1 U1 hj Hu1 E1; apply: wpe_bind; apply: wpe_mono; last first.
    apply: (for_own (fun x y => if y == j then x else m) (fun _ _ => 0) _ Hu1) => //.
    move=> i u2 U2 hi Hu2 E2; apply: (wpe_repr_set Hu2); [by lia|by lia|] => u3 Hu3.
    apply: repr_ext Hu3 _ => x y hx hy; case: (altP (y =P j)) => [->|yj]; rewrite ?andbT ?andbF //.
    by iflia.
  move=> u2 Hu2; cbn beta in Hu2; apply: (wpe_repr_set Hu2); [by lia|by lia|] => u3 Hu3.
  apply: repr_ext Hu3 _ => x y hx hy; exs; case: (altP (y =P j)) => [->|yj]; rewrite ?andbT ?andbF.
    by rewrite hx; case: eqP.
  by iflia.
move=> u1 Hu1; cbn beta in Hu1.
pose K k Uc := (fun i j => if (j < k)%N then (i == j)%:R else Uc i j) : nat -> nat -> F.
apply: (wpe_for_rev (fun k ud => exists Uc, [/\ repr m m ud Uc,
   forall i j, (i < m)%N -> (j < k)%N -> Uc i j = U i j, forall i j, (i < k)%N -> (k <= j < m)%N -> Uc i j = 0
   & mprod (Hu U s) nct = mprod (Hu U s) k *m mxf m m (K k Uc)])) => //.
- exists (fun i j => if (nct <= j < m)%N then (i == j)%:R else U i j); split=> //.
  + by move=> i j hi hj; iflia.
  + by move=> i j hi hj; rewrite hj; have -> : (i == j) = false by lia.
  + rewrite [mxf _ _ _](_ : _ = 1%:M) ?mulmx1 //; apply/matrixP => i j; rewrite !mxE /K.
    by rewrite ltn_ord andbT; case: ltnP.
- move=> k ud2 hk [Uc [Hu2 Uc1 Uc2 UE]].
  have kn : (k < n)%N by lia.
  have km : (k < m)%N by lia.
  rewrite (repr1_get Hs) //; cbn [bind]; change (@s_eqb S (s k) (n_zero S)) with (s k == 0).
  have oUk := oU k.
  case: (altP (s k =P 0)) => sk; cbn [negb].
    apply: wpe_bind; apply: wpe_mono; last first.
      apply: (for_own (fun x y => if y == k then x else m) (fun _ _ => 0) _ Hu2) => //.
      move=> i u3 U3 hi Hu3 E3; apply: (wpe_repr_set Hu3); [by lia|by lia|] => u4 Hu4.
      apply: repr_ext Hu4 _ => x y hx hy; case: (altP (y =P k)) => [->|yk]; rewrite ?andbT ?andbF //.
      by iflia.
    move=> u3 Hu3; cbn beta in Hu3; apply: (wpe_repr_set Hu3); [by lia|by lia|] => u4 Hu4.
    exists (fun i j => if j == k then (i == k)%:R else Uc i j); split=> //.
    + apply: repr_ext Hu4 _ => x y hx hy; exs; case: (altP (y =P k)) => [->|yk]; rewrite ?andbT ?andbF.
        by rewrite hx; case: eqP.
      by iflia.
    + by move=> i j hi hj; iflia; rewrite Uc1 //; lia.
    + move=> i j hi hj; case: eqP => [_|jk]; first by have -> : (i == k) = false by lia.
      by rewrite Uc2 //; lia.
    rewrite UE /= [Hu U s k](_ : _ = 1%:M) ?mulmx1; last by rewrite /Hu sk eqxx /house eqxx.
    congr (_ *m _); apply/matrixP => i j; rewrite !mxE /K; case: (ltngtP j k) => jk.
    + by iflia.
    + by iflia.
    + by rewrite jk ltnSn.
  have [] := oUk _ sk; first by lia.
  move=> u0 uu.
  have UcU i : (i < m)%N -> Uc i k = U i k by move=> im; rewrite Uc1.
  apply: wpe_bind; apply: wpe_mono; last by apply: (@refl_cols_ok noerr m m k k _ _ km km Hu2); rewrite UcU.
  move=> u3 Hu3; cbn beta in Hu3.
  apply: wpe_bind; apply: wpe_mono; last first.
    apply: (for_own (fun x y => if y == k then x else m) (fun i _ => - U i k) _ Hu3); first by lia.
    move=> i u4 U4 hi Hu4 E4; rewrite (repr_get Hu4); [|by lia|by lia].
    cbn [bind]; apply: (wpe_repr_set Hu4); [by lia|by lia|] => u5 Hu5.
    apply: repr_ext Hu5 _ => x y hx hy; exs; case: (altP (y =P k)) => [->|yk]; rewrite ?andbT ?andbF; last by iflia.
    case: (altP (x =P i)) => [->|//]; rewrite E4 ?eqxx //; try lia.
    by rewrite ltnn /= UcU //; lia.
  move=> u4 Hu4; cbn beta in Hu4; rewrite (repr_get Hu4) // eqxx leqnn km; cbn [bind].
  apply: wpe_bind; apply: (wpe_repr_set Hu4); [by lia|by lia|] => u5 Hu5.
  apply: wpe_mono; last first.
    apply: (for_own (fun x y => if y == k then x else m) (fun _ _ => 0) _ Hu5) => //.
    move=> i u6 U6 hi Hu6 E6; apply: (wpe_repr_set Hu6); [by lia|by lia|] => u7 Hu7.
    apply: repr_ext Hu7 _ => x y hx hy; case: (altP (y =P k)) => [->|yk]; rewrite ?andbT ?andbF //.
    by iflia.
  move=> u6 Hu6; cbn beta in Hu6.
  pose U6 i j := if j == k then (i == k)%:R - padm k (fun i => U i k) i
     else if (k < j)%N && (k <= i)%N then Uc i j - U i k * (\sum_(k <= l < m) U l k * Uc l j) / U k k else Uc i j.
  exists U6; split.
  + apply: repr_ext Hu6 _ => i j hi hj; exs; rewrite /U6 /padm; case: (altP (j =P k)) => [->|jk]; rewrite ?andbT ?andbF.
      rewrite leq0n hi andbT; case: (ltngtP i k) => ik; first by rewrite subr0.
        by rewrite sub0r.
      by rewrite ik.
    iflia; iflia; rewrite UcU // UcU // (eq_big_nat _ _ (F2:=fun l => U l k * Uc l j)) // => l hl.
    by rewrite UcU //; lia.
  + by move=> i j hi hj; rewrite /U6; have -> : (j == k) = false by [lia]; iflia; rewrite Uc1 //; lia.
  + move=> i j hi hj; rewrite /U6 /padm; have -> : (i == k) = false by lia.
    have -> : (k <= i)%N = false by lia.
    rewrite andbF subr0; case: eqP => // jk; rewrite Uc2 //; lia.
  rewrite UE /= -mulmxA; congr (_ *m _); rewrite /Hu (negPf sk) house_lE //.
  apply/matrixP => i j; rewrite !mxE /K /U6 (padm_sum (n:=m)); last by lia.
  rewrite ltnS; case: (ltngtP j k) => jk.
  + rewrite big_nat big1 ?mulr0 ?mul0r ?subr0 // => l hl.
    by have -> : (l == j) = false by [lia]; rewrite mulr0.
  + rewrite /= /padm; case: (leqP k i) => ki /=; last by rewrite !mul0r subr0.
    by [].
  + rewrite jk (bigD1_seq k) /=; [|by rewrite mem_index_iota; lia|exact: iota_uniq].
    rewrite eqxx mulr1 big1 ?addr0; first by rewrite mulfK.
    by move=> l /negPf ->; rewrite mulr0.
move=> ud2 [Uc [Hu2 _ _ E]]; exists Uc => //; rewrite E /= mul1mx; apply/matrixP => i j; by rewrite !mxE.
Qed.

Lemma gen_v_ok ed vd e V : repr1 n ed e -> repr n n vd V -> (forall l, (l < n)%N -> okV V e l) ->
  wp (svd_gen_v (S:=S) n nrt ed vd) (fun vd => exists2 V', repr n n vd V' & mxf n n V' = mprod (Hv V e) n).
Proof.
move=> He Hvd oV; rewrite /svd_gen_v.
pose K k Vc := (fun i j => if (j < k)%N then (i == j)%:R else Vc i j) : nat -> nat -> F.
apply: (wpe_for_rev (fun k vd => exists Vc, [/\ repr n n vd Vc,
   forall i j, (i < n)%N -> (j < k)%N -> Vc i j = V i j, forall i j, (i < k)%N -> (k <= j < n)%N -> Vc i j = 0
   & mprod (Hv V e) n = mprod (Hv V e) k *m mxf n n (K k Vc)])) => //.
- exists V; split=> //; first by move=> i j _ hj; lia.
  rewrite [mxf _ _ _](_ : _ = 1%:M) ?mulmx1 //; apply/matrixP => i j; rewrite !mxE /K.
  by rewrite ltn_ord.
- move=> k vd2 hk [Vc [Hv2 Vc1 Vc2 VE]].
  have kn : (k < n)%N by lia.
  have oVk := oV k kn.
  have VcV i : (i < n)%N -> Vc i k = V i k by move=> im; rewrite Vc1.
  apply: (wpe_bind2 (P := fun x : F => (k < nrt)%N -> x = e k)).
    by case: ltnP => kr; [rewrite (repr1_get He)|].
  move=> x0 hx0.
  have -> : ((k < nrt)%N && ~~ @s_eqb S x0 (n_zero S)) = (k < nrt)%N && (e k != 0).
    by case: ltnP hx0 => //= _ /(_ isT) ->.
  pose Z i j := if [&& (k < nrt)%N && (e k != 0), (k < j)%N & (k < i)%N] then Vc i j - V i k * (\sum_(k.+1 <= l < n) V l k * Vc l j) / V k.+1 k else Vc i j.
  apply: (wpe_bind2 (P := fun vd => repr n n vd Z)).
    case: ifP => [h|h]; last by apply: wpe_ok; apply: repr_ext Hv2 _ => i j hi hj; rewrite /Z h.
    have [] := oVk; [by case/andP: h|by case/andP: h|] => v0 vv.
    have k1n : (k + 1 < n)%N by lia.
    apply: wpe_mono; last by apply: (@refl_cols_ok noerr n n (k + 1) k _ _ k1n kn Hv2); rewrite VcV // addn1.
    move=> v3 Hv3; apply: repr_ext Hv3 _ => i j hi hj; rewrite /Z h /= addn1; case: ifP => // _.
    rewrite !VcV //; last by lia.
    by rewrite (eq_big_nat _ _ (F2:=fun l => V l k * Vc l j)) // => l hl; rewrite VcV //; lia.
  move=> v3 Hv3; apply: wpe_bind; apply: wpe_mono; last first.
    apply: (for_own (fun x y => if y == k then x else n) (fun _ _ => 0) _ Hv3) => //.
    move=> i u3 U3 hi Hu3 E3; apply: (wpe_repr_set Hu3); [by lia|by lia|] => u4 Hu4.
    apply: repr_ext Hu4 _ => x y hx hy; case: (altP (y =P k)) => [->|yk]; rewrite ?andbT ?andbF //.
    by iflia.
  move=> v4 Hv4; cbn beta in Hv4; apply: (wpe_repr_set Hv4); [by lia|by lia|] => v5 Hv5.
  exists (fun i j => if j == k then (i == k)%:R else Z i j); split=> //.
  + apply: repr_ext Hv5 _ => x y hx hy; exs; case: (altP (y =P k)) => [->|yk]; rewrite ?andbT ?andbF.
      by rewrite hx; case: eqP.
    by iflia.
  + move=> i j hi hj; rewrite /Z; have -> : (k < j)%N = false by lia.
    by rewrite andbF /= Vc1 //; [iflia|lia].
  + move=> i j hi hj; case: eqP => [_|jk]; first by have -> : (i == k) = false by lia.
    rewrite /Z; have -> : (k < i)%N = false by lia.
    rewrite !andbF Vc2 //; lia.
  rewrite VE /= -mulmxA; congr (_ *m _); rewrite /Hv.
  case: ifP => h; last first.
    rewrite /house eqxx mul1mx; apply/matrixP => i j; rewrite !mxE /K /Z h /= ltnS.
    by case: (ltngtP j k) => jk //; rewrite jk.
  have [] := oVk; [by case/andP: h|by case/andP: h|] => v0 vv.
  rewrite house_lE //; apply/matrixP => i j; rewrite !mxE /K /Z h (padm_sum (n:=n)); last by lia.
  rewrite ltnS; case: (ltngtP j k) => jk /=.
  + rewrite big_nat big1 ?mulr0 ?mul0r ?subr0 // => l hl.
    by have -> : (l == j) = false by [lia]; rewrite mulr0.
  + rewrite /padm; case: (leqP k.+1 i) => ki /=; last by rewrite !mul0r subr0.
    by [].
  + rewrite jk big_nat big1 ?mulr0 ?mul0r ?subr0 // => l hl.
    by have -> : (l == k) = false by [lia]; rewrite mulr0.
move=> ud2 [Vc [Hv2 _ _ E]]; exists Vc => //; rewrite E /= mul1mx; apply/matrixP => i j; by rewrite !mxE.
Qed.

Lemma bidiag_loop_ok ad sd ud vd ed wd a s U V e w :
  repr m n ad a -> repr1 n sd s -> repr m m ud U -> repr n n vd V -> repr1 n ed e -> repr1 m wd w ->
  wp (for_ 0 (maxn nct nrt) (svd_bidiag_step (S:=S) m n nct nrt) (Bidiag (S:=S) ad sd ud vd ed wd)) (bd_inv (mxf m n a) nct).
Proof.
move=> Ha Hs Hud Hvd He Hw; have -> : maxn nct nrt = nct by lia.
apply: (wpe_for (bd_inv (mxf m n a))) => //.
- exists a, s, U, V, e, w; split=> //; split=> //.
  by rewrite /= trmx1 mulmx1 mul1mx; apply/matrixP => i j; rewrite !mxE /Wf.
- by move=> k st hk H; apply: bidiag_step_ok => //; lia.
Qed.

(** phase 1 as a whole *)
Lemma phase1_ok ad sd ud vd ed wd a s U V e w (T : Type) (E : err -> Prop) (k : seq F -> seq F -> seq F -> seq F -> res T) Q :
  repr m n ad a -> repr1 n sd s -> repr m m ud U -> repr n n vd V -> repr1 n ed e -> repr1 m wd w ->
  (forall sd ed ud vd s e U V, repr1 n sd s -> repr1 n ed e -> repr m m ud U -> repr n n vd V ->
     e n.-1 = 0 -> orthogonal (mxf m m U) -> orthogonal (mxf n n V) ->
     mxf m n a = mxf m m U *m mxf m n (bidf s e) *m (mxf n n V)^T -> wpe E (k sd ed ud vd) Q) ->
  wpe E (st <-- for_ 0 (maxn nct nrt) (svd_bidiag_step (S:=S) m n nct nrt) (Bidiag (S:=S) ad sd ud vd ed wd) ;;
   '(sdata, edata) <-- svd_final_bidiag m n nct nrt n (b_a st) (b_s st) (b_e st) ;;
   udata <-- svd_gen_u m nct sdata (b_u st) ;;
   vdata <-- svd_gen_v n nrt edata (b_v st) ;;
   k sdata edata udata vdata) Q.
Proof.
move=> Ha Hs Hud Hvd He Hw HQ.
have [st -> Ist] := (proj1 (wp_ex _ _) (bidiag_loop_ok Ha Hs Hud Hvd He Hw)).
move: Ist => [a1 [s1 [U1 [V1 [e1 [w1 [[Ha1 Hs1 Hu1 Hv1 [He1 _]] [oU oV AE]]]]]]]]; cbn [bind].
have [[sd2 ed2] -> [s2 [e2 [Hs2 He2 sE eE [en BE]]]]] := (proj1 (wp_ex _ _) (final_bidiag_ok Ha1 Hs1 He1)).
cbn [fst snd] in Hs2, He2; cbn [bind].
have oU2 l : (l < nct)%N -> okU U1 s2 l.
  by move=> hl; apply: (@okU_ext U1 s1); [lia|rewrite sE|by []|exact: oU].
have oV2 l : (l < n)%N -> okV V1 e2 l.
  by move=> hl h; apply: (@okV_ext V1 e1) (h) => //; [rewrite eE|apply: oV; lia].
have [ud3 -> [U3 Hu3 UE]] := (proj1 (wp_ex _ _) (gen_u_ok Hs2 Hu1 oU2)); cbn [bind].
have [vd3 -> [V3 Hv3 VE]] := (proj1 (wp_ex _ _) (gen_v_ok He2 Hv1 oV2)); cbn [bind].
apply: (HQ sd2 ed2 ud3 vd3 s2 e2 U3 V3) => //.
- by rewrite UE; apply: mprod_orth => l hl; apply: Hu_orth; [lia|exact: oU2].
- by rewrite VE; apply: mprod_orth => l hl; apply: Hv_orth; [lia|exact: oV2].
rewrite AE UE VE BE; congr (_ *m _ *m _^T).
  by apply: mprod_ext => l hl; apply: Hu_ext => //; [lia|rewrite sE].
have -> : mprod (Hv V1 e2) n = mprod (Hv V1 e2) nct.
  have Hl d : (nct + d <= n)%N -> mprod (Hv V1 e2) (nct + d) = mprod (Hv V1 e2) nct.
    elim: d => [|d IH] hd; first by rewrite addn0.
    rewrite addnS /= IH; last by lia.
    rewrite [Hv _ _ _](_ : _ = 1%:M) ?mulmx1 // /Hv.
    by have -> : (nct + d < nrt)%N = false by [lia]; rewrite /house eqxx.
  by rewrite -(Hl (n - nct)%N); [congr mprod; lia|lia].
apply: mprod_ext => l hl.
case: (ltnP l nrt) => lr; first by apply: Hv_ext => //; [lia|rewrite eE].
by rewrite /Hv; have -> : (l < nrt)%N = false by lia.
Qed.

End Bidiag.
