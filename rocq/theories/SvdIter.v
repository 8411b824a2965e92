(** * SvdIter: the main iteration of SVD::new (svd.rs:224-418) *)
From mathcomp Require Import all_ssreflect all_algebra zify ring.
From Verif Require Import Base Scalar Hoare ModelMatrix ModelHypot ModelSVD Spec SpecDecomp LUProofs LUThms MiscThms Orth TredProofs TqlProofs OrthesProofs SvdBidiag.

Set Implicit Arguments.
Unset Strict Implicit.
Unset Printing Implicit Defensive.
Import Order.TTheory GRing.Theory Num.Theory.
Local Open Scope ring_scope.

Section Iter.
Variable F : rcfType.
Variables eps tiny : F.
Hypothesis eps0 : 0 <= eps.
Hypothesis tiny0 : 0 <= tiny.
Local Notation S := (exactE eps tiny).
Variables m n : nat.
Hypothesis nm : (n <= m)%N.
Hypothesis n0 : (0 < n)%N.
Implicit Types (f U V : nat -> nat -> F) (s e : nat -> F).

(** *** rotations *)
Lemma rot_cols_ok (E : err -> Prop) h w j l cc ss v f : (j < w)%N -> (l < w)%N -> j != l -> repr h w v f ->
  wpe E (rot_cols (S:=S) h w j l cc ss v) (fun v => repr h w v (rot2 j l cc ss f)).
Proof.
move=> jw lw jl Hv; rewrite /rot_cols; apply: wpe_mono; last first.
  apply: (for_own (fun a b => if (b == j) || (b == l) then a else h) (rot2 j l cc ss f) _ Hv) => //.
  move=> k v1 f1 hk Hv1 E1.
  rewrite (repr_get Hv1); [|by nl F|by nl F]; cbn [bind].
  rewrite (repr_get Hv1); [|by nl F|by nl F]; cbn [bind].
  apply: wpe_bind; apply: (wpe_repr_set Hv1); [by nl F|by nl F|] => v2 Hv2.
  apply: (wpe_repr_set Hv2); [by nl F|by nl F|] => v3 Hv3; apply: repr_ext Hv3 _ => a b ha hb.
  have E1' b' : (b' < w)%N -> (b' == j) || (b' == l) -> f1 k b' = f k b'.
    by move=> hb' hh; rewrite E1 //; rewrite hh eqxx.
  exs; rewrite /rot2; case: (altP (b =P j)) => [->|bi] /=.
    rewrite andbT; case: (altP (a =P k)) => [->|ak].
      by rewrite !E1' ?eqxx ?orbT //.
    by rewrite (negPf jl) andbF.
  rewrite andbF; case: (altP (b =P l)) => [->|bk] /=.
    rewrite andbT; case: (altP (a =P k)) => [->|ak] //.
    by rewrite !E1' ?eqxx ?orbT //; rewrite mulNr addrC.
  by rewrite andbF; have -> : (h == k) = false by nl F.
move=> v' Hv'; apply: repr_ext Hv' _ => a b ha hb; rewrite leq0n /=.
case: (altP (b =P j)) => [->|bi] /=; first by rewrite ha.
case: (altP (b =P l)) => [->|bk] /=; first by rewrite ha.
by rewrite ltnn /rot2 (negPf bi) (negPf bk).
Qed.

Definition PM U f V : 'M[F]_(m, n) := mxf m m U *m mxf m n f *m (mxf n n V)^T.

Lemma PM_ext U f f' V : (forall i j, (i < m)%N -> (j < n)%N -> f i j = f' i j) -> PM U f V = PM U f' V.
Proof. by move=> H; rewrite /PM; congr (_ *m _ *m _); apply/matrixP => i j; rewrite !mxE H. Qed.

Lemma PM_rotV U f V j l cc ss : (j < n)%N -> (l < n)%N -> j != l -> cc * cc + ss * ss = 1 ->
  orthogonal (mxf n n V) ->
  orthogonal (mxf n n (rot2 j l cc ss V)) /\ PM U (rot2 j l cc ss f) (rot2 j l cc ss V) = PM U f V.
Proof.
move=> jn ln jl cs1 o; have [g1 g2] := givens_orth jn ln jl cs1.
rewrite /PM -!givens_rE //; split; first by apply: orthogonalM.
by rewrite trmx_mul -!mulmxA (mulmxA (givens n j l cc ss)) g2 mul1mx.
Qed.

Lemma PM_rotU U f V j l cc ss : (j < m)%N -> (l < m)%N -> j != l -> cc * cc + ss * ss = 1 ->
  orthogonal (mxf m m U) ->
  orthogonal (mxf m m (rot2 j l cc ss U)) /\ PM (rot2 j l cc ss U) (fun i q => rot2 j l cc ss (fun x y => f y x) q i) V = PM U f V.
Proof.
move=> jn ln jl cs1 o; have [g1 g2] := givens_orth jn ln jl cs1.
rewrite /PM -givens_lE // -!givens_rE //; split; first by apply: orthogonalM.
by rewrite mulmxA -(mulmxA (mxf m m U)) g2 mulmx1.
Qed.

Lemma fro_PM U f V : orthogonal (mxf m m U) -> orthogonal (mxf n n V) -> fro (PM U f V) = fro (mxf m n f).
Proof. by move=> oU oV; rewrite /PM fro_orth_r ?fro_orth_l //; apply: orthogonalT. Qed.

Lemma hyp_facts (x y : F) : y != 0 -> let t := Num.sqrt (x ^+ 2 + y ^+ 2) in
  [/\ t != 0, x / t * (x / t) + y / t * (y / t) = 1, x / t * x + y / t * y = t & x / t * y = y / t * x].
Proof.
move=> y0 t.
have y2 : 0 < y ^+ 2 by rewrite lt_def sqrf_eq0 y0 sqr_ge0.
have p : 0 < x ^+ 2 + y ^+ 2 by apply: ltr_paddl => //; exact: sqr_ge0.
have t0 : t != 0 by rewrite /t sqrtr_eq0 -ltNge.
have tt : t * t = x * x + y * y by rewrite -!expr2 sqr_sqrtr // ltW.
split=> //.
- have -> : x / t * (x / t) + y / t * (y / t) = (x * x + y * y) / (t * t) by field.
  by rewrite -tt divff // mulf_neq0.
- have -> : x / t * x + y / t * y = (x * x + y * y) / t by field.
  by rewrite -tt mulfK.
- by field.
Qed.

(** the bidiagonal matrix with one further entry *)
Definition bul s e (r c : nat) (x : F) i j : F := if (i == r) && (j == c) then x else bidf s e i j.

(** e' has no non-zero entry where e has none *)
Definition sub0 e' e := forall i, e' i != 0 -> e i != 0.

(** *** kase 1 *)
Lemma kase1_rot k j p s e (x : F) (t cs sn : F) : (k <= j)%N -> (j.+1 < p <= n)%N -> s p.-1 = 0 -> e p.-2 = 0 ->
  cs * s j + sn * x = t -> cs * x = sn * s j -> ((0 < k)%N -> e k.-1 = 0) ->
  forall a b, (a < m)%N -> (b < n)%N ->
  rot2 j p.-1 cs sn (bul s e j p.-1 x) a b =
  (if (k < j)%N then bul (upd s j t) (upd e j.-1 (cs * e j.-1)) j.-1 p.-1 (- sn * e j.-1) else bidf (upd s j t) e) a b.
Proof.
move=> kj jp sp ep E1 E2 ek a b am bn.
have kk : (j <= k)%N -> (0 < k)%N -> e j.-1 = 0 by move=> h h1; rewrite -ek //; congr e; nl F.
have colp a' : bidf s e a' p.-1 = 0.
  rewrite /bidf; case: eqP => [<- //|h]; case: eqP => // h'; rewrite -[RHS]ep; congr e; nl F.
rewrite /rot2 /bul colp.
case: (altP (b =P j)) => [->|bj].
  case: (altP (a =P j)) => [->|aj].
    by case: (k < j)%N; rewrite /bidf /upd; iflia.
  case: (altP (a.+1 =P j)) => [aj1|aj1].
    have -> : a = j.-1 by nl F.
    case: (ltnP k j) => h; rewrite /bidf /upd; iflia; rewrite ?mulr0 ?addr0 //.
    by rewrite kk ?mulr0 //; nl F.
  by case: (ltnP k j) => h; rewrite /bidf /upd; iflia; rewrite ?mulr0 ?addr0.
case: (altP (b =P p.-1)) => [->|bp].
  case: (altP (a =P j)) => [->|aj].
    case: (ltnP k j) => h; rewrite /bidf /upd; iflia; rewrite E2 subrr //; case: eqP => // pj; rewrite -[LHS]ep; try congr e; try nl F.
  case: (altP (a.+1 =P j)) => [aj1|aj1].
    have -> : a = j.-1 by nl F.
    case: (ltnP k j) => h; first by rewrite /bidf /upd; iflia; rewrite mulr0 sub0r mulNr.
    have -> : bidf s e j.-1 j = 0 by rewrite /bidf; iflia; rewrite kk //; nl F.
    rewrite !mulr0 subrr -(colp j.-1) /bidf /upd; by iflia.
  have -> : bidf s e a j = 0 by rewrite /bidf; iflia.
  rewrite /= !mulr0 subrr -(colp a); case: (ltnP k j) => h; rewrite /bidf /upd; iflia; by iflia.
rewrite ?andbF; case: (ltnP k j) => h; rewrite /bidf /upd /=; last by case: eqP => // ba; iflia.
case: eqP => // [h0|h1]; first by iflia.
by case: eqP => // h2; iflia.
Qed.


Lemma upd_eq s k x : upd s k x k = x. Proof. by rewrite /upd eqxx. Qed.
Lemma upd_ne s k x i : i != k -> upd s k x i = s i. Proof. by rewrite /upd => /negPf ->. Qed.

Lemma kase1_ok k p sd ed vd s e U V : (k.+1 < p <= n)%N ->
  repr1 n sd s -> repr1 n ed e -> repr n n vd V -> orthogonal (mxf n n V) -> s p.-1 = 0 ->
  (forall i, (k <= i < p.-1)%N -> e i != 0) -> ((0 < k)%N -> e k.-1 = 0) ->
  wp (svd_kase1 (S:=S) n k p sd ed vd) (fun st => exists s' e' V',
    [/\ repr1 n st.1.1 s', repr1 n st.1.2 e', repr n n st.2 V' & orthogonal (mxf n n V')] /\
    [/\ PM U (bidf s' e') V' = PM U (bidf s e) V, sub0 e' e, e' p.-2 = 0 & forall i, (p <= i)%N -> s' i = s i]).
Proof.
move=> kp Hs He HV oV sp ene ek; rewrite /svd_kase1 /usub.
have -> : (2 <= p)%N by nl F.
rewrite subn2; cbn [bind]; rewrite (repr1_get He); last by nl F.
cbn [bind]; apply: wpe_bind; apply: (wpe_repr1_set He); [by nl F|] => ed1 He1.
apply: wpe_bind; rewrite subn1.
apply: (wpe_for_rev (fun k' (st : seq F * seq F * seq F * F) => exists s1 e1 V1,
  [/\ repr1 n st.1.1.1 s1, repr1 n st.1.1.2 e1, repr n n st.1.2 V1 & orthogonal (mxf n n V1)] /\
  [/\ PM U (if (k < k')%N then bul s1 e1 k'.-1 p.-1 st.2 else bidf s1 e1) V1 = PM U (bidf s e) V,
    (k < k')%N -> st.2 != 0, s1 p.-1 = 0 & e1 p.-2 = 0] /\
  [/\ forall i, (i < k'.-1)%N -> e1 i = e i, sub0 e1 e & forall i, (p <= i)%N -> s1 i = s i])); first by nl F.
- exists s, (upd e p.-2 0), V; split=> //; split.
    split=> //; last by rewrite upd_eq.
      have -> : (k < p.-1)%N by nl F.
      apply: PM_ext => i j hi hj; rewrite /bul /bidf /upd /=; case: (altP (i =P p.-2)) => [->|ip] /=; last first.
        by case: eqP => //; case: eqP.
      case: (altP (j =P p.-1)) => [->|jp]; first by iflia; congr e; nl F.
      by case: eqP => // h; iflia.
    by move=> h; apply: ene; nl F.
  split=> // i; first by move=> hi; rewrite upd_ne //; nl F.
  by rewrite /upd; case: (i == _); rewrite ?eqxx.
- move=> j [[[sd2 ed2] vd2] f] hj [s1 [e1 [V1 [[Hs2 He2 HV2 oV2]]]]]; cbn [fst snd] in Hs2, He2, HV2.
  cbn [fst snd]; have -> : (k < j.+1)%N by nl F.
  rewrite -pred_Sn => -[[PE fne sp1 ep1] [eE e1s s1E]]; move/(_ isT): fne => fne.
  rewrite (repr1_get Hs2); last by nl F.
  cbn [bind]; rewrite hypot_ok_L; cbn [bind].
  have [t0 t1 t2 t3] := hyp_facts (s1 j) fne.
  set t := Num.sqrt _ in t0 t1 t2 t3 *; exs; rewrite (negPf t0); cbn [bind].
  apply: wpe_bind; apply: (wpe_repr1_set Hs2); [by nl F|] => sd3 Hs3.
  have PR := @kase1_rot k j p s1 e1 f t (s1 j / t) (f / t) _ _ sp1 ep1 t2 t3 _.
  have ek1 : (0 < k)%N -> e1 k.-1 = 0.
    by move=> h; rewrite -[RHS]ek // eE //; nl F.
  have {}PR := PR _ _ ek1.
  have jn : (j < n)%N by nl F.
  have pn : (p.-1 < n)%N by nl F.
  have jp : j != p.-1 by nl F.
  have [oV3 PE3] := PM_rotV U (bul s1 e1 j p.-1 f) jn pn jp t1 oV2.
  rewrite (PM_ext _ _ (PR _ _)) in PE3; [|by nl F|by nl F].
  case: (altP (j =P k)) => [jk|jk]; cbn [negb bind].
    apply: wpe_bind; apply: wpe_mono (rot_cols_ok _ _ _ jn pn jp HV2) => vd3 HV3.
    apply: wpe_ok; cbn [fst snd]; exists (upd s1 j t), e1, (rot2 j p.-1 (s1 j / t) (f / t) V1).
    rewrite jk ltnn; split=> //; first by rewrite -jk; split.
    split; last first.
      split=> // i hi; first by apply: eE; nl F.
      by rewrite upd_ne ?s1E //; nl F.
    split=> //; last by rewrite upd_ne //; nl F.
    by rewrite -PE -PE3 jk ltnn.
  have kj : (k < j)%N by nl F.
  rewrite (repr1_get He2); last by nl F.
  cbn [bind]; apply: wpe_bind; apply: wpe_bind; apply: (wpe_repr1_set He2); [by nl F|] => ed3 He3.
  apply: wpe_ok; apply: wpe_bind; apply: wpe_mono (rot_cols_ok _ _ _ jn pn jp HV2) => vd3 HV3.
  apply: wpe_ok; cbn [fst snd]; rewrite subn1 in He3 *.
  exists (upd s1 j t), (upd e1 j.-1 (s1 j / t * e1 j.-1)), (rot2 j p.-1 (s1 j / t) (f / t) V1).
  rewrite kj in PE3 *; split=> //; split.
    split=> //; [by rewrite -PE -PE3| |by rewrite upd_ne //; nl F|by rewrite upd_ne //; nl F].
    move=> _; rewrite mulf_neq0 // ?oppr_eq0 ?mulf_neq0 ?invr_eq0 //.
    by rewrite eE ?ene //; nl F.
  split=> i.
  - by move=> hi; rewrite upd_ne ?eE //; nl F.
  - rewrite /upd; case: (altP (i =P j.-1)) => [->|_]; last exact: e1s.
    by rewrite mulf_eq0 => /norP [_ /e1s].
  - by move=> hi; rewrite upd_ne ?s1E //; nl F.
move=> [[[sd2 ed2] vd2] f] [s1 [e1 [V1 [[Hs2 He2 HV2 oV2]]]]]; cbn [fst snd] in Hs2, He2, HV2.
rewrite ltnn => -[[PE _ _ ep1] [_ e1s s1E]]; cbn [fst snd] in PE.
by apply: wpe_ok; exists s1, e1, V1.
Qed.


(** *** kase 2 *)
Lemma kase2_rot k0 j s e (x : F) (t cs sn : F) : (k0 < j)%N -> s k0 = 0 -> e k0 = 0 ->
  cs * s j + sn * x = t -> cs * x = sn * s j ->
  forall a b, (a < m)%N -> (b < n)%N ->
  rot2 j k0 cs sn (fun x' y => bul s e k0 j x y x') b a =
  bul (upd s j t) (upd e j (cs * e j)) k0 j.+1 (- sn * e j) a b.
Proof.
move=> kj sp ep E1 E2 a b am bn.
have rowk b' : bidf s e k0 b' = 0 by rewrite /bidf sp ep !if_same.
rewrite /rot2 /bul rowk !eqxx /=.
case: (altP (a =P j)) => [->|aj].
  have -> : (j == k0) = false by nl F.
  rewrite /=; case: (altP (b =P j)) => [->|bj]; first by rewrite /bidf /upd !eqxx.
  case: (altP (b =P j.+1)) => [->|bj1]; rewrite /bidf /upd; iflia; by rewrite ?mulr0 addr0.
case: (altP (a =P k0)) => [->|ak] /=.
  have -> : (j == k0) = false by nl F.
  rewrite /=; case: (altP (b =P j)) => [->|bj]; first by rewrite /bidf /upd; iflia; rewrite E2 subrr ep if_same.
  case: (altP (b =P j.+1)) => [->|bj1]; first by rewrite /bidf; iflia; rewrite mulr0 sub0r mulNr.
  by rewrite /bidf /upd; iflia; rewrite !mulr0 subrr sp ep !if_same.
by rewrite /bidf /upd (negPf aj).
Qed.

Lemma kase2_ok k p sd ed ud s e U V : (0 < k < p)%N -> (p <= n)%N ->
  repr1 n sd s -> repr1 n ed e -> repr m m ud U -> orthogonal (mxf m m U) -> s k.-1 = 0 ->
  (forall i, (k.-1 <= i < p.-1)%N -> e i != 0) -> e p.-1 = 0 ->
  wp (svd_kase2 (S:=S) m k p sd ed ud) (fun st => exists s' e' U',
    [/\ repr1 n st.1.1 s', repr1 n st.1.2 e', repr m m st.2 U' & orthogonal (mxf m m U')] /\
    [/\ PM U' (bidf s' e') V = PM U (bidf s e) V, sub0 e' e, e' k.-1 = 0 & forall i, (p <= i)%N -> s' i = s i]).
Proof.
move=> kp pn Hs He HU oU sk ene ep; rewrite /svd_kase2 /usub.
have -> : (1 <= k)%N by nl F.
rewrite subn1; cbn [bind]; rewrite (repr1_get He); last by nl F.
cbn [bind]; apply: wpe_bind; apply: (wpe_repr1_set He); [by nl F|] => ed1 He1.
apply: wpe_bind.
apply: (wpe_for (fun j (st : seq F * seq F * seq F * F) => exists s1 e1 U1,
  [/\ repr1 n st.1.1.1 s1, repr1 n st.1.1.2 e1, repr m m st.1.2 U1 & orthogonal (mxf m m U1)] /\
  [/\ PM U1 (bul s1 e1 k.-1 j st.2) V = PM U (bidf s e) V,
    if (j < p)%N then st.2 != 0 else st.2 == 0, s1 k.-1 = 0 & e1 k.-1 = 0] /\
  [/\ forall i, (j <= i)%N -> e1 i = e i, sub0 e1 e & forall i, (p <= i)%N -> s1 i = s i])); first by nl F.
- exists s, (upd e k.-1 0), U; split=> //; split.
    split=> //; last by rewrite upd_eq.
      apply: PM_ext => i j hi hj; rewrite /bul /bidf /upd /=; case: (altP (i =P k.-1)) => [->|ip] /=; last first.
        by case: eqP => //; case: eqP.
      have -> : k.-1.+1 = k by nl F.
      by case: (altP (j =P k)) => [->|jp]; iflia.
    have -> : (k < p)%N by nl F.
    by apply: ene; nl F.
  split=> // i; first by move=> hi; rewrite upd_ne //; nl F.
  by rewrite /upd; case: (i == _); rewrite ?eqxx.
- move=> j [[[sd2 ed2] ud2] f] hj [s1 [e1 [U1 [[Hs2 He2 HU2 oU2]]]]]; cbn [fst snd] in Hs2, He2, HU2.
  cbn [fst snd]; have -> : (j < p)%N by nl F.
  move=> -[[PE fne sp1 ep1] [eE e1s s1E]].
  rewrite (repr1_get Hs2); last by nl F.
  cbn [bind]; rewrite hypot_ok_L; cbn [bind].
  have [t0 t1 t2 t3] := hyp_facts (s1 j) fne.
  set t := Num.sqrt _ in t0 t1 t2 t3 *; exs; rewrite (negPf t0); cbn [bind].
  apply: wpe_bind; apply: (wpe_repr1_set Hs2); [by nl F|] => sd3 Hs3.
  have kj : (k.-1 < j)%N by nl F.
  have PR := kase2_rot kj sp1 ep1 t2 t3.
  have jm : (j < m)%N by nl F.
  have km : (k.-1 < m)%N by nl F.
  have jk : j != k.-1 by nl F.
  have [oU3 PE3] := PM_rotU (bul s1 e1 k.-1 j f) V jm km jk t1 oU2.
  rewrite (PM_ext _ _ PR) in PE3.
  rewrite (repr1_get He2); last by nl F.
  cbn [bind]; apply: wpe_bind; apply: (wpe_repr1_set He2); [by nl F|] => ed3 He3.
  apply: wpe_bind; apply: wpe_mono (rot_cols_ok _ _ _ jm km jk HU2) => ud3 HU3.
  apply: wpe_ok; cbn [fst snd].
  exists (upd s1 j t), (upd e1 j (s1 j / t * e1 j)), (rot2 j k.-1 (s1 j / t) (f / t) U1).
  split=> //; split.
    split=> //; [by rewrite -PE -PE3| |by rewrite upd_ne //; nl F|by rewrite upd_ne //; nl F].
    rewrite eE //; case: ifP => h.
      by rewrite mulf_neq0 // ?oppr_eq0 ?mulf_neq0 ?invr_eq0 // ene //; nl F.
    have -> : j = p.-1 by nl F.
    by rewrite ep mulr0.
  split=> i.
  - by move=> hi; rewrite upd_ne ?eE //; nl F.
  - rewrite /upd; case: (altP (i =P j)) => [->|_]; last exact: e1s.
    by rewrite mulf_eq0 => /norP [_ /e1s].
  - by move=> hi; rewrite upd_ne ?s1E //; nl F.
move=> [[[sd2 ed2] ud2] f] [s1 [e1 [U1 [[Hs2 He2 HU2 oU2]]]]]; cbn [fst snd] in Hs2, He2, HU2.
rewrite ltnn => -[[PE f0 _ ek1] [_ e1s s1E]]; cbn [fst snd] in PE, f0.
apply: wpe_ok; exists s1, e1, U1; split=> //; split=> //; rewrite -PE; apply: PM_ext => i j hi hj.
rewrite /bul; case: eqP => // ->; case: eqP => // ->; rewrite (eqP f0) /bidf.
by iflia.
Qed.


(** *** kase 3 *)
Lemma maxl (x y : F) : 0 < x -> 0 < (if x < y then y else x).
Proof. by move=> x0; case: (ltP x y) => // h; exact: lt_trans x0 h. Qed.
Lemma maxr (x y : F) : 0 < y -> 0 < (if x < y then y else x).
Proof. by move=> x0; case: (ltP x y) => // h; exact: lt_le_trans x0 h. Qed.

Lemma shift_ok k p sd ed s e : (k.+1 < p <= n)%N -> repr1 n sd s -> repr1 n ed e ->
  e p.-2 != 0 -> s k != 0 -> e k != 0 -> s p.-1 != 0 ->
  wp (svd_shift (S:=S) k p sd ed) (fun fg : F * F => exists mu q t : F,
    [/\ fg.2 != 0, fg.1 = q * (s k ^+ 2 - mu), fg.2 = q * s k * e k &
     [/\ 1 <= t ^+ 2, s p.-1 ^+ 2 - mu = s p.-1 * e p.-2 / t
       & s p.-2 ^+ 2 + e p.-2 ^+ 2 - mu = s p.-1 * e p.-2 * t]]).
Proof.
move=> kp Hs He ep sk ek sp; rewrite /svd_shift /usub.
have -> : (1 <= p)%N by nl F.
have -> : (2 <= p)%N by nl F.
rewrite subn1 subn2; cbn [bind].
rewrite (repr1_get Hs); last by nl F.
cbn [bind]; rewrite (repr1_get Hs); last by nl F.
cbn [bind]; rewrite (repr1_get He); last by nl F.
cbn [bind]; rewrite (repr1_get Hs); last by nl F.
cbn [bind]; rewrite (repr1_get He); last by nl F.
cbn [bind]; exs.
set scale := (if _ < `|e k| then _ else _).
have sc0 : scale != 0.
  have : 0 < scale by apply: maxl; apply: maxl; apply: maxr; rewrite normr_gt0.
  by rewrite lt0r => /andP[].
rewrite (negPf sc0); cbn [bind].
have -> : (2%:R == 0 :> F) = false by rewrite pnatr_eq0.
cbn [bind]; clearbody scale; set b := (_ / 2%:R); set c := _ * _ * (_ * _).
pose be := s p.-1 / scale * (e p.-2 / scale).
have be0 : be != 0 by rewrite !mulf_neq0 ?invr_eq0.
have cE : c = be ^+ 2 by rewrite expr2.
have c0 : 0 < c by rewrite cE lt_def sqrf_eq0 be0 sqr_ge0.
have -> : ~~ (b == 0) || ~~ (c == 0) by rewrite (gt_eqF c0) orbT.
have bb : 0 <= b * b by rewrite -expr2 sqr_ge0.
have p0 : 0 < b * b + c by rewrite ltr_paddl.
have -> : (b * b + c < 0) = false by apply/negbTE; rewrite -leNgt ltW.
cbn [bind]; set r0 := Num.sqrt _; have r00 : 0 < r0 by rewrite sqrtr_gt0.
set r := (if b < 0 then - r0 else r0).
have rr : r ^+ 2 = b ^+ 2 + c.
  by rewrite /r; case: ifP => _; rewrite ?sqrrN sqr_sqrtr ?expr2 // ltW.
have br : 0 <= b * r.
  rewrite /r; case: (ltP b 0) => h; last by rewrite mulr_ge0 // ltW.
  by rewrite mulrN oppr_ge0 mulr_le0_ge0 // ltW.
have nbr : b + r != 0.
  rewrite /r; case: (ltP b 0) => h; last by rewrite gt_eqF // ltr_paddl.
  by rewrite -oppr_eq0 opprD opprK gt_eqF // addr_gt0 // oppr_gt0.
rewrite (negPf nbr); cbn [bind]; apply: wpe_ok; cbn [fst snd].
set sh := c / (b + r).
exists (s p.-1 ^+ 2 - sh * scale ^+ 2), (scale ^- 2), ((b + r) / be); split.
- by rewrite !mulf_neq0 ?invr_eq0.
- by move: (sh) => z; field.
- by field.
split.
- rewrite expr_div_n ler_pdivl_mulr ?mul1r; last by rewrite lt_def sqrf_eq0 be0 sqr_ge0.
  rewrite -cE; have -> : (b + r) ^+ 2 = c + (b ^+ 2 + b ^+ 2 + (b * r + b * r)).
    have -> : (b + r) ^+ 2 = b ^+ 2 + r ^+ 2 + (b * r + b * r) by ring.
    by rewrite rr; ring.
  by rewrite ler_addl !addr_ge0 ?sqr_ge0.
- rewrite opprB addrC subrK /sh cE; have -> : s p.-1 * e p.-2 = be * scale ^+ 2 by rewrite /be; field.
  by move: (b + r) nbr (be) be0 => z z0 w w0; field; rewrite z0 w0.
- have -> : s p.-1 * e p.-2 = be * scale ^+ 2 by rewrite /be; field.
  have -> : be * scale ^+ 2 * ((b + r) / be) = scale ^+ 2 * (b + r) by field.
  have -> : s p.-2 ^+ 2 + e p.-2 ^+ 2 - (s p.-1 ^+ 2 - sh * scale ^+ 2) = scale ^+ 2 * (2%:R * b + sh).
    by rewrite /b; move: (sh) => z; field; rewrite sc0.
  congr (_ * _); rewrite /sh; apply: (mulIf nbr); rewrite mulrDl divfK //.
  have -> : c = r ^+ 2 - b ^+ 2 by rewrite rr addrC addKr.
  by ring.
Qed.

Lemma kase3_col k j s e (x g : F) (t cs sn : F) : (k <= j)%N ->
  ((k < j)%N -> cs * x + sn * g = t /\ cs * g = sn * x) -> ((0 < k)%N -> e k.-1 = 0) ->
  forall a b, (a < m)%N -> (b < n)%N ->
  rot2 j j.+1 cs sn (if (k < j)%N then bul s (upd e j.-1 x) j.-1 j.+1 g else bidf s e) a b =
  bul (upd (upd s j (cs * s j + sn * e j)) j.+1 (cs * s j.+1))
      (upd (if (k < j)%N then upd e j.-1 t else e) j (cs * e j - sn * s j)) j.+1 j (sn * s j.+1) a b.
Proof.
move=> kj E12 ek a b am bn.
have r0 : (if j.+1 == j then true else false) = false by iflia.
case: (ltnP k j) E12 => kj' E12.
  have [] := E12 isT => E1 E2; rewrite /rot2 /bul.
  case: (altP (b =P j)) => [->|bj].
    case: (altP (a =P j.-1)) => [->|aj1]; first by rewrite /bidf /upd; iflia.
    case: (altP (a =P j)) => [->|aj]; first by rewrite /bidf /upd; iflia.
    case: (altP (a =P j.+1)) => [->|aj2]; first by rewrite /bidf /upd; iflia; rewrite mulr0 add0r.
    by rewrite /bidf /upd; iflia; rewrite !mulr0 addr0.
  case: (altP (b =P j.+1)) => [->|bj1].
    case: (altP (a =P j.-1)) => [->|aj1]; first by rewrite /bidf /upd; iflia; rewrite E2 subrr.
    case: (altP (a =P j)) => [->|aj]; first by rewrite /bidf /upd; iflia.
    case: (altP (a =P j.+1)) => [->|aj2]; first by rewrite /bidf /upd; iflia; rewrite mulr0 subr0.
    by rewrite /bidf /upd; iflia; rewrite !mulr0 subr0.
  rewrite !andbF /bidf /upd; case: (altP (b =P a)) => ba; first by iflia.
  by case: (altP (b =P a.+1)) => [ba1|//]; iflia.
have e0 : forall a, j = a.+1 -> e a = 0.
  by move=> a' h; rewrite -[RHS]ek; [congr e; nl F|nl F].
rewrite /rot2 /bul.
case: (altP (b =P j)) => [->|bj].
  case: (altP (a =P j)) => [->|aj]; first by rewrite /bidf /upd; iflia.
  case: (altP (a =P j.+1)) => [->|aj2]; first by rewrite /bidf /upd; iflia; rewrite mulr0 add0r.
  case: (altP (j =P a.+1)) => [ja|ja]; first by rewrite /bidf /upd; iflia; rewrite e0 // !mulr0 addr0.
  by rewrite /bidf /upd; iflia; rewrite !mulr0 addr0.
case: (altP (b =P j.+1)) => [->|bj1].
  case: (altP (a =P j)) => [->|aj]; first by rewrite /bidf /upd; iflia.
  case: (altP (a =P j.+1)) => [->|aj2]; first by rewrite /bidf /upd; iflia; rewrite mulr0 subr0.
  case: (altP (j =P a.+1)) => [ja|ja]; first by rewrite /bidf /upd; iflia; rewrite e0 // !mulr0 subr0.
  by rewrite /bidf /upd; iflia; rewrite !mulr0 subr0.
rewrite !andbF /bidf /upd; case: (altP (b =P a)) => ba; first by iflia.
by case: (altP (b =P a.+1)) => [ba1|//]; iflia.
Qed.

Lemma kase3_row j s e (g : F) (t cs sn : F) : 
  cs * s j + sn * g = t -> cs * g = sn * s j ->
  forall a b, (a < m)%N -> (b < n)%N ->
  rot2 j j.+1 cs sn (fun x y => bul s e j.+1 j g y x) b a =
  bul (upd (upd s j t) j.+1 (- sn * e j + cs * s j.+1))
      (upd (upd e j.+1 (cs * e j.+1)) j (cs * e j + sn * s j.+1)) j j.+2 (sn * e j.+1) a b.
Proof.
move=> E1 E2 a b am bn; rewrite /rot2 /bul.
case: (altP (a =P j)) => [->|aj].
  case: (altP (b =P j)) => [->|bj]; first by rewrite /bidf /upd; iflia.
  case: (altP (b =P j.+1)) => [->|bj1]; first by rewrite /bidf /upd; iflia.
  case: (altP (b =P j.+2)) => [->|bj2]; first by rewrite /bidf /upd; iflia; rewrite mulr0 add0r.
  by rewrite /bidf /upd; iflia; rewrite !mulr0 addr0.
case: (altP (a =P j.+1)) => [->|aj1].
  case: (altP (b =P j)) => [->|bj]; first by rewrite /bidf /upd; iflia; rewrite E2 subrr.
  case: (altP (b =P j.+1)) => [->|bj1]; first by rewrite /bidf /upd; iflia; rewrite addrC mulNr.
  case: (altP (b =P j.+2)) => [->|bj2]; first by rewrite /bidf /upd; iflia; rewrite mulr0 subr0.
  by rewrite /bidf /upd; iflia; rewrite !mulr0 subr0.
by rewrite /= /bidf /upd (negPf aj) (negPf aj1).
Qed.


(** the scalars of one step of the chase: the implicit QR step on B B^T with shift mu.  sj is the current
    s_j, C e_j and G e_j the current e_j and the bulge; y is the last diagonal entry so far of the triangular
    factor of B B^T - mu, up to C e_j^2 *)
Lemma chase_scalar (sj C G y x g ej s1 mu t cs sn t' cs' sn' : F) :
  t != 0 -> t' != 0 -> cs * cs + sn * sn = 1 -> cs' * cs' + sn' * sn' = 1 ->
  cs * t = x -> sn * t = g -> g = G * ej -> sj * x = G * y -> sj ^+ 2 = mu + C * y ->
  cs' * t' = cs * sj + sn * (C * ej) -> sn' * t' = sn * s1 ->
  let D := cs * (C * ej) - sn * sj in
  let sj' := - sn' * D + cs' * (cs * s1) in
  let x' := cs' * D + sn' * (cs * s1) in
  let y' := cs' * (s1 ^+ 2 - mu) - sn' * (C * (s1 * ej)) in
  [/\ sj' * x' = sn' * y', sj' ^+ 2 = mu + cs' * y',
      sn' * (y + C * ej ^+ 2) = cs' * (s1 * ej) & t' * t * sn' = G * (s1 * ej)].
Proof.
move=> t0 t0' n1 n2 xE gE gG fG sM FE GE D sj' x' y'.
have c1 : cs * cs = 1 - sn * sn by rewrite -n1 addrK.
have c2 : cs' * cs' = 1 - sn' * sn' by rewrite -n2 addrK.
have Z : sn' * (cs * sj + sn * (C * ej)) = cs' * (sn * s1) by rewrite -FE -GE; ring.
have R1 : sj' * cs = s1 * cs' - ej * (sn' * C).
  apply/eqP; rewrite -subr_eq0; apply/eqP.
  have -> : sj' * cs - (s1 * cs' - ej * (sn' * C)) =
    (cs * cs - 1) * (cs' * s1 - sn' * (C * ej)) + sn * cs * (sn' * sj) by rewrite /sj' /D; ring.
  have -> : cs * cs - 1 = - (sn * sn) by rewrite c1; ring.
  have -> : - (sn * sn) * (cs' * s1 - sn' * (C * ej)) + sn * cs * (sn' * sj) =
    sn * (sn' * (cs * sj + sn * (C * ej)) - cs' * (sn * s1)) by ring.
  by rewrite Z subrr mulr0.
have H1 : t' * sj' = s1 * sj.
  have -> : t' * sj' = (cs' * t') * (cs * s1) - (sn' * t') * D by rewrite /sj'; ring.
  by rewrite FE GE /D; transitivity (s1 * sj * (cs * cs + sn * sn)); [ring|rewrite n1 mulr1].
have H2 : sj * D = - sn * mu.
  apply: (mulfI t0).
  have -> : t * (sj * D) = sj * (cs * t) * (C * ej) - (sn * t) * sj ^+ 2 by rewrite /D; ring.
  have -> : t * (- sn * mu) = - (sn * t) * mu by ring.
  by rewrite xE gE fG sM gG; ring.
have N1 : sj' * D = - sn' * mu.
  apply: (mulfI t0'); rewrite mulrA H1 -mulrA H2.
  have -> : t' * (- sn' * mu) = - (sn' * t') * mu by ring.
  by rewrite GE; ring.
have N2 : sj' * (cs * s1) = y' + cs' * mu by rewrite mulrA R1 /y'; ring.
split.
- have -> : sj' * x' = cs' * (sj' * D) + sn' * (sj' * (cs * s1)) by rewrite /x'; ring.
  by rewrite N1 N2; ring.
- have -> : sj' ^+ 2 = - sn' * (sj' * D) + cs' * (sj' * (cs * s1)) by rewrite expr2 {2}/sj'; ring.
  by rewrite N1 N2 mulrDr [cs' * (cs' * mu)]mulrA c2; ring.
- apply: (mulfI t0').
  have -> : t' * (sn' * (y + C * ej ^+ 2)) = (sn' * t') * (y + C * ej ^+ 2) by ring.
  have -> : t' * (cs' * (s1 * ej)) = (cs' * t') * (s1 * ej) by ring.
  rewrite FE GE; apply: (mulfI t0).
  have -> : t * (sn * s1 * (y + C * ej ^+ 2)) = (sn * t) * (s1 * (y + C * ej ^+ 2)) by ring.
  have -> : t * ((cs * sj + sn * (C * ej)) * (s1 * ej)) = sj * (cs * t) * (s1 * ej) + (sn * t) * (C * ej * (s1 * ej)) by ring.
  by rewrite xE gE fG gG; ring.
- have -> : t' * t * sn' = t * (sn' * t') by ring.
  by rewrite GE mulrA [t * sn]mulrC gE gG; ring.
Qed.

Local Notation chst := (seq F * seq F * seq F * seq F * F * F)%type.
Definition bt k s e j : F := if (k < j)%N then s j * e j.-1 else 0.
Definition sc_inv k s e (mu : F) j s1 e1 (x g : F) : Prop := exists C G y : F,
  [/\ g = G * e j, e1 j = C * e j, s1 j * x = G * y & s1 j ^+ 2 = mu + C * y] /\
  if j == k then C = 1 /\ y = s k ^+ 2 - mu else exists C1 G1 C3 : F,
    [/\ C ^+ 2 = 1 - G ^+ 2, C1 ^+ 2 = 1 - G1 ^+ 2, C3 ^+ 2 <= 1,
      y = C * (s j ^+ 2 - mu) - G * (C1 * bt k s e j) &
      G * (C1 * (s j.-1 ^+ 2 + e j.-1 ^+ 2 - mu) - G1 * (C3 * bt k s e j.-1)) = C * bt k s e j /\
      (s1 j.-1 * (if (k < j.-1)%N then e1 j.-2 else 0)) * G = G1 * bt k s e j].
Definition ch_inv k p s e (mu : F) (X : 'M[F]_(m, n)) j (st : chst) : Prop :=
  let '(sd, ed, ud, vd, x, g) := st in exists s1 e1 U1 V1,
  [/\ repr1 n sd s1, repr1 n ed e1, repr m m ud U1 & repr n n vd V1] /\
  [/\ orthogonal (mxf m m U1), orthogonal (mxf n n V1),
      PM U1 (if (k < j)%N then bul s1 (upd e1 j.-1 x) j.-1 j.+1 g else bidf s1 e1) V1 = X
    & if (j < p.-1)%N then g != 0 else g == 0] /\
  [/\ forall i, (j < i)%N -> s1 i = s i, forall i, (j < i)%N -> e1 i = e i,
      forall i, (i < k)%N || (p.-1 <= i)%N -> e1 i = e i & forall i, (p <= i)%N -> s1 i = s i] /\
  sc_inv k s e mu j s1 e1 x g.

Lemma chase_ok k p s e mu X j st : (k <= j)%N -> (j.+1 < p <= n)%N ->
  (forall i, (k <= i < p)%N -> s i != 0) -> (forall i, (k <= i < p.-1)%N -> e i != 0) -> e p.-1 = 0 -> ((0 < k)%N -> e k.-1 = 0) ->
  ch_inv k p s e mu X j st -> wp (svd_chase (S:=S) m n k j st) (ch_inv k p s e mu X j.+1).
Proof.
case: st => [[[[[sd ed] ud] vd] x] g] kj jp sne ene ep ek.
move=> [s1 [e1 [U1 [V1 [[Hs He HU HV] [[oU oV PE]]]]]]].
have -> : (j < p.-1)%N by nl F.
move=> g0 [[sE eE eO sO] SC]; rewrite /svd_chase; cbn beta iota zeta.
rewrite hypot_ok_L; cbn [bind].
have [t0 t1 t2 t3] := hyp_facts x g0.
set t := Num.sqrt _ in t0 t1 t2 t3 *.
set cs := x / t in t1 t2 t3; set sn := g / t in t1 t2 t3.
have sn0 : sn != 0 by rewrite mulf_neq0 ?invr_eq0.
have -> : n_div (n:=S) x t = Ok cs by exs; rewrite (negPf t0).
have -> : n_div (n:=S) g t = Ok sn by exs; rewrite (negPf t0).
cbn [bind].
pose e2 := if (k < j)%N then upd e1 j.-1 t else e1.
apply: (wpe_bind2 (P := fun ed => repr1 n ed e2)).
  rewrite /e2; case: (altP (j =P k)) => [->|jk]; cbn [negb]; first by rewrite ltnn; apply: wpe_ok.
  have -> : (k < j)%N by nl F.
  by rewrite subn1; apply: (wpe_repr1_set He); [nl F|].
move=> ed2 He2; rewrite (repr1_get Hs); last by nl F.
cbn [bind]; rewrite (repr1_get He2); last by nl F.
have e2j : e2 j = e1 j by rewrite /e2; case: ifP => // h; rewrite upd_ne //; nl F.
have e2j1 : e2 j.+1 = e1 j.+1 by rewrite /e2; case: ifP => // h; rewrite upd_ne //; nl F.
cbn [bind]; rewrite e2j; exs.
apply: wpe_bind; apply: (wpe_repr1_set He2); [by nl F|] => ed3 He3.
rewrite addn1 (repr1_get Hs); last by nl F.
cbn [bind]; apply: wpe_bind; apply: (wpe_repr1_set Hs); [by nl F|] => sd3 Hs3.
have jn : (j < n)%N by nl F.
have j1n : (j.+1 < n)%N by nl F.
have jj : j != j.+1 by nl F.
apply: wpe_bind; apply: wpe_mono (rot_cols_ok _ _ _ jn j1n jj HV) => vd3 HV3.
set FF := cs * s1 j + sn * e1 j; set G := sn * s1 j.+1.
have G0 : G != 0 by rewrite mulf_neq0 // sE // sne //; nl F.
have ek1 : (0 < k)%N -> e1 k.-1 = 0 by move=> h; rewrite -[RHS]ek // eO //; nl F.
have C := @kase3_col k j s1 e1 x g t cs sn kj (fun _ => conj t2 t3) ek1.
have [oV3 PE3] := PM_rotV U1 (if (k < j)%N then bul s1 (upd e1 j.-1 x) j.-1 j.+1 g else bidf s1 e1) jn j1n jj t1 oV.
rewrite (PM_ext _ _ C) PE -/FF -/G -/e2 in PE3.
set s3 := upd (upd s1 j FF) j.+1 (cs * s1 j.+1) in PE3.
set e3 := upd e2 j _ in PE3.
rewrite hypot_ok_L; cbn [bind].
have [u0 u1 u2 u3] := hyp_facts FF G0.
set t' := Num.sqrt _ in u0 u1 u2 u3 *.
set cs' := FF / t' in u1 u2 u3; set sn' := G / t' in u1 u2 u3.
have sn0' : sn' != 0 by rewrite mulf_neq0 ?invr_eq0.
rewrite (negPf u0) -/cs' -/sn'; cbn [bind].
apply: wpe_bind; apply: (wpe_repr1_set Hs3); [by nl F|] => sd4 Hs4.
rewrite (repr1_get He3); last by nl F.
cbn [bind]; rewrite eqxx (repr1_get Hs4); last by nl F.
cbn [bind]; have -> : (j.+1 == j) = false by nl F.
rewrite eqxx.
apply: wpe_bind; apply: (wpe_repr1_set Hs4); [by nl F|] => sd5 Hs5.
rewrite (repr1_get He3); last by nl F.
have -> : (j.+1 == j) = false by nl F.
cbn [bind]; rewrite e2j1.
apply: wpe_bind; apply: (wpe_repr1_set He3); [by nl F|] => ed4 He4.
have -> : (j < m - 1)%N by nl F.
have jm : (j < m)%N by nl F.
have j1m : (j.+1 < m)%N by nl F.
apply: wpe_bind; apply: wpe_mono (rot_cols_ok _ _ _ jm j1m jj HU) => ud3 HU3.
have s3j : s3 j = FF by rewrite /s3 upd_ne // upd_eq.
have s3j1 : s3 j.+1 = cs * s1 j.+1 by rewrite /s3 upd_eq.
have e3j : e3 j = cs * e1 j - sn * s1 j by rewrite /e3 upd_eq.
have e3j1 : e3 j.+1 = e1 j.+1 by rewrite /e3 upd_ne //; nl F.
have R := @kase3_row j s3 e3 G t' cs' sn'.
rewrite s3j in R; have {}R := R u2 u3.
have [oU3 PE4] := PM_rotU (bul s3 e3 j.+1 j G) (rot2 j j.+1 cs sn V1) jm j1m jj u1 oU.
rewrite (PM_ext _ _ R) PE3 e3j e3j1 s3j1 in PE4.
apply: wpe_ok.
exists (upd (upd s3 j t') j.+1 (- sn' * (cs * e1 j - sn * s1 j) + cs' * (cs * s1 j.+1))),
  (upd e3 j.+1 (cs' * e1 j.+1)), (rot2 j j.+1 cs' sn' U1), (rot2 j j.+1 cs sn V1).
split; [split=> //|split; [split=> //|split; [split|]]].
- apply: repr1_ext Hs5 _ => i hi; rewrite /upd /s3; case: eqP => // i1; case: eqP => // i2; by rewrite upd_ne ?upd_ne //; apply/eqP.
- by rewrite -pred_Sn; have -> : (k < j.+1)%N by nl F.
- case: ifP => h; first by rewrite mulf_neq0 // eE // ene //; nl F.
  rewrite eE //; have -> : j.+1 = p.-1 by nl F.
  by rewrite ep mulr0.
- move=> i hi; rewrite /s3 !upd_ne ?sE //; nl F.
- move=> i hi; rewrite /e3 /e2 !upd_ne; try nl F.
  by case: ifP => _; rewrite ?upd_ne ?eE //; nl F.
- move=> i hi; case: (altP (i =P j.+1)) => [ij|ij].
    rewrite ij upd_eq eE //; have -> : j.+1 = p.-1 by nl F.
    by rewrite ep mulr0.
  rewrite /e3 /e2 !upd_ne; try nl F.
  by case: ifP => hk; rewrite ?upd_ne ?eO //; nl F.
- move=> i hi; rewrite /s3 !upd_ne ?sO //; nl F.
have csE : cs * t = x by rewrite /cs divfK.
have snE : sn * t = g by rewrite /sn divfK.
have csE' : cs' * t' = cs * s1 j + sn * e1 j by rewrite /cs' divfK.
have snE' : sn' * t' = sn * s j.+1 by rewrite /sn' divfK // /G sE.
move: SC => [CC [GG [y [[gE eC fG sM] SC]]]]; rewrite eC in csE'.
have := chase_scalar t0 u0 t1 u1 csE snE gE fG sM csE' snE'.
have s1j : s1 j.+1 = s j.+1 by apply: sE.
rewrite /= -eC -s1j => -[S1 S2 S3 S4].
exists cs', sn', (cs' * (s1 j.+1 ^+ 2 - mu) - sn' * (CC * (s1 j.+1 * e j))); split.
  by rewrite !upd_eq eE.
have -> : (j.+1 == k) = false by nl F.
have btE : bt k s e j.+1 = s1 j.+1 * e j by rewrite /bt ltnS kj -pred_Sn s1j.
have cs2E : cs' ^+ 2 = 1 - sn' ^+ 2 by rewrite !expr2 -u1 addrK.
rewrite btE -pred_Sn -s1j; case: (altP (j =P k)) SC => [jk [C1 yE]|jk [C1 [G1 [C3 [K1 K2 K3 K4 [K5 K6]]]]]].
  exists 1, 0, 0; rewrite !mul0r expr1n expr0n /= subr0 ler01; split=> //; [by rewrite subr0|by rewrite C1|].
  have -> : (k < j)%N = false by nl F.
  by rewrite mulr0 mul0r; split=> //; rewrite -S3 yE C1 jk; ring.
have kj' : (k < j)%N by nl F.
exists CC, GG, C1; split=> //.
  by rewrite K2 ler_subl_addr ler_addl sqr_ge0.
split; first by rewrite -S3 K4; ring.
rewrite kj' -S4; congr (_ * _); congr (_ * _).
  by rewrite upd_ne ?upd_eq //; nl F.
rewrite upd_ne; last by nl F.
by rewrite /e3 upd_ne ?/e2 ?kj' ?upd_eq //; nl F.
Qed.

(** the last two off-diagonal elements of B B^T *)
Definition bet1 p s e : F := s p.-1 * e p.-2.
Definition bet2 p s e : F := if (2 < p)%N then s p.-2 * e p.-2.-1 else 0.
Definition k3 (b1 b2 b1' b2' : F) : Prop := [/\ b1' ^+ 2 <= b2 ^+ 2,
  (b1' ^+ 2) ^+ 2 * b2' ^+ 2 <= 4%:R * (b1 ^+ 2) ^+ 3 & 2%:R * ((b1' ^+ 2) ^+ 2 * b2' ^+ 2) <= (b1 ^+ 2) ^+ 2 * b2 ^+ 2].

Lemma kase3_ok k p sd ed ud vd s e U V : (k.+1 < p <= n)%N ->
  repr1 n sd s -> repr1 n ed e -> repr m m ud U -> repr n n vd V -> orthogonal (mxf m m U) -> orthogonal (mxf n n V) ->
  (forall i, (k <= i < p)%N -> s i != 0) -> (forall i, (k <= i < p.-1)%N -> e i != 0) -> e p.-1 = 0 -> ((0 < k)%N -> e k.-1 = 0) ->
  wp (svd_kase3 (S:=S) m n k p sd ed ud vd) (fun st => exists s' e' U' V',
    [/\ repr1 n st.1.1.1 s', repr1 n st.1.1.2 e', repr m m st.1.2 U' & repr n n st.2 V'] /\
    [/\ orthogonal (mxf m m U'), orthogonal (mxf n n V'), PM U' (bidf s' e') V' = PM U (bidf s e) V, sub0 e' e
      & forall i, (p <= i)%N -> s' i = s i] /\ k3 (bet1 p s e) (bet2 p s e) (bet1 p s' e') (bet2 p s' e')).
Proof.
move=> kp Hs He HU HV oU oV sne ene ep ek; rewrite /svd_kase3.
apply: wpe_bind; apply: wpe_mono; last apply: (shift_ok kp Hs He);
  [|by apply: ene; nl F|by apply: sne; nl F|by apply: ene; nl F|by apply: sne; nl F].
move=> [x g]; cbn [fst snd] => -[mu [q [tt [g0 xE gE [t1 mE1 mE2]]]]]; apply: wpe_bind; rewrite subn1 subn2.
apply: (wpe_for (ch_inv k p s e mu (PM U (bidf s e) V))); first by nl F.
- exists s, e, U, V; split=> //; split; [split=> //; first by rewrite ltnn|split=> //].
    by have -> : (k < p.-1)%N by nl F.
  exists 1, (q * s k), (s k ^+ 2 - mu); rewrite eqxx mul1r; split=> //; split=> //; [by rewrite xE; ring|by ring].
- move=> j st hj; apply: chase_ok => //; nl F.
move=> [[[[[sd2 ed2] ud2] vd2] x2] g2] [s1 [e1 [U1 [V1 [[Hs2 He2 HU2 HV2] [[oU2 oV2 PE]]]]]]].
rewrite ltnn => /eqP g20 [[_ _ eO sO] SC].
apply: wpe_bind; apply: (wpe_repr1_set He2); [by nl F|] => ed3 He3; apply: wpe_ok; cbn [fst snd].
exists s1, (upd e1 p.-2 x2), U1, V1; split=> //; split; last first.
  move: SC => [C [G [y [[_ _ fG _]]]]]; have -> : (p.-1 == k) = false by nl F.
  move=> [C1 [G1 [C3 [K1 K2 K3 K4 [K5 K6]]]]].
  have b1E : bt k s e p.-1 = bet1 p s e by rewrite /bt /bet1; have -> : (k < p.-1)%N by nl F.
  have b2E : bt k s e p.-2 = bet2 p s e.
    rewrite /bt /bet2; case: (ltnP k p.-2) => h; first by have -> : (2 < p)%N by nl F.
    case: (ltnP 2 p) => // h2; have -> : p.-2.-1 = k.-1 by nl F.
    by rewrite ek ?mulr0 //; nl F.
  rewrite b1E b2E -/(p.-2) in K4 K5 K6.
  have W := @wilkinson F C G C1 G1 C3 tt (bet1 p s e) (bet2 p s e) y (bet1 p s1 (upd e1 p.-2 x2)) (bet2 p s1 (upd e1 p.-2 x2)) K1 K2 K3 t1.
  apply: W.
  + by rewrite K4 mE1.
  + rewrite K4 mulrBl; have -> : C * (s p.-1 ^+ 2 - mu) * tt = C * bet1 p s e.
      rewrite mE1 -/(bet1 p s e) -mulrA divfK //; apply: contraTneq t1 => ->.
      by rewrite expr0n /= -ltNge ltr01.
    by rewrite -K5 mE2 -/(bet1 p s e); ring.
  + by rewrite /bet1 upd_eq.
  + rewrite -K6; congr (_ * _); rewrite /bet2; case: (ltnP 2 p) => h; last first.
      by have -> : (k < p.-2)%N = false by [nl F]; rewrite mulr0.
    case: (ltnP k p.-2) => h1; first by rewrite upd_ne //; nl F.
    rewrite upd_ne; last by nl F.
    rewrite eO; last by nl F.
    have -> : p.-2.-1 = k.-1 by nl F.
    by rewrite ek //; nl F.
split=> //.
- rewrite -PE; have -> : (k < p.-1)%N by nl F.
  apply: PM_ext => i j hi hj; rewrite g20 /bul; case: eqP => // i1; case: eqP => // j1.
  by rewrite /bidf; iflia.
- move=> i; rewrite /upd; case: (altP (i =P p.-2)) => [-> _|ip]; first by apply: ene; nl F.
  case: (boolP ((i < k)%N || (p.-1 <= i)%N)) => h; first by rewrite eO.
  by move=> _; apply: ene; nl F.
Qed.


(** *** kase 4 *)
Lemma PM_entry U f V (a : 'I_m) (b : 'I_n) : PM U f V a b = \sum_(j < n) (\sum_(i < m) U a i * f i j) * V b j.
Proof.
rewrite /PM mxE; apply: eq_bigr => j _; rewrite [X in _ * X]mxE [X in _ * X]mxE mxE; congr (_ * _).
by apply: eq_bigr => i _; rewrite !mxE.
Qed.

Lemma PM_swap U f V i k : (i < n)%N -> (k < n)%N ->
  PM (fun a b => U a (tsw i k b)) (fun x y => f (tsw i k x) (tsw i k y)) (fun a b => V a (tsw i k b)) = PM U f V.
Proof.
move=> hi hk; apply/matrixP => a b; rewrite !PM_entry.
rewrite -[RHS](@swap_sum F n i k (fun j => (\sum_(i < m) U a i * f i j) * V b j)) //.
apply: eq_bigr => j _; congr (_ * _).
by rewrite (@swap_sum F m i k (fun l => U a l * f l (tsw i k j))) //; nl F.
Qed.

Lemma PM_neg U f V k : PM U (fun x y => if y == k then - f x y else f x y) (fun a b => if b == k then - V a b else V a b) = PM U f V.
Proof.
apply/matrixP => a b; rewrite !PM_entry; apply: eq_bigr => j _; case: eqP => // _.
rewrite mulrN -mulNr; congr (_ * _); rewrite -sumrN; apply: eq_bigr => i _; by rewrite mulrN opprK.
Qed.

Lemma neg_orth V k : orthogonal (mxf n n V) -> orthogonal (mxf n n (fun a b => if b == k then - V a b else V a b)).
Proof.
move=> [_ oV]; have V1 : forall X : 'M[F]_n, X *m X^T = 1%:M -> orthogonal X by move=> X H; split=> //; apply: mulmx1C.
apply: V1; rewrite -oV; apply/matrixP => a b; rewrite !mxE; apply: eq_bigr => l _; rewrite !mxE.
by case: eqP => // _; rewrite mulrNN.
Qed.

Lemma swap_cols_ok (E : err -> Prop) h w k v f : (k.+1 < w)%N -> repr h w v f ->
  wpe E (swap_cols (S:=S) h w k v) (fun v => repr h w v (fun a b => f a (tsw k k.+1 b))).
Proof.
move=> kw Hv; rewrite /swap_cols addn1; apply: wpe_mono; last first.
  apply: (for_own (fun a b => if (b == k) || (b == k.+1) then a else h) (fun a b => f a (tsw k k.+1 b)) _ Hv) => //.
  move=> q v1 f1 hq Hv1 E1.
  rewrite (repr_get Hv1); [|by nl F|by nl F]; cbn [bind].
  rewrite (repr_get Hv1); [|by nl F|by nl F]; cbn [bind].
  apply: wpe_bind; apply: (wpe_repr_set Hv1); [by nl F|by nl F|] => v2 Hv2.
  apply: (wpe_repr_set Hv2); [by nl F|by nl F|] => v3 Hv3; apply: repr_ext Hv3 _ => a b ha hb.
  have E1' b' : (b' < w)%N -> (b' == k) || (b' == k.+1) -> f1 q b' = f q b'.
    by move=> hb' hh; rewrite E1 //; rewrite hh eqxx.
  rewrite /tsw; case: (altP (b =P k)) => [->|bi] /=.
    rewrite andbT; case: (altP (a =P q)) => [->|ak]; first by rewrite E1' ?eqxx ?orbT.
    by have -> : (k == k.+1) = false by [nl F]; rewrite andbF.
  rewrite andbF; case: (altP (b =P k.+1)) => [->|bk] /=.
    rewrite andbT; case: (altP (a =P q)) => [->|ak] //.
    by rewrite E1' ?eqxx ?orbT //; nl F.
  by rewrite andbF; have -> : (h == q) = false by nl F.
move=> v' Hv'; apply: repr_ext Hv' _ => a b ha hb; rewrite leq0n /= /tsw.
case: (altP (b =P k)) => [->|bi] /=; first by rewrite ha.
case: (altP (b =P k.+1)) => [->|bk] /=; first by rewrite ha.
by rewrite ltnn.
Qed.

Definition k4_inv k0 e (X : 'M[F]_(m, n)) k (st : seq F * seq F * seq F) : Prop := exists s1 U1 V1,
  [/\ repr1 n st.1.1 s1, repr m m st.1.2 U1, repr n n st.2 V1, orthogonal (mxf m m U1) & orthogonal (mxf n n V1)] /\
  [/\ PM U1 (bidf s1 e) V1 = X, forall i, (k0 <= i < n)%N -> 0 <= s1 i,
      forall i, (k0 <= i)%N -> (i.+1 < n)%N -> i != k -> s1 i.+1 <= s1 i
    & (k0 < k)%N -> (k.+1 < n)%N -> s1 k.+1 <= s1 k.-1].

Lemma kase4_ok k sd ud vd s e U V : (k < n)%N ->
  repr1 n sd s -> repr m m ud U -> repr n n vd V -> orthogonal (mxf m m U) -> orthogonal (mxf n n V) ->
  (forall i, (k <= i.+1)%N -> (i < n)%N -> e i = 0) -> (forall i, (k < i < n)%N -> 0 <= s i) ->
  (forall i, (k < i)%N -> (i.+1 < n)%N -> s i.+1 <= s i) ->
  wp (svd_kase4 (S:=S) m n k n.-1 sd ud vd) (fun st => exists s' U' V',
   [/\ repr1 n st.1.1 s', repr m m st.1.2 U', repr n n st.2 V', orthogonal (mxf m m U') & orthogonal (mxf n n V')] /\
   [/\ PM U' (bidf s' e) V' = PM U (bidf s e) V, forall i, (k <= i < n)%N -> 0 <= s' i
     & forall i, (k <= i)%N -> (i.+1 < n)%N -> s' i.+1 <= s' i]).
Proof.
move=> kn Hs HU HV oU oV e0 sp ss; rewrite /svd_kase4 (repr1_get Hs) //; cbn [bind].
have e0' i : (k <= i.+1)%N -> (i < n)%N -> e i = 0 by exact: e0.
apply: (wpe_bind2 (P := fun st => exists s1 V1, [/\ repr1 n st.1 s1, repr n n st.2 V1, orthogonal (mxf n n V1),
   PM U (bidf s1 e) V1 = PM U (bidf s e) V & 0 <= s1 k /\ forall i, i != k -> s1 i = s i])).
  exs; case: (leP (s k) 0) => sk; last by apply: wpe_ok; exists s, V; split=> //; split; [exact: ltW|].
  apply: wpe_bind; apply: (wpe_repr1_set Hs) => // sd1 Hs1.
  apply: wpe_bind; rewrite /col_update; apply: wpe_mono; last first.
    apply: (for_own (fun a b => if b == k then a else n) (fun a b => - V a b) _ HV) => //.
    move=> i v1 V1 hi HV1 E1; rewrite (repr_get HV1); [|by nl F|by nl F]; cbn [bind].
    apply: (wpe_repr_set HV1); [by nl F|by nl F|] => v2 HV2; apply: repr_ext HV2 _ => x y hx hy.
    case: (altP (y =P k)) => [->|yk]; rewrite ?andbT ?andbF; last by iflia.
    by case: (altP (x =P i)) => [->|//]; rewrite E1 ?eqxx //; nl F.
  move=> vd1 HV1; apply: wpe_ok; cbn [fst snd].
  exists (fun i => if i == k then - s k else s i), (fun a b => if b == k then - V a b else V a b); split=> //.
  - apply: repr1_ext Hs1 _ => i hi; case: eqP => // _; case: ltP => // h.
    by have /eqP -> : s k == 0 by [rewrite eq_le sk h]; rewrite oppr0.
  - apply: repr_ext HV1 _ => a b ha hb; rewrite leq0n /=; case: eqP => _; last by iflia.
    by have -> : (a < n.-1 + 1)%N by nl F.
  - exact: neg_orth.
  - rewrite -[RHS](PM_neg _ _ _ k); apply: PM_ext => i j hi hj; rewrite /bidf.
    case: (altP (j =P k)) => [->|jk].
      case: (altP (k =P i)) => [<-|ik]; first by rewrite eqxx.
      case: (altP (k =P i.+1)) => [h|_]; last by rewrite oppr0.
      by rewrite e0 ?oppr0 //; nl F.
    by case: (altP (j =P i)) => // <-; rewrite (negPf jk).
  - rewrite eqxx oppr_ge0; split=> // i /negPf -> //.
move=> [sd1 vd1] [s1 [V1 [Hs1 HV1 oV1 PE [s1k s1E]]]]; cbn [fst snd] in Hs1, HV1.
apply: wpe_bind; apply: (wpe_forc (k4_inv k e (PM U (bidf s e) V))
  (fun st => exists2 k', (k <= k')%N & k4_inv k e (PM U (bidf s e) V) k' st /\ forall s1, repr1 n st.1.1 s1 -> s1 k'.+1 <= s1 k')).
- by nl F.
- exists s1, U, V1; split=> //; split=> //.
  + move=> i hi; case: (altP (i =P k)) => [-> //|ik]; rewrite s1E //; apply: sp; nl F.
  + move=> i hi hi1 ik; rewrite !s1E //; [apply: ss; nl F|nl F].
  + by rewrite ltnn.
- move=> j [[sd2 ud2] vd2] hj [s2 [U2 [V2 [[Hs2 HU2 HV2 oU2 oV2] [PE2 s2p s2s s2j]]]]]; cbn [fst snd] in Hs2, HU2, HV2.
  rewrite (repr1_get Hs2); last by nl F.
  cbn [bind]; rewrite addn1 (repr1_get Hs2); last by nl F.
  cbn [bind]; exs; case: leP => hs.
    apply: wpe_ok; exists j; first by nl F.
    split; first by exists s2, U2, V2.
    move=> s3; cbn [fst] => Hs3; have E i : (i < n)%N -> s3 i = s2 i.
      by move=> hi; have := repr1_get Hs3 hi; rewrite (repr1_get Hs2) // => -[].
    by rewrite !E //; nl F.
  apply: wpe_bind; apply: (wpe_repr1_set Hs2); [by nl F|] => sd3 Hs3.
  apply: wpe_bind; apply: (wpe_repr1_set Hs3); [by nl F|] => sd4 Hs4.
  have jn : (j < n)%N by nl F.
  have j1n : (j.+1 < n)%N by nl F.
  have j1m : (j.+1 < m)%N by nl F.
  have -> : (j < n - 1)%N by nl F.
  have -> : (j < m - 1)%N by nl F.
  apply: wpe_bind; apply: wpe_mono (swap_cols_ok _ j1n HV2) => vd3 HV3.
  apply: wpe_bind; apply: wpe_mono (swap_cols_ok _ j1m HU2) => ud3 HU3.
  apply: wpe_ok; exists (fun i => s2 (tsw j j.+1 i)), (fun a b => U2 a (tsw j j.+1 b)), (fun a b => V2 a (tsw j j.+1 b)).
  split; first split=> //=.
  + apply: repr1_ext Hs4 _ => i hi; rewrite /tsw; case: (altP (i =P j.+1)) => [->|ij]; first by iflia.
    by case: eqP.
  + by have [] := @swap_ok F m j j.+1 U2 (fun _ => 0) (leq_trans jn nm) j1m oU2.
  + by have [] := @swap_ok F n j j.+1 V2 (fun _ => 0) jn j1n oV2.
  split.
  + rewrite -PE2 -[RHS](PM_swap _ _ _ jn j1n); apply: PM_ext => x y hx hy; rewrite /bidf.
    have ee i : (i < n)%N -> (k <= i.+1)%N -> e i = 0 by move=> *; apply: e0.
    have ej : e j = 0 by apply: ee; nl F.
    have ej1 : e j.+1 = 0 by apply: ee; nl F.
    have ejp z : j = z.+1 -> e z = 0 by move=> jz; apply: ee; nl F.
    rewrite /tsw; have [xj|xj] := altP (x =P j).
      rewrite xj ej ej1 !if_same; have [yj|yj] := altP (y =P j); first by rewrite eqxx.
      by have [y1|y1] := altP (y =P j.+1); iflia.
    have [x1|x1] := altP (x =P j.+1).
      rewrite x1 ej ej1 !if_same; have [yj|yj] := altP (y =P j); first by iflia.
      by have [y1|y1] := altP (y =P j.+1); iflia.
    have [yj|yj] := altP (y =P j).
      iflia; case: (altP (y =P x.+1)) => // jx; rewrite ejp //; nl F.
    have [y1|y1] := altP (y =P j.+1); last by [].
    iflia; case: (altP (j =P x.+1)) => // jx; rewrite ejp //; nl F.
  + move=> i hi; apply: s2p; rewrite /tsw; case: eqP => h1; first by nl F.
    case: eqP => h2; nl F.
  + move=> i hi hi1 ij; rewrite /tsw; case: (altP (i =P j)) => [->|ij'].
      by iflia; exact: ltW.
    have -> : (i.+1 == j.+1) = false by nl F.
    rewrite (negPf ij); case: (altP (i.+1 =P j)) => ij1; last by apply: s2s; nl F.
    have -> : i = j.-1 by nl F.
    by apply: s2j; nl F.
  + move=> h1 h2; rewrite /tsw -pred_Sn; iflia; apply: s2s; nl F.
- move=> st [s2 [U2 [V2 [H1 [H2 H3 H4 H5]]]]]; apply: wpe_ok; exists s2, U2, V2; split=> //; split=> // i hi hi1.
  apply: H4 => //; nl F.
- move=> st [k' kk' [[s2 [U2 [V2 [[H1 H1a H1b H1c H1d] [H2 H3 H4 H5]]]]] H6]]; apply: wpe_ok; exists s2, U2, V2; split=> //; split=> // i hi hi1.
  case: (altP (i =P k')) => [->|ik]; first exact: H6.
  exact: H4.
Qed.


(** *** the tests for negligible entries *)
Lemma find_e_ok k sd ed s e : (k < n)%N -> repr1 n sd s -> repr1 n ed e ->
  wp (svd_find_e (S:=S) k sd ed) (fun r => [/\ (r.1 <= k)%N, forall i, (r.1 <= i < k)%N -> tiny < `|e i|,
    repr1 n r.2 (if r.1 == 0%N then e else upd e r.1.-1 0) &
    (0 < r.1)%N -> `|e r.1.-1| <= tiny + eps * (`|s r.1.-1| + `|s r.1|)]).
Proof.
move=> kn Hs He; elim: k kn => [|k IH] kn /=.
  by split=> // i; rewrite /= ltn0 andbF.
rewrite (repr1_get He); last by nl F.
cbn [bind]; rewrite (repr1_get Hs); last by nl F.
cbn [bind]; rewrite addn1 (repr1_get Hs) //; cbn [bind]; exs.
case: leP => h.
  apply: wpe_bind; apply: (wpe_repr1_set He); [by nl F|] => ed1 He1; apply: wpe_ok; cbn [fst snd]; split=> //.
  by move=> i hi; nl F.
apply: wpe_mono (IH (ltnW kn)) => -[k1 ed1]; cbn [fst snd] => -[h1 h2 h3 h4]; split=> //; first by nl F.
move=> i hi; case: (altP (i =P k)) => [->|ik]; last by apply: h2; nl F.
apply: le_lt_trans h; rewrite ler_addl mulr_ge0 // addr_ge0 //.
Qed.

Lemma find_s_ok p k1 c sd ed s e : (k1 + c <= p <= n)%N -> repr1 n sd s -> repr1 n ed e ->
  wp (svd_find_s (S:=S) p k1 c sd ed) (fun r => [/\ (r.1 <= c)%N, forall i, (k1 + r.1 <= i < k1 + c)%N -> tiny < `|s i|,
    repr1 n r.2 (if r.1 == 0%N then s else upd s (k1 + r.1).-1 0) &
    (0 < r.1)%N -> let ks := (k1 + r.1).-1 in `|s ks| <= tiny + eps * (`|e ks| + (if ks != k1 then `|e ks.-1| else 0))]).
Proof.
move=> kn Hs He; elim: c kn => [|c IH] kn /=.
  by split=> // i; nl F.
have -> : (k1 + c)%N != p by nl F.
rewrite (repr1_get He); last by nl F.
cbn [bind]; apply: (wpe_bind2 (P := fun x : F => x = if (k1 + c)%N != k1 then `|e (k1 + c).-1| else 0)).
  case: ifP => h; last by apply: wpe_ok.
  by rewrite (repr1_get He) ?subn1 //; nl F.
move=> t2 ->; rewrite (repr1_get Hs); last by nl F.
cbn [bind]; exs; case: leP => h.
  apply: wpe_bind; apply: (wpe_repr1_set Hs); [by nl F|] => sd1 Hs1; apply: wpe_ok; cbn [fst snd]; split=> //.
  - by move=> i hi; nl F.
  - by rewrite addnS.
  - by rewrite addnS.
apply: wpe_mono (IH _) => [|]; last by nl F.
move=> -[c1 sd1]; cbn [fst snd] => -[h1 h2 h3 h4]; split=> //; first by nl F.
move=> i hi; case: (altP (i =P k1 + c)%N) => [->|ik]; last by apply: h2; nl F.
apply: le_lt_trans h; rewrite ler_addl mulr_ge0 // addr_ge0 //.
by case: ifP.
Qed.

Lemma tiny_ne (x : F) : tiny < `|x| -> x != 0.
Proof. by move=> h; rewrite -normr_gt0; apply: le_lt_trans h. Qed.

(** *** the error budget *)
Definition cnt e : nat := \sum_(0 <= i < n.-1) (e i != 0%R).

Lemma cnt_max e : (cnt e <= n.-1)%N.
Proof.
rewrite /cnt -[X in (_ <= X)%N]subn0 -[X in (_ <= X)%N]muln1 -sum_nat_const_nat.
by apply: leq_sum => i _; case: (_ != _).
Qed.

Lemma cnt_le e' e : sub0 e' e -> (cnt e' <= cnt e)%N.
Proof.
move=> H; apply: leq_sum => i _; case: (boolP (e' i != 0)) => // /H ->; by [].
Qed.

Lemma cnt_lt e' e i : sub0 e' e -> (i < n.-1)%N -> e' i = 0 -> e i != 0 -> (cnt e' < cnt e)%N.
Proof.
move=> H hi e0 e1; rewrite /cnt !(@bigD1_seq _ _ _ _ _ i) ?iota_uniq ?mem_index_iota //=; try by [].
rewrite e0 eqxx e1 /= add0n add1n ltnS; apply: leq_sum => j _; by case: (boolP (e' j != 0)) => // /H ->.
Qed.

Variable N : F.
Definition delta : F := tiny + eps * (N + N).
Definition budget e : F := delta *+ (n.-1 - cnt e).

Lemma budget_le (N0 : 0 <= N) e' e : sub0 e' e -> budget e <= budget e'.
Proof.
move=> H; have := cnt_le H => h; rewrite /budget.
have d0 : 0 <= delta by rewrite addr_ge0 // mulr_ge0 // addr_ge0.
by apply: ler_muln2l || (rewrite -(subnKC (_ : n.-1 - cnt e <= n.-1 - cnt e')%N); [rewrite mulrnDr ler_addl mulrn_wge0|nl F]).
Qed.

Lemma budget_lt e' e i : sub0 e' e -> (i < n.-1)%N -> e' i = 0 -> e i != 0 -> 0 <= N ->
  budget e + delta <= budget e'.
Proof.
move=> H hi h0 h1 N0; have := cnt_lt H hi h0 h1 => h; have := cnt_max e => hm; rewrite /budget.
have d0 : 0 <= delta by rewrite addr_ge0 // mulr_ge0 // addr_ge0.
rewrite -(subnKC (_ : n.-1 - cnt e + 1 <= n.-1 - cnt e')%N); last by nl F.
by rewrite !mulrnDr mulr1n ler_addl mulrn_wge0.
Qed.

Lemma bid_s s e i : (i < n)%N -> `|s i| <= fro (mxf m n (bidf s e)).
Proof.
move=> hi; have im : (i < m)%N by nl F.
by have := fro_entry (mxf m n (bidf s e)) (Ordinal im) (Ordinal hi); rewrite mxE /bidf eqxx.
Qed.

Lemma bid_e s e i : (i.+1 < n)%N -> `|e i| <= fro (mxf m n (bidf s e)).
Proof.
move=> hi; have im : (i < m)%N by nl F.
by have := fro_entry (mxf m n (bidf s e)) (Ordinal im) (Ordinal hi); rewrite mxE /bidf /=; iflia.
Qed.

Lemma PM_sub U f g V : orthogonal (mxf m m U) -> orthogonal (mxf n n V) ->
  fro (PM U f V - PM U g V) = fro (mxf m n f - mxf m n g).
Proof.
move=> oU oV; rewrite /PM -mulmxBl -mulmxBr fro_orth_r ?fro_orth_l //; exact: orthogonalT.
Qed.

Lemma drop_s s e k : (k < n)%N -> fro (mxf m n (bidf s e) - mxf m n (bidf (upd s k 0) e)) <= `|s k| /\
  fro (mxf m n (bidf (upd s k 0) e)) <= fro (mxf m n (bidf s e)).
Proof.
move=> kn; have km : (k < m)%N by nl F.
split.
  rewrite (@fro_single _ _ _ (Ordinal km) (Ordinal kn)); first by rewrite !mxE /bidf /upd /= !eqxx subr0.
  move=> i j; rewrite xpair_eqE !mxE /bidf /upd -!val_eqE /=; case: (altP (nat_of_ord j =P i)) => [->|_]; last by rewrite subrr.
  by rewrite andbb => /negPf ->; rewrite subrr.
apply: fro_le => i j; rewrite !mxE /bidf /upd; case: ifP => // _; by case: eqP => // _; rewrite normr0.
Qed.

Lemma drop_e s e k : (k.+1 < n)%N -> fro (mxf m n (bidf s e) - mxf m n (bidf s (upd e k 0))) <= `|e k| /\
  fro (mxf m n (bidf s (upd e k 0))) <= fro (mxf m n (bidf s e)).
Proof.
move=> kn; have km : (k < m)%N by nl F.
split.
  rewrite (@fro_single _ _ _ (Ordinal km) (Ordinal kn)); first by rewrite !mxE /bidf /upd /= !eqxx; iflia; rewrite subr0.
  move=> i j; rewrite xpair_eqE !mxE /bidf /upd -!val_eqE /=; case: ifP => [_|_]; first by rewrite subrr.
  case: (altP (nat_of_ord j =P i.+1)) => [->|_]; last by rewrite subrr.
  by rewrite eqSS andbb => /negPf ->; rewrite subrr.
apply: fro_le => i j; rewrite !mxE /bidf /upd; case: ifP => // _; case: ifP => // _; by case: eqP => // _; rewrite normr0.
Qed.


(** *** the loop *)
Hypothesis N0 : 0 <= N.
Variable A : 'M[F]_(m, n).

Definition sv_bod (st : sweep S) s e : Prop := exists U V,
  [/\ repr1 n (w_s st) s, repr1 n (w_e st) e, repr m m (w_u st) U & repr n n (w_v st) V] /\
  [/\ (w_p st <= n)%N, orthogonal (mxf m m U), orthogonal (mxf n n V),
      fro (mxf m n (bidf s e)) <= N & fro (A - PM U (bidf s e) V) <= budget e] /\
  [/\ forall i, (w_p st <= i.+1)%N -> e i = 0, forall i, (w_p st <= i < n)%N -> 0 <= s i
    & forall i, (w_p st <= i)%N -> (i.+1 < n)%N -> s i.+1 <= s i].
Definition sv_inv (st : sweep S) : Prop := exists s e, sv_bod st s e.

(** every round deflates, zeroes an off-diagonal element, or does a QR step that shrinks the last ones *)
Definition sv_prog p s e p' s' e' : Prop := (p' < p)%N \/ p' = p /\
  ((cnt e' < cnt e)%N \/ (cnt e' <= cnt e)%N /\
   [/\ tiny < `|s p.-1|, tiny < `|e p.-2|, (1 < p)%N & k3 (bet1 p s e) (bet2 p s e) (bet1 p s' e') (bet2 p s' e')]).

Lemma err_step U V U' V' s e s' e' (d : F) : fro (A - PM U (bidf s e) V) <= budget e ->
  fro (PM U (bidf s e) V - PM U' (bidf s' e') V') <= d -> budget e + d <= budget e' ->
  fro (A - PM U' (bidf s' e') V') <= budget e'.
Proof.
move=> h1 h2 h3; apply: le_trans h3; rewrite -[A - _](subrKA (PM U (bidf s e) V)).
by apply: le_trans (froD _ _) _; apply: ler_add.
Qed.

Lemma iter_prog (st : sweep S) s e : sv_bod st s e ->
  wp (svd_iter (S:=S) m n n.-1 st) (fun c => match c with
    | Next st' => exists s' e', sv_bod st' s' e' /\ sv_prog (w_p st) s e (w_p st') s' e'
    | Stop r => w_p r = 0%N /\ sv_inv r end).
Proof.
case: st => sd ed ud vd p I0; rewrite /svd_iter; cbn [w_s w_e w_u w_v w_p].
case: (altP (p =P 0%N)) => [p0|p0]; first by apply: wpe_ok; split=> //; exists s, e.
move: I0 => [U [V []]]; cbn [w_s w_e w_u w_v w_p] => -[Hs He HU HV] [[pn oU oV bN errA] [e0 sp ss]].
have p1n : (p - 1 < n)%N by nl F.
apply: wpe_bind; apply: wpe_mono (find_e_ok p1n Hs He) => -[k1 ed1]; cbn [fst snd] => -[k1p ene He1 ek1].
pose e1 := if k1 == 0%N then e else upd e k1.-1 0.
have e1k : (0 < k1)%N -> e1 k1.-1 = 0 by move=> h; rewrite /e1; have -> : (k1 == 0%N) = false by [nl F]; rewrite upd_eq.
have e1E i : (k1 <= i)%N -> e1 i = e i by move=> h; rewrite /e1; case: eqP => // h1; rewrite upd_ne //; nl F.
have e1s : sub0 e1 e by move=> i; rewrite /e1; case: ifP => // h; rewrite /upd; case: (i == _); rewrite ?eqxx.
have e10 i : (p <= i.+1)%N -> e1 i = 0.
  by move=> h; apply/eqP; apply: contraTT isT => /e1s; rewrite e0 ?eqxx.
have [bN1 errA1] : fro (mxf m n (bidf s e1)) <= N /\ fro (A - PM U (bidf s e1) V) <= budget e1.
  rewrite /e1; case: (altP (k1 =P 0%N)) => [//|k10].
  have kn1 : (k1.-1.+1 < n)%N by nl F.
  have [D1 D2] := drop_e s e kn1; split; first exact: le_trans D2 bN.
  case: (altP (e k1.-1 =P 0)) => [ez|enz].
    have -> : budget (upd e k1.-1 0) = budget e.
      rewrite /budget /cnt; congr (_ *+ (_ - _)); apply: eq_bigr => i _; rewrite /upd.
      by case: (altP (i =P k1.-1)) => [->|//]; rewrite ez.
    rewrite (@PM_ext U _ (bidf s e) V) // => i j hi hj; rewrite /bidf /upd; case: ifP => // _; case: ifP => // _.
    by case: (altP (i =P k1.-1)) => [->|//]; rewrite ez.
  apply: (@err_step U V U V s e s (upd e k1.-1 0) delta) => //.
    rewrite PM_sub //; apply: le_trans D1 _; have /ek1 h : (0 < k1)%N by nl F.
    apply: le_trans h _; rewrite /delta ler_add2l ler_wpmul2l // ler_add //.
      by apply: le_trans bN; apply: bid_s; nl F.
    by apply: le_trans bN; apply: bid_s; nl F.
  apply: (@budget_lt _ _ k1.-1) => //; [|by nl F|by rewrite upd_eq].
  by move=> i; rewrite /upd; case: (i == _); rewrite ?eqxx.
case: (altP (k1 =P p - 1)%N) => [k1E|k1E].
  (* kase 4 *)
  have k1n : (k1 < n)%N by nl F.
  apply: wpe_bind; apply: wpe_mono; last apply: (@kase4_ok k1 sd ud vd s e1 U V k1n Hs HU HV oU oV).
  - move=> [[sd2 ud2] vd2] [s2 [U2 [V2 [[Hs2 HU2 HV2 oU2 oV2] [PE2 s2p s2s]]]]]; cbn [fst snd] in Hs2, HU2, HV2.
    apply: wpe_ok; exists s2, e1; split; last by left; cbn [w_p]; nl F.
    exists U2, V2; cbn [w_s w_e w_u w_v w_p]; split=> //; split.
      split=> //; [by nl F| |by rewrite PE2].
      by rewrite -(@fro_PM U2 _ V2) // PE2 fro_PM.
    split=> [i hi|i hi|i hi hi1]; [|by apply: s2p; nl F|by apply: s2s => //; nl F].
    case: (leqP p i.+1) => h; first exact: e10.
    have -> : i = k1.-1 by nl F.
    by apply: e1k; nl F.
  - move=> i h1 h2; case: (leqP p i.+1) => h; first exact: e10.
    have -> : i = k1.-1 by nl F.
    by apply: e1k; nl F.
  - by move=> i hi; apply: sp; nl F.
  - by move=> i hi hi1; apply: ss => //; nl F.
have kp : (k1.+1 < p <= n)%N by nl F.
have e1ne i : (k1 <= i < p.-1)%N -> e1 i != 0 by move=> h; rewrite e1E ?(tiny_ne (ene _ _)) //; nl F.
have cc : (k1 + (p - k1) <= p <= n)%N by nl F.
apply: wpe_bind; apply: wpe_mono (find_s_ok cc Hs He1) => -[c sd1]; cbn [fst snd] => -[cp sne Hs1 sks].
rewrite -/e1 in He1 sks.
case: (altP (c =P 0%N)) => [c0|c0].
  (* kase 3 *)
  rewrite c0 eqxx in Hs1; rewrite c0 in sne.
  have H3 := @kase3_ok k1 p sd1 ed1 ud vd s e1 U V kp Hs1 He1 HU HV oU oV.
  apply: wpe_bind; apply: wpe_mono; last apply: H3 => //.
  - move=> [[[sd2 ed2] ud2] vd2] [s2 [e2 [U2 [V2 [[Hs2 He2 HU2 HV2] [[oU2 oV2 PE2 e2s s2E] K3]]]]]]; cbn [fst snd] in Hs2, He2, HU2, HV2.
    apply: wpe_ok; exists s2, e2; split; last first.
      right; split=> //; right; split; first by apply: cnt_le => i /e2s /e1s.
      split; [by apply: sne; nl F|by apply: ene; nl F|by nl F|].
      move: K3; rewrite /k3; have -> : bet1 p s e1 = bet1 p s e by rewrite /bet1 e1E //; nl F.
      have B : bet2 p s e1 ^+ 2 <= bet2 p s e ^+ 2.
        rewrite /bet2; case: ifP => // _; rewrite /e1; case: ifP => // _; rewrite /upd; case: ifP => // _.
        by rewrite mulr0 expr0n sqr_ge0.
      move=> [h1 h2 h3]; split=> //; first exact: le_trans B.
      by apply: le_trans h3 _; apply: ler_wpmul2l => //; exact: sqr_ge0.
    exists U2, V2; cbn [w_s w_e w_u w_v w_p]; split=> //; split.
      split=> //; first by rewrite -(@fro_PM U2 _ V2) // PE2 fro_PM.
      rewrite PE2; apply: le_trans errA1 _; exact: budget_le.
    split=> [i hi|i hi|i hi hi1].
    + by apply/eqP; apply: contraTT isT => /e2s; rewrite e10 ?eqxx.
    + by rewrite s2E ?sp //; nl F.
    + by rewrite !s2E ?ss //; nl F.
  - by move=> i hi; apply/tiny_ne/sne; nl F.
  - by apply: e10; nl F.
rewrite (negPf c0) in Hs1.
set ks := (k1 + c).-1 in Hs1 sks.
have ksn : (ks < n)%N by nl F.
have sksd : `|s ks| <= delta.
  have /sks /= h : (0 < c)%N by nl F.
  apply: le_trans h _; rewrite /delta ler_add2l ler_wpmul2l // ler_add //.
    case: (ltnP ks.+1 n) => h; first by apply: le_trans bN1; apply: bid_e.
    by rewrite e10 ?normr0 //; nl F.
  case: ifP => // h; apply: le_trans bN1; apply: bid_e; nl F.
have [D1 D2] := drop_s s e1 ksn.
have bN2 : fro (mxf m n (bidf (upd s ks 0) e1)) <= N by apply: le_trans bN1.
have dPM : fro (PM U (bidf s e1) V - PM U (bidf (upd s ks 0) e1) V) <= delta.
  by rewrite PM_sub //; apply: le_trans sksd.
case: (altP (k1 + c =P p)%N) => kcp.
  (* kase 1 *)
  have H1 := @kase1_ok k1 p sd1 ed1 vd (upd s ks 0) e1 U V kp Hs1 He1 HV oV.
  apply: wpe_bind; apply: wpe_mono; last apply: H1 => //.
  - move=> [[sd2 ed2] vd2] [s2 [e2 [V2 [[Hs2 He2 HV2 oV2] [PE2 e2s e2p s2E]]]]]; cbn [fst snd] in Hs2, He2, HV2.
    apply: wpe_ok; exists s2, e2; split; last first.
      right; split=> //; left; apply: (@leq_trans (cnt e1)); last exact: cnt_le.
      by apply: (@cnt_lt _ _ p.-2) => //; [nl F|apply: e1ne; nl F].
    exists U, V2; cbn [w_s w_e w_u w_v w_p]; split=> //; split.
      split=> //; first by rewrite -(@fro_PM U _ V2) // PE2 fro_PM.
      apply: (err_step errA1 (d:=delta)); first by rewrite PE2.
      by apply: (@budget_lt _ _ p.-2) => //; [nl F|apply: e1ne; nl F].
    split=> [i hi|i hi|i hi hi1].
    + by apply/eqP; apply: contraTT isT => /e2s; rewrite e10 ?eqxx.
    + by rewrite s2E ?upd_ne ?sp //; nl F.
    + by rewrite !s2E ?upd_ne ?ss //; nl F.
  - by rewrite /upd; have -> : p.-1 == ks by nl F.
(* kase 2 *)
have kc : (0 < k1 + c < p)%N by nl F.
have H2 := @kase2_ok (k1 + c) p sd1 ed1 ud (upd s ks 0) e1 U V kc pn Hs1 He1 HU oU.
apply: wpe_bind; apply: wpe_mono; last apply: H2 => //.
- move=> [[sd2 ed2] ud2] [s2 [e2 [U2 [[Hs2 He2 HU2 oU2] [PE2 e2s e2p s2E]]]]]; cbn [fst snd] in Hs2, He2, HU2.
  apply: wpe_ok; exists s2, e2; split; last first.
    right; split=> //; left; apply: (@leq_trans (cnt e1)); last exact: cnt_le.
    by apply: (@cnt_lt _ _ (k1 + c).-1) => //; [nl F|apply: e1ne; nl F].
  exists U2, V; cbn [w_s w_e w_u w_v w_p]; split=> //; split.
    split=> //; first by rewrite -(@fro_PM U2 _ V) // PE2 fro_PM.
    apply: (err_step errA1 (d:=delta)); first by rewrite PE2.
    by apply: (@budget_lt _ _ (k1 + c).-1) => //; [nl F|apply: e1ne; nl F].
  split=> [i hi|i hi|i hi hi1].
  + by apply/eqP; apply: contraTT isT => /e2s; rewrite e10 ?eqxx.
  + by rewrite s2E ?upd_ne ?sp //; nl F.
  + by rewrite !s2E ?upd_ne ?ss //; nl F.
- by rewrite upd_eq.
- by move=> i hi; apply: e1ne; nl F.
- by apply: e10; nl F.
Qed.

Lemma iter_ok (st : sweep S) : sv_inv st ->
  wp (svd_iter (S:=S) m n n.-1 st) (fun c => match c with Next st' => sv_inv st' | Stop r => w_p r = 0%N /\ sv_inv r end).
Proof.
move=> [s [e B]]; apply: wpe_mono (iter_prog B) => -[st' [s' [e' [B' _]]]|r //].
by exists s', e'.
Qed.

(** *** the loop ends *)
Variable K : nat.
Hypothesis K2 : (2 <= K)%N.
Hypothesis tiny1 : 0 < tiny.
Hypothesis big : 16%:R * N ^+ 12 <= 2%:R ^+ K * tiny ^+ 12.

(** after r QR steps in a row on the same block *)
Definition hist r (b1 b2 : F) : Prop := [/\ (r <= K)%N,
  ((0 < r)%N -> (b1 ^+ 2) ^+ 2 * b2 ^+ 2 * 2%:R ^+ r <= 8%:R * N ^+ 12) &
  ((1 < r)%N -> b1 ^+ 2 * tiny ^+ 8 * 2%:R ^+ r <= 16%:R * N ^+ 12)].

Lemma hist0 b1 b2 : hist 0 b1 b2.
Proof. by split. Qed.

Lemma hist_step r b1 b2 b1' b2' : hist r b1 b2 -> tiny ^+ 4 < b1 ^+ 2 -> b1 ^+ 2 <= N ^+ 4 ->
  k3 b1 b2 b1' b2' -> (r < K)%N /\ hist r.+1 b1' b2'.
Proof.
move=> [rK h1 h2] lo hi [k31 k32 k33].
have t4 : 0 < tiny ^+ 4 by rewrite exprn_gt0.
have t8 : 0 < tiny ^+ 8 by rewrite exprn_gt0.
have two r' : 0 < 2%:R ^+ r' :> F by rewrite exprn_gt0 ?ltr0n.
have rK' : (r < K)%N.
  rewrite ltn_neqAle rK andbT; apply/eqP => rE; have /h2 h : (1 < r)%N by nl F.
  have : 16%:R * N ^+ 12 < 16%:R * N ^+ 12; last by rewrite ltxx.
  apply: le_lt_trans big _; apply: lt_le_trans h; rewrite rE.
  have -> : 2%:R ^+ K * tiny ^+ 12 = tiny ^+ 4 * (tiny ^+ 8 * 2%:R ^+ K) by ring.
  by rewrite -mulrA ltr_pmul2r // mulr_gt0.
split=> //; split=> // h.
  case: r {rK} rK' h1 h2 h => [|r] rK' h1 h2 _.
    rewrite expr1; have -> : 8%:R * N ^+ 12 = 4%:R * (N ^+ 4) ^+ 3 * 2%:R by ring.
    rewrite ler_pmul2r ?ltr0n //; apply: le_trans k32 _; rewrite ler_pmul2l ?ltr0n //.
    by rewrite ler_expn2r // ?nnegrE ?sqr_ge0 // exprn_ge0.
  apply: le_trans (h1 _) => //; rewrite [2%:R ^+ r.+2]exprS mulrA ler_pmul2r //.
  by rewrite mulrC.
have /h1 {}h1 : (0 < r)%N by nl F.
have -> : 16%:R * N ^+ 12 = 8%:R * N ^+ 12 * 2%:R by ring.
have -> : b1' ^+ 2 * tiny ^+ 8 * 2%:R ^+ r.+1 = b1' ^+ 2 * tiny ^+ 8 * 2%:R ^+ r * 2%:R by rewrite [2%:R ^+ r.+1]exprSr mulrA.
rewrite ler_pmul2r ?ltr0n //; apply: le_trans h1; rewrite ler_pmul2r // mulrC.
have -> : tiny ^+ 8 = (tiny ^+ 4) ^+ 2 by ring.
apply: ler_pmul => //; [by rewrite sqr_ge0|by rewrite sqr_ge0|].
by rewrite ler_expn2r // ?nnegrE ?sqr_ge0 // ltW.
Qed.

Lemma svd_loop_total st fuel : sv_inv st -> w_p st = n -> (n * n.+1 * K.+1 <= fuel)%N ->
  wp (loop_ fuel (svd_iter (S:=S) m n n.-1) st) (fun r => w_p r = 0%N /\ sv_inv r).
Proof.
move=> [s0 [e0 B0]] pn fl; set M := ((n * n + n.-1) * K.+1 + K)%N.
apply: (@wpe_loop_count _ _ _ (fun c st => exists s e r, [/\ sv_bod st s e, hist r (bet1 (w_p st) s e) (bet2 (w_p st) s e)
  & ((w_p st * n + cnt e) * K.+1 + (K - r) + c <= M)%N]) (fun r => w_p r = 0%N /\ sv_inv r)) => //.
- exists s0, e0, 0%N; split=> //.
  by rewrite pn /M subn0 addn0 leq_add2r leq_mul2r leq_add2l cnt_max orbT.
- move=> c {B0 pn}st [s [e [r [B H Hm]]]]; apply: wpe_mono (iter_prog B) => -[st' [s' [e' [B' P]]]|//].
  have cm := cnt_max e'; case: P => [pp|[pE P]].
    exists s', e', 0%N; split=> //.
    have : (w_p st' * n + cnt e' < w_p st * n + cnt e)%N.
      apply: leq_trans (leq_addr _ _); apply: (@leq_trans ((w_p st').+1 * n)); last by rewrite leq_mul2r pp orbT.
      by rewrite mulSn; nl F.
    move: (w_p st' * n + cnt e')%N (w_p st * n + cnt e)%N Hm => x y Hm xy.
    have : (x.+1 * K.+1 <= y * K.+1)%N by rewrite leq_mul2r xy orbT.
    by rewrite mulSn; nl F.
  case: P => [cc|[cc [lo1 lo2 p1 kk]]].
    exists s', e', 0%N; split=> //.
    have : (w_p st' * n + cnt e' < w_p st * n + cnt e)%N by rewrite pE ltn_add2l.
    move: (w_p st' * n + cnt e')%N (w_p st * n + cnt e)%N Hm => x y Hm xy.
    have : (x.+1 * K.+1 <= y * K.+1)%N by rewrite leq_mul2r xy orbT.
    by rewrite mulSn; nl F.
  rewrite -pE in lo1 lo2 p1 H kk Hm; have [U' [V' [_ [[pn' _ _ bN' _] _]]]] := B'.
  have [U [V [_ [[pn _ _ bN _] _]]]] := B.
  have Lo : tiny ^+ 4 < bet1 (w_p st') s e ^+ 2.
    have -> : tiny ^+ 4 = (tiny * tiny) ^+ 2 by ring.
    rewrite /bet1 -[X in _ < X]real_normK ?num_real // normrM.
    by rewrite ltr_expn2r // ?nnegrE ?mulr_ge0 // ltr_pmul.
  have Hi : bet1 (w_p st') s e ^+ 2 <= N ^+ 4.
    have -> : N ^+ 4 = (N * N) ^+ 2 by ring.
    rewrite /bet1 -[X in X <= _]real_normK ?num_real // normrM.
    rewrite ler_expn2r // ?nnegrE ?mulr_ge0 // ler_pmul //; apply: le_trans bN.
      by apply: bid_s; clear -p1 pn'; move: (w_p st') p1 pn' => q; lia.
    by apply: bid_e; clear -p1 pn'; move: (w_p st') p1 pn' => q; lia.
  have [rK H'] := hist_step H Lo Hi kk.
  exists s', e', r.+1; split=> //.
  have : ((w_p st' * n + cnt e') * K.+1 <= (w_p st' * n + cnt e) * K.+1)%N by rewrite leq_mul2r leq_add2l cc orbT.
  clear -Hm rK; move: (_ * K.+1)%N (_ * K.+1)%N Hm => x y; lia.
- right=> st' [s [e [r [_ _ h]]]].
  have : (fuel <= M)%N by apply: leq_trans h; exact: leq_addl.
  apply/negP; rewrite -ltnNge; apply: leq_trans fl; rewrite /M.
  have -> : (n * n.+1 = (n * n + n.-1).+1)%N by rewrite mulnS; nl F.
  by rewrite mulSn; nl F.
Qed.

End Iter.
