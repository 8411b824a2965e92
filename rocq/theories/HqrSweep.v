(** * HqrSweep: the double QR step of hqr2 (eigen.rs:538-607). *)
From mathcomp Require Import all_ssreflect all_algebra zify ring.
From Verif Require Import Base Scalar Hoare ModelMatrix ModelEigen Spec SpecDecomp MatrixProofs LUProofs LUThms MiscThms Orth TredProofs TqlProofs OrthesProofs HqrStep.

Set Implicit Arguments.
Unset Strict Implicit.
Unset Printing Implicit Defensive.
Import Order.TTheory GRing.Theory Num.Theory.
Local Open Scope ring_scope.

Section Sweep.
Variable F : rcfType.
Variables eps tiny : F.
Local Notation S := (exactE eps tiny).
Variable n : nat.
Implicit Types (f g V : nat -> nat -> F) (d e : nat -> F) (P Q R s : F).

(** a unit vector; the projection on the first t+1 coordinates *)
Definition ecol j : 'cV[F]_n := \col_i (i == j :> nat)%:R.
Definition proj t : 'M[F]_n := mxf n n (fun a b => if (a == b) && (a <= t)%N then 1 else 0).

Lemma house_fix u h j : u j = 0 -> (j < n)%N -> house n u h *m ecol j = ecol j.
Proof.
move=> uj jn; rewrite /house; case: ifP => _; first by rewrite mul1mx.
rewrite mulmxBl mul1mx -scalemxAl -mulmxA.
have -> : ecol j = uvec n (fun i => (i == j)%:R) by [].
rewrite uvec_dot big_mkord (bigD1 (Ordinal jn)) //= uj mul0r add0r big1.
  by rewrite mul_mx_scalar scale0r scaler0 subr0.
by move=> i; rewrite -val_eqE /= => /negPf ->; rewrite mulr0.
Qed.

Lemma house_proj u h t : (forall a, (t < a)%N -> u a = 0) ->
  (h != 0 -> \sum_(0 <= i < n) u i * u i = h *+ 2) ->
  house n u h *m proj t *m house n u h = proj t.
Proof.
move=> ut hh.
have DU : proj t *m uvec n u = uvec n u.
  apply/matrixP => i j; rewrite !mxE (bigD1 i) //= !mxE eqxx /= big1 ?addr0.
    by case: leqP => ti; rewrite ?mul1r // ut ?mulr0.
  move=> k; rewrite -val_eqE /= => /negPf ki; rewrite !mxE [_ == _]eq_sym ki mul0r //.
have Dt : (proj t)^T = proj t.
  by apply/matrixP => i j; rewrite !mxE eq_sym; case: eqP => // ->.
have UD : (uvec n u)^T *m proj t = (uvec n u)^T.
  by apply: trmx_inj; rewrite trmx_mul Dt trmxK DU.
have -> : house n u h *m proj t = proj t *m house n u h.
  rewrite /house; case: ifP => _; first by rewrite mul1mx mulmx1.
  by rewrite mulmxBl mulmxBr mul1mx mulmx1 -scalemxAl -scalemxAr mulmxA DU -mulmxA UD.
by rewrite -mulmxA house_invol ?mulmx1.
Qed.

Lemma fro_ecol (c : F) j : fro (c *: ecol j) <= `|c|.
Proof.
rewrite /fro; case: (ltnP j n) => jn; last first.
  rewrite big1 ?sqrtr0 // => i _; rewrite big1 // => k _; rewrite !mxE.
  by have -> : (i == j :> nat) = false by [have := ltn_ord i; lia]; rewrite mulr0 expr0n.
rewrite -sqrtr_sqr; apply: ler_wsqrtr.
rewrite (bigD1 (Ordinal jn)) //= big_ord1 big1 ?addr0; last first.
  by move=> i; rewrite -val_eqE /= => /negPf ij; rewrite big1 // => k _; rewrite !mxE ij mulr0 expr0n.
by rewrite !mxE eqxx mulr1.
Qed.

(** the first column of the reflection is close to -e_k when q and r are small *)
Lemma refl_first k P Q R s p : (k < n)%N -> P = p + s -> s ^+ 2 = p ^+ 2 + Q ^+ 2 + R ^+ 2 ->
  0 <= p * s -> P != 0 -> s != 0 ->
  `|p| * fro (house n (u3 k P Q R) (P * s) *m ecol k + ecol k) <= (`|Q| + `|R|) *+ 2.
Proof.
move=> kn PE sE ps P0 s0.
have -> : house n (u3 k P Q R) (P * s) *m ecol k + ecol k =
   ((s - p) / s) *: ecol k + ((- Q / s) *: ecol k.+1 + (- R / s) *: ecol k.+2).
  have -> : ecol k = mxf n 1 (fun i j => (i == k)%:R) by apply/matrixP => i j; rewrite !mxE.
  rewrite house_lE; last by rewrite mulf_neq0.
  apply/matrixP => i j; rewrite !mxE /=.
  have -> : \sum_(0 <= l < n) u3 k P Q R l * (l == k)%:R = P.
    rewrite big_mkord (bigD1 (Ordinal kn)) //= /u3 !eqxx mulr1 big1 ?addr0 // => l.
    by rewrite -val_eqE /= => /negPf ->; rewrite mulr0.
  rewrite /u3.
  have [ik|[ik|[ik|ik]]] : (i = k :> nat) \/ (i = k.+1 :> nat) \/ (i = k.+2 :> nat) \/ ((i <> k :> nat) /\ (i <> k.+1 :> nat) /\ (i <> k.+2 :> nat)) by lia.
  - rewrite ik eqxx; have -> : (k == k.+1) = false by lia.
    have -> : (k == k.+2) = false by lia.
    rewrite /= PE; field; rewrite s0 -PE P0 //.
  - rewrite ik eqxx; have -> : (k.+1 == k) = false by lia.
    have -> : (k.+1 == k.+2) = false by lia.
    rewrite /= PE; field; rewrite s0 -PE P0 //.
  - rewrite ik eqxx; have -> : (k.+2 == k) = false by lia.
    have -> : (k.+2 == k.+1) = false by lia.
    rewrite /= PE; field; rewrite s0 -PE P0 //.
  - case: ik => /eqP/negPf h1 [/eqP/negPf h2 /eqP/negPf h3]; rewrite h1 h2 h3 /=; ring.
set b := `|Q| + `|R|.
have b0 : 0 <= b by rewrite addr_ge0.
have s0' : 0 < `|s| by rewrite normr_gt0.
have sp : `|s - p| <= b.
  rewrite -[b]ger0_norm // -ler_sqr ?nnegrE // -!normrX.
  rewrite [X in _ <= X]ger0_norm ?sqr_ge0 // ger0_norm ?sqr_ge0 //.
  apply: (@le_trans _ _ (Q ^+ 2 + R ^+ 2)).
    have -> : (s - p) ^+ 2 = Q ^+ 2 + R ^+ 2 - 2%:R * (p * (s - p)) by ring: sE.
    rewrite ler_subl_addr ler_addl mulr_ge0 ?ler0n // mulrBr subr_ge0 -expr2.
    have : p ^+ 2 <= s ^+ 2 by rewrite sE -addrA ler_addl addr_ge0 ?sqr_ge0.
    move=> H; have : `|p * p| <= `|p * s|.
      rewrite !normrM ler_wpmul2l // -ler_sqr ?nnegrE // -!normrX !ger0_norm ?sqr_ge0 //.
    by rewrite [X in _ <= X]ger0_norm // ger0_norm -?expr2 ?sqr_ge0.
  have -> : Q ^+ 2 = `|Q| ^+ 2 by rewrite real_normK ?num_real.
  have -> : R ^+ 2 = `|R| ^+ 2 by rewrite real_normK ?num_real.
  rewrite /b sqrrD ler_add2r ler_addl mulrn_wge0 // mulr_ge0 //.
have ps' : `|p| <= `|s|.
  rewrite -ler_sqr ?nnegrE // -!normrX !ger0_norm ?sqr_ge0 // sE -addrA ler_addl addr_ge0 ?sqr_ge0 //.
apply: (@le_trans _ _ (`|s| * ((b + b) / `|s|))).
  apply: ler_pmul => //; first exact: fro_ge0.
  rewrite [X in _ <= X]mulrDl; apply: le_trans (froD _ _) _; apply: ler_add.
    by apply: le_trans (fro_ecol _ _) _; rewrite normrM normfV ler_wpmul2r // invr_ge0.
  apply: le_trans (froD _ _) _; rewrite [X in _ <= X]mulrDl; apply: ler_add.
    by apply: le_trans (fro_ecol _ _) _; rewrite normrM normfV normrN.
  by apply: le_trans (fro_ecol _ _) _; rewrite normrM normfV normrN.
by rewrite mulrCA divff ?mulr1 ?mulr2n // gt_eqF.
Qed.

(** *** one reflection *)
Lemma reflect_ok (E : err -> Prop) sub l m t k p q r x h v f V :
  (l <= m)%N -> (m <= k < t)%N -> (t < n)%N -> (k.+1 = t -> r = 0) -> (m.+1 < t)%N ->
  p ^+ 2 + q ^+ 2 + r ^+ 2 != 0 -> zz t k f ->
  ((m < k)%N -> [/\ f k k.-1 = x * p, f k.+1 k.-1 = x * q & (k.+2 <= t)%N -> f k.+2 k.-1 = x * r]) ->
  repr n n h f -> repr n n v V ->
  wpe E (hqr2_reflect (S:=S) n t l m k p q r x h v) (fun st => exists f' V' u hh,
    let H := house n u hh in
    [/\ repr n n st.1 f' /\ repr n n st.2 V',
        [/\ hh != 0 -> \sum_(0 <= i < n) u i * u i = hh *+ 2,
            forall a, ~~ (k <= a <= t)%N -> u a = 0 &
            k = m -> `|p| * fro (H *m ecol m + ecol m) <= (`|q| + `|r|) *+ 2],
        H *m mxf n n (W sub m t k f) *m H = mxf n n (W sub m t k.+1 f') &
        [/\ mxf n n V' = mxf n n V *m H, zz t k.+1 f',
            forall a b, (t < a)%N -> f' a b = f a b &
            (0 < m)%N -> f' m m.-1 = if (k == m) && (l != m) then - f m m.-1 else f m m.-1]]).
Proof.
move=> lm mk tn kr mt2 pqr hz hx Hf Hv; rewrite /hqr2_reflect.
set s2 := p ^+ 2 + q ^+ 2 + r ^+ 2 in pqr.
have s2p : 0 < s2 by rewrite lt_neqAle eq_sym pqr /s2 !addr_ge0 ?sqr_ge0.
have sE0 : p * p + q * q + r * r = s2 by rewrite /s2 !expr2.
exs; rewrite sE0 ltNge (ltW s2p) /=.
set s := (if p < 0 then _ else _).
have sE : s ^+ 2 = p ^+ 2 + q ^+ 2 + r ^+ 2.
  by rewrite -/s2 /s; case: ifP => _; rewrite ?sqrrN sqr_sqrtr // ltW.
have s0 : s != 0 by rewrite /s; case: ifP => _; rewrite ?oppr_eq0 gt_eqF // sqrtr_gt0.
have ps : 0 <= p * s.
  rewrite /s; case: ltP => hp; last by rewrite mulr_ge0 // sqrtr_ge0.
  by rewrite mulrN -mulNr mulr_ge0 ?sqrtr_ge0 // oppr_ge0 ltW.
have P0 : p + s != 0.
  have : 0 < p ^+ 2 + p * s + p * s + s ^+ 2.
    by rewrite ltr_paddl ?exprn_even_gt0 // !addr_ge0 ?sqr_ge0.
  have -> : p ^+ 2 + p * s + p * s + s ^+ 2 = (p + s) ^+ 2 by ring.
  by apply: contraTneq => ->; rewrite expr0n ltxx.
rewrite (negPf s0); cbn [negb].
pose c := if k != m then - s * x else if l != m then - f k k.-1 else f k k.-1.
pose g a b := if (a == k) && (b.+1 == k) then c else f a b.
apply: (wpe_bind2 (P := fun h => repr n n h g)).
  rewrite /set2 /at2; case: (altP (k =P m)) => km; cbn [negb].
    case: (altP (l =P m)) => lm'; cbn [negb].
      apply: wpe_ok; apply: repr_ext Hf _ => a b ha hb; rewrite /g /c; case: ifP => // /andP[/eqP -> /eqP bk].
      by rewrite km lm' !eqxx /= -km -bk.
    rewrite subn1; have k0 : (0 < k)%N by move: lm lm'; rewrite km; clear; lia.
    rewrite (repr_get Hf); [|by nl F|by nl F]; cbn [bind].
    apply: (wpe_repr_set Hf); [by nl F|by nl F|] => h' Hh'; apply: repr_ext Hh' _ => a b ha hb.
    by rewrite /g /c km eqxx lm' /= -km; have -> : (b == k.-1) = (b.+1 == k) by nl F.
  rewrite subn1; apply: (wpe_repr_set Hf); [by nl F|by nl F|] => h' Hh'; apply: repr_ext Hh' _ => a b ha hb.
  by rewrite /g /c km /=; have -> : (b == k.-1) = (b.+1 == k) by nl F.
move=> h1 Hg; cbn [bind]; rewrite (negPf P0); cbn [bind].
have knl : if k != (t - 1)%N then (k.+2 < n)%N else r == 0.
  by case: eqP => [kt|kt] /=; [rewrite kr //; nl F|nl F].
have kn : (k.+1 < n)%N by nl F.
apply: wpe_bind; apply: wpe_mono (@rows_ok F eps tiny n E k _ (p + s) q r s _ _ kn knl P0 s0 Hg) => h2 Hh2.
have hin : ((minn t k.+3).+1 <= n)%N by nl F.
rewrite addn1 addn3.
apply: wpe_bind; apply: wpe_mono (@cols_ok F eps tiny n E _ k _ (p + s) q r s _ _ kn hin knl P0 s0 Hh2) => h3 Hh3.
apply: wpe_bind; apply: wpe_mono (@cols_ok F eps tiny n E n k _ (p + s) q r s _ _ kn (leqnn n) knl P0 s0 Hv) => v3 Hv3.
apply: wpe_ok; cbn [fst snd].
exists (fcol (minn t k.+3).+1 k (p + s) q r s (frow k (p + s) q r s g)).
exists (fcol n k (p + s) q r s V), (u3 k (p + s) q r), ((p + s) * s).
have knR : (k.+2 < n)%N || (r == 0).
  by case: (leqP k.+2 t) => hkt; [have -> : (k.+2 < n)%N by nl F|rewrite kr ?eqxx ?orbT //; nl F].
have hR : r != 0 -> (k.+2 <= t)%N.
  by case: (leqP k.+2 t) => // hkt; rewrite kr ?eqxx //; nl F.
have uS G : \sum_(0 <= l < n) u3 k (p + s) q r l * G l = s3 k (p + s) q r G := u3_sum _ _ G kn knR.
split; first by split; [exact: Hh3|exact: Hv3].
- split.
  + move=> _; rewrite uS /s3 /u3; ifn F; ring: sE.
  + move=> a ha; rewrite /u3; ifn F; case: eqP => // ak.
    by apply/eqP; apply: contraT => /hR; nl F.
  + by move=> <-; apply: refl_first => //; nl F.
- apply: (@step_pure F n sub m t k _ _ _ s x p q r c) => // mk'.
  have [h4 h5 h6] := hx mk'; split=> //.
  by rewrite /c; have -> : k != m by nl F.
split.
- rewrite house_rE ?mulf_neq0 //; apply/matrixP => a b; rewrite !mxE /fcol ltn_ord.
  by rewrite -uS; congr (_ - _ / _ * _); apply: eq_bigr => i _; rewrite mulrC.
- move=> i hi; have [z1 z2] := hz i ltac:(nl F).
  have gi b : g i b = f i b by rewrite /g; have -> : (i == k) = false by nl F.
  have fi b : frow k (p + s) q r s g i b = f i b.
    by rewrite /frow gi /u3; ifn F; rewrite !mul0r subr0 if_same.
  by rewrite /fcol; have -> : (i < (minn t k.+3).+1)%N = false by [nl F]; rewrite !fi.
- move=> a b ta.
  have ga b' : g a b' = f a b' by rewrite /g; have -> : (a == k) = false by nl F.
  have fa b' : frow k (p + s) q r s g a b' = f a b'.
    rewrite /frow ga; suff -> : u3 k (p + s) q r a = 0 by rewrite !mul0r subr0 if_same.
    rewrite /u3; ifn F; case: eqP => // ak.
    by apply/eqP; apply: contraT => /hR; nl F.
  by rewrite /fcol; have -> : (a < (minn t k.+3).+1)%N = false by [nl F]; rewrite fa.
- move=> m0; rewrite /fcol /frow /g /c /u3; ifn F; rewrite mulr0 subr0.
  case: (altP (k =P m)) => [->|km]; last by ifn F.
  by rewrite prednK // !eqxx /=; ifn F.
Qed.

(** *** the whole sweep *)
Definition WW sub m t f a b : F :=
  if (a <= b)%N || ((a == b.+1) && kp sub m t a) then f a b else 0.

Lemma W_start sub m t f : f m.+2 m = 0 -> mxf n n (W sub m t m f) = mxf n n (WW sub m t f).
Proof.
move=> z; apply/matrixP => a b; rewrite !mxE /W /WW /pr; move: (nat_of_ord a) (nat_of_ord b) => {}a {}b.
case: (boolP ((a <= b)%N || ((a == b.+1) && kp sub m t a))) => //= h1.
case: ifP => // h2; move: h1 h2; rewrite /kp => h1 h2.
have [-> ->] : a = m.+2 /\ b = m by nl F.
by [].
Qed.

Lemma W_end sub m t f : (m < t)%N -> mxf n n (W sub m t t f) = mxf n n (WW sub m t f).
Proof.
move=> mt; apply/matrixP => a b; rewrite !mxE /W /WW /pr; move: (nat_of_ord a) (nat_of_ord b) => {}a {}b.
case: (boolP ((a <= b)%N || ((a == b.+1) && kp sub m t a))) => //= h1.
by case: ifP => // h2; exfalso; move: h1 h2; rewrite /kp; nl F.
Qed.

Definition qr_inv sub (l m t : nat) (p q r : F) f0 V0 (k : nat) (st : seq F * seq F) : Prop :=
  exists f V (Q : 'M[F]_n),
  [/\ repr n n st.1 f /\ repr n n st.2 V,
      [/\ orthogonal Q, mxf n n V = mxf n n V0 *m Q &
          Q^T *m mxf n n (W sub m t m f0) *m Q = mxf n n (W sub m t k f)],
      zz t k f, forall a b, (t < a)%N -> f a b = f0 a b &
      [/\ Q^T *m proj t *m Q = proj t,
          (0 < m)%N -> Q^T *m ecol m.-1 = ecol m.-1,
          (0 < m)%N -> f m m.-1 = if (m < k)%N && (l != m) then - f0 m m.-1 else f0 m m.-1 &
          if k == m then Q = 1%:M else `|p| * fro (Q^T *m ecol m + ecol m) <= (`|q| + `|r|) *+ 2]].

Lemma qr_ok (E : err -> Prop) sub l m t p q r x h v f0 V0 :
  (l <= m)%N -> (m.+1 < t)%N -> (t < n)%N ->
  p ^+ 2 + q ^+ 2 + r ^+ 2 != 0 -> zz t m f0 -> repr n n h f0 -> repr n n v V0 ->
  wpe E (hqr2_qr (S:=S) n t l m p q r x h v) (qr_inv sub l m t p q r f0 V0 t).
Proof.
move=> lm mt tn pqr hz Hf0 HV0; rewrite /hqr2_qr.
apply: (wpe_for (qr_inv sub l m t p q r f0 V0)) => //; first by nl F.
  exists f0, V0, 1%:M; split=> //.
    by split; [exact: orthogonal1|rewrite mulmx1|rewrite trmx1 mul1mx mulmx1].
  by rewrite trmx1 !mul1mx mulmx1 ltnn eqxx; split.
move=> k [h1 v1] hk [f [V [Q [[Hf HV] [oQ VE TE] hzk hrow [Qp Qe fm Qb]]]]]; cbn [fst snd] in Hf, HV.
have key (p' q' r' x' : F) : (k.+1 = t -> r' = 0) -> p' ^+ 2 + q' ^+ 2 + r' ^+ 2 != 0 ->
    ((m < k)%N -> [/\ f k k.-1 = x' * p', f k.+1 k.-1 = x' * q' & (k.+2 <= t)%N -> f k.+2 k.-1 = x' * r']) ->
    (k = m -> [/\ p' = p, q' = q & r' = r]) ->
    wpe E (hqr2_reflect (S:=S) n t l m k p' q' r' x' h1 v1) (qr_inv sub l m t p q r f0 V0 k.+1).
  move=> kr pqr' hx km.
  apply: wpe_mono (@reflect_ok E sub l m t k p' q' r' x' h1 v1 f V lm hk tn kr mt pqr' hzk hx Hf HV) => -[h2 v2].
  move=> [f' [V' [u [hh [[Hf' HV'] [hu ut hb] E' [VE' hz' hrow' fm']]]]]]; cbn [fst snd] in Hf', HV'.
  have oH : orthogonal (house n u hh) := house_orth hu.
  exists f', V', (Q *m house n u hh); rewrite trmx_mul house_tr; split=> //.
  - split; [exact: orthogonalM|by rewrite VE' VE mulmxA|].
    rewrite -E' -TE !mulmxA //.
  - by move=> a b ta; rewrite hrow' // hrow.
  split.
  - rewrite !mulmxA -[X in X *m _]mulmxA -[X in X *m _]mulmxA [Q^T *m _]mulmxA Qp; apply: house_proj => // a ta.
    by apply: ut; nl F.
  - by move=> m0; rewrite -mulmxA Qe // house_fix //; [apply: ut; nl F|nl F].
  - move=> m0; rewrite fm' // fm //; have -> : (m < k.+1)%N by nl F.
    by case: (altP (k =P m)) => [->|km']; rewrite ?ltnn //=; have -> : (m < k)%N by nl F.
  - have -> : (k.+1 == m) = false by nl F.
    move: Qb; case: (altP (k =P m)) => [kE Q1|km' Qb].
      have [hp hq hr] := km kE; move: hb; rewrite hp hq hr => /(_ kE) hb.
      by rewrite -mulmxA Q1 trmx1 mul1mx.
    rewrite -mulmxA; have -> : house n u hh *m (Q^T *m ecol m) + ecol m = house n u hh *m (Q^T *m ecol m + ecol m).
      by rewrite mulmxDr [in RHS](house_fix _ _) //; [apply: ut; nl F|nl F].
    by rewrite fro_orth_l.
case: (altP (k =P m)) => km; cbn [negb].
  by apply: key => //; nl F.
rewrite /at2 subn1 addn1 addn2.
rewrite (repr_get Hf); [|by nl F|by nl F]; cbn [bind].
rewrite (repr_get Hf); [|by nl F|by nl F]; cbn [bind].
pose r1 := if k != (t - 1)%N then f k.+2 k.-1 else 0.
have -> : (if k != (t - 1)%N then vget h1 (k.+2 * n + k.-1) else Ok (n_zero S)) = Ok r1.
  by rewrite /r1; case: eqP => //= kt; rewrite (repr_get Hf) //; nl F.
cbn [bind]; exs; set p1 := f k k.-1; set q1 := f k.+1 k.-1; set x1 := _ + `|r1|.
have r1t : (k.+2 <= t)%N -> f k.+2 k.-1 = r1 by move=> kt; rewrite /r1; case: eqP => //=; nl F.
case: (altP (x1 =P 0)) => x10; last first.
  cbn [bind]; apply: key.
  - by move=> kt; rewrite /r1; have -> : k == (t - 1)%N by [nl F]; rewrite mul0r.
  - rewrite !exprMn -!mulrDl mulf_neq0 // ?expf_neq0 ?invr_eq0 //.
    apply: contra_neq x10 => /eqP; rewrite !paddr_eq0 ?addr_ge0 ?sqr_ge0 // !sqrf_eq0.
    by move=> /andP[/andP[/eqP hp /eqP hq] /eqP hr]; rewrite /x1 hp hq hr !normr0 !addr0.
  - by move=> mk; rewrite -/p1 -/q1; split=> [||kt]; rewrite ?r1t // mulrCA divff ?mulr1.
  - by move=> kE; move: km; rewrite kE eqxx.
move/eqP: x10; rewrite /x1 !paddr_eq0 ?addr_ge0 // !normr_eq0 => /andP[/andP[/eqP hp /eqP hq] /eqP hr].
apply: wpe_ok; exists f, V, Q; split=> //; cbn [fst snd].
- split=> //; rewrite TE; apply/matrixP => a b; rewrite !mxE /W.
  move: (nat_of_ord a) (nat_of_ord b) => {}a {}b.
  case: (boolP (pr sub m t k a b)) => h1'; case: (boolP (pr sub m t k.+1 a b)) => h2' //.
    have bE : b = k.-1 by move: h1' h2'; rewrite /pr /kp; nl F.
    have [aE|[aE kt]] : a = k.+1 \/ (a = k.+2 /\ (k.+2 <= t)%N) by move: h1' h2'; rewrite /pr /kp; nl F.
      by rewrite aE bE.
    by rewrite aE bE r1t.
  have kt : (k.+3 <= t)%N by move: h1' h2'; rewrite /pr /kp; nl F.
  have [] := hzk k.+3; first by nl F.
  rewrite subSS subn1 /= subSS subSS subn1 /= => z1 z2.
  have aE : a = k.+3 by move: h1' h2'; rewrite /pr /kp; nl F.
  have [bE|bE] : b = k \/ b = k.+1 by move: h1' h2'; rewrite /pr /kp; nl F.
    by rewrite aE bE z2.
  by rewrite aE bE z1.
- by move=> i hi; apply: hzk; nl F.
split=> //.
- by move=> m0; rewrite fm //; have -> : (m < k)%N by [nl F]; have -> : (m < k.+1)%N by nl F.
- by have -> : (k.+1 == m) = false by [nl F]; move: Qb; rewrite (negPf km).
Qed.

End Sweep.
