(** * HqrBack: back substitution of hqr2 (eigen.rs:610-753). *)
From mathcomp Require Import all_ssreflect all_algebra zify ring.
From Verif Require Import Base Scalar Hoare ModelMatrix ModelEigen Spec SpecDecomp MatrixProofs LUProofs LUThms MiscThms Orth TredProofs TqlProofs EigenProofs OrthesProofs HqrStep HqrSweep HqrIter HqrMore.

Set Implicit Arguments.
Unset Strict Implicit.
Unset Printing Implicit Defensive.
Import Order.TTheory GRing.Theory Num.Theory.
Local Open Scope ring_scope.

Section Back.
Variable F : rcfType.
Variables eps tiny : F.
Hypothesis eps0 : 0 < eps.
Local Notation S := (exactE eps tiny).
Variable n : nat.
Implicit Types (f g V : nat -> nat -> F) (d e x : nat -> F).

Lemma cdiv_wp (E : err -> Prop) xr xi yr yi (Q : F * F -> Prop) : (yr != 0) || (yi != 0) ->
  (forall a b, a * yr - b * yi = xr -> a * yi + b * yr = xi -> Q (a, b)) ->
  wpe E (cdiv (S:=S) xr xi yr yi) Q.
Proof.
move=> y0 HQ; rewrite cdiv_okE //; apply: HQ; field;
  by rewrite paddr_eq0 ?sqr_ge0 // !sqrf_eq0 negb_and.
Qed.

Section Schur.
Variables (d e : nat -> F) (f : nat -> nat -> F) (norm : F).
Hypothesis norm0 : 0 < norm.
Hypothesis Hfin : forall i, (i < n)%N -> fin n 0 d e f i.

(** the quasi-triangular matrix *)
Definition Tt a b : F :=
  if (a <= b)%N then f a b else if (a == b.+1) && (e a < 0) then f a b else 0.

Lemma Tt_up a b : (a <= b)%N -> Tt a b = f a b.
Proof. by rewrite /Tt => ->. Qed.

Lemma Tt_low a b : (b < a)%N -> 0 <= e a -> Tt a b = 0.
Proof. by move=> h ea; rewrite /Tt ltNge ea andbF; ifn F. Qed.

Lemma Tt_low2 a b : (b.+1 < a)%N -> Tt a b = 0.
Proof.
move=> h; rewrite /Tt; have -> : (a == b.+1) = false by nl F.
by have -> : (a <= b)%N = false by nl F.
Qed.

Lemma Tt_pair a : e a.+1 < 0 -> Tt a.+1 a = f a.+1 a.
Proof. by move=> h; rewrite /Tt eqxx h; ifn F. Qed.

(** blocks *)
Lemma neg_prev i : (i < n)%N -> e i < 0 -> (0 < i)%N /\ 0 < e i.-1.
Proof.
move=> hi h; have := Hfin hi; rewrite /fin lt_eqF //.
by have -> : (0 < e i) = false by apply/negbTE; rewrite -leNgt ltW.
Qed.

Lemma pos_next i : (i < n)%N -> 0 < e i ->
  [/\ (i.+1 < n)%N, e i.+1 = - e i, d i.+1 = d i, f i i + f i.+1 i.+1 = d i *+ 2 &
      f i i * f i.+1 i.+1 - f i i.+1 * f i.+1 i = d i ^+ 2 + e i ^+ 2].
Proof. by move=> hi h; have := Hfin hi; rewrite /fin gt_eqF // h. Qed.

Lemma off_neq0 i : (i < n)%N -> 0 < e i -> f i i.+1 != 0 /\ f i.+1 i != 0.
Proof.
move=> hi h; have [_ _ _ h1 h2] := pos_next hi h.
have : f i i.+1 * f i.+1 i < 0.
  have fE : f i.+1 i.+1 = d i *+ 2 - f i i by rewrite -h1 addrC addKr.
  have -> : f i i.+1 * f i.+1 i = - ((f i i - d i) ^+ 2 + e i ^+ 2).
    have -> : f i i.+1 * f i.+1 i = f i i * f i.+1 i.+1 - (d i ^+ 2 + e i ^+ 2) by rewrite -h2; ring.
    by rewrite fE; ring.
  by rewrite oppr_lt0 ltr_paddl ?sqr_ge0 // exprn_gt0.
by move/lt_eqF/negbT; rewrite mulf_eq0 negb_or => /andP.
Qed.

Section Col.
Variable c : nat.
Hypothesis cn : (c < n)%N.
Local Notation p := (d c).

(** row a of T x, x starting at row l *)
Definition RS l a x : F := \sum_(l <= k < c.+1) Tt a k * x k.

Lemma RS_ext l a x x' : (forall k, (l <= k <= c)%N -> x k = x' k) -> RS l a x = RS l a x'.
Proof. by move=> h; apply: eq_big_nat => k hk; rewrite h //; nl F. Qed.

Lemma RS_cons l a x : (l <= c)%N -> RS l a x = Tt a l * x l + RS l.+1 a x.
Proof. by move=> h; rewrite /RS big_ltn // ltnS. Qed.

Lemma RS_scale l a x t : RS l a (fun k => x k / t) = RS l a x / t.
Proof. by rewrite /RS mulr_suml; apply: eq_bigr => k _; rewrite mulrA. Qed.

(** the row sums the code computes *)
Lemma RS_f l i x : (i <= l)%N -> \sum_(l <= k < c.+1) f i k * x k = RS l i x.
Proof. by move=> h; apply: eq_big_nat => k hk; rewrite Tt_up //; nl F. Qed.

(** *** a real vector *)
Section Real.
Hypothesis ec : e c = 0.

Definition colr l x := forall a, (l <= a <= c)%N ->
  `|RS l a x - p * x a| <= eps * norm * `|x a|.

Lemma colr_scale l x t x' : colr l x ->
  (forall k, (l <= k <= c)%N -> x' k = x k / t) -> colr l x'.
Proof.
move=> H hx a ha; rewrite (RS_ext _ hx) RS_scale hx // mulrA -mulrBl !normrM mulrA.
by rewrite ler_wpmul2r // H.
Qed.

Lemma colr_start x : colr c x.
Proof.
move=> a ha; have -> : a = c by nl F.
rewrite RS_cons // Tt_up // /RS big_geq // addr0.
have := Hfin cn; rewrite /fin ec eqxx => ->.
by rewrite subrr normr0 !mulr_ge0 // ltW.
Qed.

Lemma colr_one i x v : (i < c)%N -> 0 <= e i.+1 -> colr i.+1 x ->
  `|(f i i - p) * v + RS i.+1 i x| <= eps * norm * `|v| -> colr i (upd x i v).
Proof.
move=> ic ei H Hv a ha; rewrite RS_cons; last by nl F.
have -> : RS i.+1 a (upd x i v) = RS i.+1 a x by apply: RS_ext => k hk; rewrite /upd; ifn F.
rewrite /upd eqxx; case: (altP (a =P i)) => [->|ai].
  by rewrite Tt_up //; move: Hv; rewrite mulrBl addrAC.
have ia : (i < a)%N by nl F.
have -> : Tt a i = 0.
  case: (ltngtP a i.+1) => [|h|->]; [by nl F|by apply: Tt_low2|by apply: Tt_low].
by rewrite mul0r add0r; apply: H; nl F.
Qed.

Lemma colr_two i x t u : (i.+1 < c)%N -> 0 < e i -> colr i.+2 x ->
  (f i i - p) * t + f i i.+1 * u + RS i.+2 i x = 0 ->
  f i.+1 i * t + (f i.+1 i.+1 - p) * u + RS i.+2 i.+1 x = 0 ->
  colr i (upd (upd x i t) i.+1 u).
Proof.
move=> ic ei H H1 H2 a ha.
have [_ ei1 _ _ _] := pos_next (ltn_trans (ltnW ic) cn) ei.
have e1 : e i.+1 < 0 by rewrite ei1 oppr_lt0.
rewrite RS_cons; last by nl F.
rewrite RS_cons; last by nl F.
have -> : RS i.+2 a (upd (upd x i t) i.+1 u) = RS i.+2 a x.
  by apply: RS_ext => k hk; rewrite /upd; ifn F.
rewrite /upd eqxx; have -> : (i == i.+1) = false by nl F.
rewrite eqxx; case: (altP (a =P i.+1)) => [->|ai1].
  rewrite Tt_pair // Tt_up //.
  have -> : f i.+1 i * t + (f i.+1 i.+1 * u + RS i.+2 i.+1 x) - p * u = 0 by rewrite -[RHS]H2; ring.
  by rewrite normr0 !mulr_ge0 // ltW.
case: (altP (a =P i)) => [->|ai].
  rewrite !Tt_up //.
  have -> : f i i * t + (f i i.+1 * u + RS i.+2 i x) - p * t = 0 by rewrite -[RHS]H1; ring.
  by rewrite normr0 !mulr_ge0 // ltW.
have -> : Tt a i = 0 by apply: Tt_low2; nl F.
have -> : Tt a i.+1 = 0.
  case: (ltngtP a i.+2) => [|h|aE]; [by nl F|by apply: Tt_low2|apply: Tt_low; first by nl F].
  have an : (a < n)%N by nl F.
  rewrite leNgt; apply/negP => /(neg_prev an) [_]; rewrite aE /=.
  by rewrite ltNge (ltW e1).
by rewrite !mul0r !add0r; apply: H; nl F.
Qed.

Lemma scale1_ok (E : err -> Prop) i h g : (i <= c)%N -> repr n n h g ->
  wpe E (hqr2_scale1 (S:=S) n i c h) (fun h' => exists t, t != 0 /\
    repr n n h' (fun a b => if (b == c) && (i <= a <= c)%N then g a b / t else g a b)).
Proof.
move=> ic Hg; rewrite /hqr2_scale1 /at2 /set2 (repr_get Hg) //; last by nl F.
cbn [bind]; exs; case: ltP => h1; last first.
  by apply: wpe_ok; exists 1; rewrite oner_neq0; split=> //; apply: repr_ext Hg _ => a b _ _; rewrite divr1; case: ifP.
set t := `|_| in h1 *.
have t0 : t != 0 by apply: contraTneq h1 => ->; rewrite mulr0 -leNgt ler01.
apply: wpe_mono; last first.
  apply: (for_own (fun a b => a) (fun a b => if b == c then g a b / t else g a b) _ Hg); first by nl F.
  move=> k v g1 hk Hv E1.
  rewrite (repr_get Hv) //; last by nl F.
  cbn [bind]; rewrite (negPf t0); cbn [bind]; rewrite (E1 k c) ?eqxx //; last by nl F.
  apply: (wpe_repr_set Hv) => //; first by nl F.
  move=> v' Hv'; apply: repr_ext Hv' _ => a b ha hb.
  case: (altP (a =P k)) => [->|ak] //=; case: (altP (b =P c)) => [->|bc] //.
  by rewrite E1 // ?eqxx //; nl F.
move=> h' H'; exists t; split=> //; apply: repr_ext H' _ => a b ha hb; rewrite addn1 ltnS.
by case: (b == c) => /=; case: ifP.
Qed.

(** the state in the middle of the loop *)
Definition rinv f0 i (st : seq F * nat * F * F) : Prop := exists x,
  let '(h, l, z, s) := st in
  [/\ repr n n h (fun a b => if b == c then x a else f0 a b),
      (forall a, (a < l)%N -> x a = f a c), x c != 0, colr l x &
      (l = i /\ 0 <= e i) \/
      ((l = i.+1 /\ (i < c)%N) /\ [/\ e i < 0, z = f i i - p & s = RS l i x])].

Lemma real_ok (E : err -> Prop) z s dd ee h f0 : repr1 n dd d -> repr1 n ee e -> repr n n h f0 ->
  (forall a b, (a < n)%N -> (b <= c)%N -> f0 a b = f a b) ->
  wpe E (hqr2_real (S:=S) n c p norm z s dd ee h) (fun h' => exists x,
    [/\ repr n n h' (fun a b => if b == c then x a else f0 a b), x c != 0 & colr 0 x]).
Proof.
move=> Hd He Hh f0E; rewrite /hqr2_real /set2.
apply: wpe_bind; apply: (wpe_repr_set Hh) => // h1 H1.
pose Q := fun st : seq F * nat * F * F => rinv f0 0 st.
apply: wpe_bind; apply: wpe_mono (_ : wpe E _ Q).
  move=> [[[h2 l2] z2] s2] [x [Hx xf xc Hc Hl]]; apply: wpe_ok; exists x; split=> //.
  case: Hl => [[<- _]|[[_ _] [e0 _ _]]] //.
  by have [] := neg_prev (leq_ltn_trans (leq0n _) cn) e0.
apply: (wpe_for_rev (rinv f0)) => //.
  exists (upd (fun a => f a c) c 1); split.
  - apply: repr_ext H1 _ => a b ha hb; rewrite /upd.
    case: (altP (b =P c)) => [->|] /=; last by rewrite andbF.
    by rewrite andbT; case: ifP => // _; rewrite f0E.
  - by move=> a ha; rewrite /upd; ifn F.
  - by rewrite /upd eqxx oner_neq0.
  - exact: colr_start.
  - by left; rewrite ec.
move=> i [[[h2 l] z2] s2] hi [x [Hx xf xc Hc Hl]].
have ic : (i < c)%N by nl F.
have ic' : (i == c) = false by nl F.
have i_n : (i < n)%N by nl F.
have lc : (l <= c)%N by case: Hl => [[-> _]|[[-> hh] _]]; nl F.
have il : (i < l)%N by case: Hl => [[-> _]|[[-> hh] _]]; nl F.
rewrite /hqr2_real_row /at2 /set2 (repr_get Hx) //; cbn [bind]; rewrite ic' (f0E i) //; last exact: ltnW.
exs; rewrite (for_sum0 (G := fun k => f i k * x k)); last first.
  move=> k s' hk; rewrite (repr_get Hx) //; last by nl F.
  cbn [bind]; rewrite (repr_get Hx) //; last by nl F.
  cbn [bind]; rewrite eqxx; congr (Ok (_ + _ * _)).
  by case: (altP (k =P c)) => [->|kc]; [rewrite xf|rewrite f0E //; nl F].
cbn [bind]; rewrite addn1 RS_f; last exact: ltnW.
rewrite (repr1_get He) //; cbn [bind].
case: (ltP (e i) 0) => ei.
  have lE : l = i.+1 /\ 0 <= e i.+1.
    case: Hl => [//|[[lE hh] [e1 _ _]]].
    have [_] := neg_prev (leq_ltn_trans (ltnW hh) cn) e1.
    by rewrite /= ltNge (ltW ei).
  case: lE => lE _; apply: wpe_ok; exists x; split=> //; right; split=> //.
have fin_step x' h3 : repr n n h3 (fun a b => if b == c then x' a else f0 a b) ->
  (forall a, (a < i)%N -> x' a = f a c) -> x' c != 0 -> colr i x' ->
  forall z s, wpe E (h4 <-- hqr2_scale1 (S:=S) n i c h3 ;; Ok (h4, i, z, s)) (rinv f0 i).
  move=> H3 x'f x'c Hc' zz' ss; apply: wpe_bind; apply: wpe_mono (scale1_ok _ (ltnW ic) H3) => h4 [t [t0 H4]].
  apply: wpe_ok; exists (fun a => if (i <= a <= c)%N then x' a / t else x' a); split.
  - by apply: repr_ext H4 _ => a b ha hb; case: (altP (b =P c)).
  - by move=> a ha; rewrite x'f //; ifn F.
  - by have -> : (i <= c <= c)%N by [nl F]; rewrite mulf_neq0 // invr_eq0.
  - by apply: colr_scale Hc' _ => k hk; rewrite hk.
  - by left.
case: (altP (e i =P 0)) => ei0.
  have {Hl} [lE e1] : l = i.+1 /\ 0 <= e i.+1.
    case: Hl => [//|[[lE hh] [e1 _ _]]].
    have [_] := neg_prev (leq_ltn_trans (ltnW hh) cn) e1.
    by rewrite /= ei0 ltxx.
  rewrite lE in Hc xf *.
  have set_ok v : `|(f i i - p) * v + RS i.+1 i x| <= eps * norm * `|v| ->
    wpe E (vset h2 (i * n + c) v) (fun h3 => wpe E (h4 <-- hqr2_scale1 (S:=S) n i c h3 ;; Ok (h4, i, z2, s2)) (rinv f0 i)).
    move=> Hv; apply: (wpe_repr_set Hx) => // h3 H3; apply: (fin_step (upd x i v)).
    - apply: repr_ext H3 _ => a b ha hb; rewrite /upd.
      by case: (b == c); rewrite ?andbT ?andbF.
    - by move=> a ha; rewrite /upd; ifn F; apply: xf; nl F.
    - by rewrite /upd [c == _]eq_sym ic'.
    - exact: colr_one.
  apply: wpe_bind; case: (altP (f i i - p =P 0)) => w0; cbn [negb bind].
    have en0 : eps * norm != 0 by rewrite mulf_neq0 ?gt_eqF.
    rewrite (negPf en0); cbn [bind]; apply: set_ok.
    rewrite w0 mul0r add0r normrM normrN normrV ?unitfE // (gtr0_norm (mulr_gt0 eps0 norm0)).
    by rewrite mulrC mulfVK.
  apply: set_ok; have -> : (f i i - p) * (- RS i.+1 i x / (f i i - p)) + RS i.+1 i x = 0 by field.
  by rewrite normr0 !mulr_ge0 // ltW.
have {ei ei0} ei : 0 < e i by rewrite lt_neqAle eq_sym ei0.
have [i1n ei1 di1 tr dt] := pos_next i_n ei.
have e1 : e i.+1 < 0 by rewrite ei1 oppr_lt0.
case: Hl => [[_]|[[lE i1c] [_ zE sE]]]; first by rewrite leNgt e1.
rewrite lE in Hc xf sE *.
have i1c' : (i.+1 == c) = false by nl F.
rewrite addn1 (repr_get Hx) //; cbn [bind]; rewrite (repr_get Hx) //; cbn [bind].
rewrite i1c' ic' (f0E i) ?(ltnW i1c) // (f0E i.+1) //; last exact: ltnW.
rewrite (repr1_get Hd) //; cbn [bind].
set q := _ + e i * e i.
have q0 : q != 0 by rewrite gt_eqF // ltr_paddl ?mulr_gt0 // -expr2 sqr_ge0.
have [xn0 yn0] := off_neq0 i_n ei.
rewrite (negPf q0); cbn [bind]; set t := _ / q.
apply: wpe_bind; apply: wpe_bind; apply: (wpe_repr_set Hx) => // h3 H3.
have qE : q = (f i i - p) * (f i.+1 i.+1 - p) - f i i.+1 * f i.+1 i.
  have fE : f i.+1 i.+1 = d i *+ 2 - f i i by rewrite -tr addrC addKr.
  have -> : (f i i - p) * (f i.+1 i.+1 - p) - f i i.+1 * f i.+1 i
    = (f i i * f i.+1 i.+1 - f i i.+1 * f i.+1 i) - p * (f i i + f i.+1 i.+1) + p ^+ 2 by ring.
  rewrite dt tr /q; ring.
have tE : q * t = f i i.+1 * s2 - z2 * RS i.+2 i x by rewrite mulrC mulfVK.
have set_ok u : (f i i - p) * t + f i i.+1 * u + RS i.+2 i x = 0 ->
  f i.+1 i * t + (f i.+1 i.+1 - p) * u + RS i.+2 i.+1 x = 0 ->
  wpe E (vset h3 (i.+1 * n + c) u) (fun h3 => wpe E (h4 <-- hqr2_scale1 (S:=S) n i c h3 ;; Ok (h4, i, z2, s2)) (rinv f0 i)).
  move=> Hu1 Hu2; apply: (wpe_repr_set H3) => // h4 H4; apply: (fin_step (upd (upd x i t) i.+1 u)).
  - apply: repr_ext H4 _ => a b ha hb; rewrite /upd.
    by case: (b == c); rewrite ?andbT ?andbF.
  - by move=> a ha; rewrite /upd; ifn F; apply: xf; nl F.
  - by rewrite /upd ![c == _]eq_sym ic' i1c'.
  - exact: colr_two.
case: ltP => hz.
  rewrite (negPf xn0); cbn [bind]; apply: set_ok; first by field.
  apply: (mulfI xn0); rewrite mulr0.
  have -> : f i i.+1 * (f i.+1 i * t + (f i.+1 i.+1 - p) * ((- RS i.+2 i x - (f i i - p) * t) / f i i.+1) + RS i.+2 i.+1 x)
    = - (((f i i - p) * (f i.+1 i.+1 - p) - f i i.+1 * f i.+1 i) * t) + f i i.+1 * RS i.+2 i.+1 x - (f i.+1 i.+1 - p) * RS i.+2 i x.
    by field.
  by rewrite -qE tE sE zE; ring.
have z0 : z2 != 0 by rewrite -normr_gt0 (lt_le_trans _ hz) // normr_gt0.
rewrite (negPf z0); cbn [bind]; apply: set_ok; last by rewrite -sE -zE; field.
apply: (mulfI z0); rewrite mulr0.
have -> : z2 * ((f i i - p) * t + f i i.+1 * ((- s2 - f i.+1 i * t) / z2) + RS i.+2 i x)
  = ((f i i - p) * z2 - f i i.+1 * f i.+1 i) * t - f i i.+1 * s2 + z2 * RS i.+2 i x by field.
by rewrite {1}zE -qE tE; ring.
Qed.

End Real.

(** *** a complex vector *)
Section Cplx.
Hypothesis ec : e c < 0.
Local Notation q := (e c).
Local Notation c1 := c.-1.

Definition colc l xr xi := forall a, (l <= a <= c)%N ->
  RS l a xr - p * xr a - q * xi a = 0 /\ RS l a xi - p * xi a + q * xr a = 0.

(** no other conjugate pair is the same *)
Definition distc := forall i, (i < c1)%N -> 0 < e i -> ~ (d i = p /\ e i = - q).

Lemma colc_scale l xr xi t xr' xi' : colc l xr xi ->
  (forall k, (l <= k <= c)%N -> xr' k = xr k / t) -> (forall k, (l <= k <= c)%N -> xi' k = xi k / t) ->
  colc l xr' xi'.
Proof.
move=> H hr hi a ha; rewrite (RS_ext _ hr) (RS_ext _ hi) !RS_scale hr // hi //.
by have [h1 h2] := H a ha; split; rewrite !mulrA -?mulrBl -?mulrDl ?h1 ?h2 mul0r.
Qed.

Lemma RS_one1 i x v : (i < c)%N -> RS i i (upd x i v) = f i i * v + RS i.+1 i x.
Proof.
move=> ic; rewrite RS_cons; last exact: ltnW.
rewrite Tt_up // /upd eqxx; congr (_ + _); apply: RS_ext => k hk.
by have -> : (k == i) = false by nl F.
Qed.

Lemma RS_one2 i a x v : (i < a <= c)%N -> 0 <= e i.+1 -> RS i a (upd x i v) = RS i.+1 a x.
Proof.
move=> ia ei; rewrite RS_cons; last by nl F.
have -> : Tt a i = 0.
  case: (ltngtP a i.+1) => [|h|->]; [by nl F|by apply: Tt_low2|by apply: Tt_low].
rewrite mul0r add0r; apply: RS_ext => k hk.
by rewrite /upd; have -> : (k == i) = false by nl F.
Qed.

Lemma colc_one i xr xi a b : (i < c)%N -> 0 <= e i.+1 -> colc i.+1 xr xi ->
  (f i i - p) * a - q * b + RS i.+1 i xr = 0 ->
  (f i i - p) * b + q * a + RS i.+1 i xi = 0 -> colc i (upd xr i a) (upd xi i b).
Proof.
move=> ic ei H H1 H2 k hk; case: (altP (k =P i)) => [->|ki].
  by rewrite !RS_one1 // /upd eqxx; split; [rewrite -[RHS]H1; ring|rewrite -[RHS]H2; ring].
have ik : (i < k <= c)%N by nl F.
by rewrite !RS_one2 // /upd (negPf ki); apply: H.
Qed.

Lemma RS_two i a x t u : (i.+1 < c)%N ->
  RS i a (upd (upd x i t) i.+1 u) = Tt a i * t + Tt a i.+1 * u + RS i.+2 a x.
Proof.
move=> ic; rewrite RS_cons; last by nl F.
rewrite RS_cons; last by nl F.
have -> : RS i.+2 a (upd (upd x i t) i.+1 u) = RS i.+2 a x.
  by apply: RS_ext => k hk; rewrite /upd; ifn F.
rewrite /upd eqxx; have -> : (i == i.+1) = false by nl F.
by rewrite eqxx addrA.
Qed.

Lemma colc_two i xr xi a b a2 b2 : (i.+1 < c)%N -> 0 < e i -> colc i.+2 xr xi ->
  (f i i - p) * a + f i i.+1 * a2 - q * b + RS i.+2 i xr = 0 ->
  (f i i - p) * b + f i i.+1 * b2 + q * a + RS i.+2 i xi = 0 ->
  f i.+1 i * a + (f i.+1 i.+1 - p) * a2 - q * b2 + RS i.+2 i.+1 xr = 0 ->
  f i.+1 i * b + (f i.+1 i.+1 - p) * b2 + q * a2 + RS i.+2 i.+1 xi = 0 ->
  colc i (upd (upd xr i a) i.+1 a2) (upd (upd xi i b) i.+1 b2).
Proof.
move=> ic ei H H1 H2 H3 H4 k hk.
have [_ ei1 _ _ _] := pos_next (ltn_trans (ltnW ic) cn) ei.
have e1 : e i.+1 < 0 by rewrite ei1 oppr_lt0.
rewrite !RS_two // /upd; case: (altP (k =P i.+1)) => [->|ki1].
  by rewrite Tt_pair // Tt_up //; split; [rewrite -[RHS]H3; ring|rewrite -[RHS]H4; ring].
case: (altP (k =P i)) => [->|ki].
  by rewrite !Tt_up //; split; [rewrite -[RHS]H1; ring|rewrite -[RHS]H2; ring].
have -> : Tt k i = 0 by apply: Tt_low2; nl F.
have -> : Tt k i.+1 = 0.
  case: (ltngtP k i.+2) => [|h|aE]; [by nl F|by apply: Tt_low2|apply: Tt_low; first by nl F].
  have an : (k < n)%N by nl F.
  rewrite leNgt; apply/negP => /(neg_prev an) [_]; rewrite aE /=.
  by rewrite ltNge (ltW e1).
by rewrite !mul0r !add0r; apply: H; nl F.
Qed.

Lemma scale2_ok (E : err -> Prop) i h g : (i <= c1)%N -> (0 < c)%N -> repr n n h g ->
  wpe E (hqr2_scale2 (S:=S) n i c h) (fun h' => exists t, t != 0 /\
    repr n n h' (fun a b => if ((b == c) || (b == c1)) && (i <= a <= c)%N then g a b / t else g a b)).
Proof.
move=> ic c0 Hg; have i_n : (i < n)%N by nl F.
have c1n : (c1 < n)%N by nl F.
have cc : (c == c1) = false by nl F.
rewrite /hqr2_scale2 /at2 /set2 subn1 (repr_get Hg) //; cbn [bind].
rewrite (repr_get Hg) //; cbn [bind]; exs.
set t : F := (if _ then _ else _); case: ltP => h1; last first.
  by apply: wpe_ok; exists 1; rewrite oner_neq0; split=> //; apply: repr_ext Hg _ => a b _ _; rewrite divr1; case: ifP.
have t0 : t != 0 by apply: contraTneq h1 => ->; rewrite mulr0 -leNgt ler01.
apply: wpe_mono; last first.
  apply: (for_own (fun a b => a) (fun a b => if (b == c) || (b == c1) then g a b / t else g a b) _ Hg); first by nl F.
  move=> k v g1 hk Hv E1; have kn : (k < n)%N by nl F.
  rewrite (repr_get Hv) //; cbn [bind]; rewrite (negPf t0); cbn [bind]; rewrite (E1 k c1) ?eqxx //.
  apply: wpe_bind; apply: (wpe_repr_set Hv) => // v1 Hv1.
  rewrite (repr_get Hv1) //; cbn [bind]; rewrite cc andbF (E1 k c) ?eqxx //.
  apply: (wpe_repr_set Hv1) => // v2 Hv2; apply: repr_ext Hv2 _ => a b ha hb.
  case: (altP (a =P k)) => [->|ak] //=; case: (altP (b =P c)) => [->|bc] //=.
  by case: (altP (b =P c1)) => [->|bc1] //; rewrite E1 // ?eqxx.
move=> h' H'; exists t; split=> //; apply: repr_ext H' _ => a b ha hb; rewrite addn1 ltnS.
by case: ((b == c) || _) => /=; case: ifP.
Qed.

Definition cinv f0 i (st : seq F * nat * F * F * F) : Prop := exists xr xi,
  let '(h, l, z, r, s) := st in
  [/\ repr n n h (fun a b => if b == c then xi a else if b == c1 then xr a else f0 a b),
      (forall a, (a < l)%N -> xr a = f a c1 /\ xi a = f a c),
      [/\ xr c1 != 0, xr c = 0 & xi c != 0], distc -> colc l xr xi &
      (l = i /\ 0 <= e i) \/
      ((l = i.+1 /\ (i < c1)%N) /\ [/\ e i < 0, z = f i i - p, r = RS l i xr & s = RS l i xi])].

Lemma cplx_ok (E : err -> Prop) z r s dd ee h f0 : repr1 n dd d -> repr1 n ee e -> repr n n h f0 ->
  (forall a b, (a < n)%N -> (b <= c)%N -> f0 a b = f a b) ->
  wpe E (hqr2_cplx (S:=S) n c p q norm z r s dd ee h) (fun h' => exists xr xi,
    [/\ repr n n h' (fun a b => if b == c then xi a else if b == c1 then xr a else f0 a b),
        xr c1 != 0, xr c = 0, xi c != 0 & distc -> colc 0 xr xi]).
Proof.
move=> Hd He Hh f0E; have [c0 ec1] := neg_prev cn ec.
have c1n : (c1 < n)%N by nl F.
have cE : c1.+1 = c by nl F.
have cc : (c == c1) = false by nl F.
have cc' : (c1 == c) = false by nl F.
have [_ eE dE tr dt] := pos_next c1n ec1; rewrite cE in eE dE tr dt.
have [b0 a0] := off_neq0 c1n ec1; rewrite cE in b0 a0.
have q0 : q != 0 by rewrite lt_eqF.
rewrite /hqr2_cplx /set2 /at2.
have -> : usub c 1 = Ok c1 by rewrite /usub c0 subn1.
cbn [bind]; rewrite (repr_get Hh) //; cbn [bind]; rewrite (repr_get Hh) //; cbn [bind].
rewrite !f0E ?leq_pred //; exs.
have trE : f c1 c1 = p *+ 2 - f c c by rewrite dE -tr addrK.
have dtE : f c1 c1 * f c c - f c1 c * f c c1 = p ^+ 2 + q ^+ 2 by rewrite dt dE eE sqrrN.
pose P0 h1 := exists a b, [/\ a != 0, repr n n h1 (fun i j => if (i == c1) && (j == c) then b else if (i == c1) && (j == c1) then a else f0 i j),
    (f c1 c1 - p) * a - q * b = 0 /\ (f c1 c1 - p) * b + f c1 c + q * a = 0 &
    f c c1 * a - q = 0 /\ f c c1 * b + (f c c - p) = 0].
apply: (wpe_bind2 (P := P0)).
  case: ltP => hab.
    rewrite (negPf a0); cbn [bind].
    apply: wpe_bind; apply: (wpe_repr_set Hh) => // h1 H1.
    rewrite (repr_get H1) //; cbn [bind]; rewrite (repr_get H1) //; cbn [bind].
    rewrite cc /= !f0E ?leq_pred // (negPf a0); cbn [bind].
    apply: (wpe_repr_set H1) => // h2 H2.
    exists (q / f c c1), (- (f c c - p) / f c c1); split=> //.
    - by rewrite mulf_neq0 // invr_eq0.
    - split; first by rewrite trE; field.
      apply: (mulfI a0); rewrite mulr0.
      have -> : f c c1 * ((f c1 c1 - p) * (- (f c c - p) / f c c1) + f c1 c + q * (q / f c c1))
        = - (f c1 c1 * f c c - f c1 c * f c c1) + p * (f c1 c1 + f c c) - p ^+ 2 + q ^+ 2 by field.
      by rewrite dtE tr -dE; ring.
    - by split; field.
  rewrite (repr_get Hh) //; cbn [bind]; rewrite f0E ?leq_pred //.
  apply: wpe_bind; apply: cdiv_wp; first by rewrite q0 orbT.
  move=> a b Ha Hb; cbn [bind].
  apply: wpe_bind; apply: (wpe_repr_set Hh) => // h1 H1.
  apply: (wpe_repr_set H1) => // h2 H2.
  exists a, b; split=> //.
  - apply: contraNneq b0 => aE; move: Ha Hb; rewrite aE !mul0r sub0r add0r => /eqP.
    by rewrite oppr_eq0 mulf_eq0 (negPf q0) orbF => /eqP ->; rewrite mul0r => /eqP; rewrite eq_sym oppr_eq0.
  - split; first by rewrite -[RHS]Ha; ring.
    by rewrite -[f c1 c]opprK -Hb; ring.
  - (* ((c11 - p) + i q) (E1 + i E2) = 0 *)
    set E1 := _ - q; set E2 := _ + (f c c - p).
    set w := f c1 c1 - p in Ha Hb.
    have nz : w ^+ 2 + q ^+ 2 != 0 by rewrite gt_eqF // ltr_paddl ?sqr_ge0 // exprn_even_gt0.
    have bE : f c1 c = - (a * q + b * w) by rewrite Hb opprK.
    have k1 : w * E1 - q * E2 = 0.
      have -> : w * E1 - q * E2 = f c c1 * (a * w - b * q) - q * (f c1 c1 + f c c - p *+ 2) by rewrite /E1 /E2 /w; ring.
      by rewrite Ha tr -dE subrr !mulr0 subrr.
    have k2 : q * E1 + w * E2 = 0.
      have -> : q * E1 + w * E2 = f c c1 * (a * q + b * w) - q ^+ 2 + w * (f c c - p) by rewrite /E1 /E2; ring.
      rewrite Hb.
      have -> : f c c1 * - f c1 c - q ^+ 2 + w * (f c c - p) = (f c1 c1 * f c c - f c1 c * f c c1) - p * (f c1 c1 + f c c) + p ^+ 2 - q ^+ 2 by rewrite /w; ring.
      by rewrite dtE tr -dE; ring.
    split; apply: (mulfI nz); rewrite mulr0.
      have -> : (w ^+ 2 + q ^+ 2) * E1 = w * (w * E1 - q * E2) + q * (q * E1 + w * E2) by ring.
      by rewrite k1 k2 !mulr0 addr0.
    have -> : (w ^+ 2 + q ^+ 2) * E2 = w * (q * E1 + w * E2) - q * (w * E1 - q * E2) by ring.
    by rewrite k1 k2 !mulr0 subr0.
move=> h1 [a [b [an0 H1 [R1 R2] [R3 R4]]]].
apply: wpe_bind; apply: (wpe_repr_set H1) => // h2 H2.
apply: wpe_bind; apply: (wpe_repr_set H2) => // h3 H3.
pose Q := fun st : seq F * nat * F * F * F => cinv f0 0 st.
apply: wpe_bind; apply: wpe_mono (_ : wpe E _ Q).
  move=> [[[[h4 l2] z2] r2] s2] [xr [xi [Hx xf [xc1 xc2 xc3] Hc Hl]]]; apply: wpe_ok; exists xr, xi; split=> //.
  case: Hl => [[<- _]|[[_ _] [e0 _ _]]] //.
  by have [] := neg_prev (leq_ltn_trans (leq0n _) cn) e0.
apply: (wpe_for_rev (cinv f0)) => //.
  exists (upd (upd (fun a => f a c1) c1 a) c 0), (upd (upd (fun a => f a c) c1 b) c 1); split.
  - apply: repr_ext H3 _ => i j hi hj; rewrite /upd.
    case: (altP (j =P c)) => [->|jc].
      rewrite andbT cc !andbF andbT; case: (altP (i =P c)) => // ic; rewrite f0E //; by case: ifP.
    rewrite !andbF; case: (altP (j =P c1)) => [->|jc1]; last by rewrite !andbF.
    by rewrite !andbT f0E // ?leq_pred.
  - by move=> i hi; rewrite /upd; ifn F.
  - by rewrite /upd !eqxx cc' oner_neq0.
  - move=> _ k hk.
    have RSE x : RS c1 k x = Tt k c1 * x c1 + Tt k c * x c.
      by rewrite RS_cons ?leq_pred // cE RS_cons // /RS [\sum_(c.+1 <= _ < _) _]big_geq // addr0.
    rewrite !RSE /upd !eqxx cc'.
    have [->|->] : k = c1 \/ k = c by nl F.
      rewrite !Tt_up ?leq_pred // !eqxx cc'; split; first by rewrite -[RHS]R1; ring.
      by rewrite -[RHS]R2; ring.
    rewrite eqxx (Tt_up (leqnn c)); have -> : Tt c c1 = f c c1 by rewrite -{1}cE Tt_pair ?cE.
    by split; [rewrite -[RHS]R3; ring|rewrite -[RHS]R4; ring].
  - by left; split=> //; apply: ltW.
clear h1 h2 h3 H1 H2 H3 R1 R2 R3 R4 a b an0 P0.
move=> i [[[[h2 l] z2] r2] s2] hi [xr [xi [Hx xf [xc1 xc2 xc3] Hc Hl]]].
have ic : (i < c1)%N by nl F.
have icc : (i < c)%N by nl F.
have ic' : (i == c) = false by nl F.
have ic1' : (i == c1) = false by nl F.
have i_n : (i < n)%N by nl F.
have lc : (l <= c1)%N by case: Hl => [[-> _]|[[-> hh] _]]; nl F.
have il : (i < l)%N by case: Hl => [[-> _]|[[-> hh] _]]; nl F.
rewrite /hqr2_cplx_row /at2 /set2 subn1; exs.
pose sums := fun x => \sum_(l <= k < c.+1) f i k * x k.
apply: (wpe_bind2 (P := fun rs => rs = (RS l i xr, RS l i xi))).
  apply: (wpe_for (fun m rs => rs = (\sum_(l <= k < m) f i k * xr k, \sum_(l <= k < m) f i k * xi k))).
  - by nl F.
  - by rewrite !big_geq.
  - move=> k [ra sa] hk [-> ->]; have kn : (k < n)%N by nl F.
    rewrite (repr_get Hx) //; cbn [bind]; rewrite (repr_get Hx) //; cbn [bind].
    rewrite (repr_get Hx) //; cbn [bind]; rewrite !eqxx cc'.
    apply: wpe_ok; have lk : (l <= k)%N by nl F.
    rewrite !big_nat_recr //=.
    suff -> : (if k == c then xi i else if k == c1 then xr i else f0 i k) = f i k by [].
    have [xf1 xf2] := xf i il.
    case: (altP (k =P c)) => [->|kc]; first by rewrite xf2.
    by case: (altP (k =P c1)) => [->|kc1]; [rewrite xf1|rewrite f0E //; nl F].
  - by move=> rs; rewrite addn1 !RS_f; [|nl F|nl F].
move=> rs ->; rewrite (repr_get Hx) //; cbn [bind]; rewrite ic' ic1' f0E //; last by nl F.
rewrite (repr1_get He) //; cbn [bind].
case: (ltP (e i) 0) => ei.
  have lE : l = i.+1 /\ 0 <= e i.+1.
    case: Hl => [//|[[lE hh] [e1 _ _ _]]].
    have [_] := neg_prev (ltn_trans hh c1n) e1.
    by rewrite /= ltNge (ltW ei).
  case: lE => lE _; apply: wpe_ok; exists xr, xi; split=> //; right; split=> //.
have fin_step xr' xi' h3 : repr n n h3 (fun a b => if b == c then xi' a else if b == c1 then xr' a else f0 a b) ->
  (forall a, (a < i)%N -> xr' a = f a c1 /\ xi' a = f a c) -> xr' c1 != 0 -> xr' c = 0 -> xi' c != 0 ->
  (distc -> colc i xr' xi') ->
  forall z r s, wpe E (h4 <-- hqr2_scale2 (S:=S) n i c h3 ;; Ok (h4, i, z, r, s)) (cinv f0 i).
  move=> H3 x'f x'c1 x'c2 x'c3 Hc' zz' rr ss; apply: wpe_bind.
  apply: wpe_mono (scale2_ok _ (ltnW ic) c0 H3) => h4 [t [t0 H4]].
  apply: wpe_ok; exists (fun a => if (i <= a <= c)%N then xr' a / t else xr' a),
     (fun a => if (i <= a <= c)%N then xi' a / t else xi' a); split.
  - apply: repr_ext H4 _ => a b ha hb; case: (altP (b =P c)) => //= _.
    by case: (altP (b =P c1)).
  - move=> a ha; have -> : (i <= a <= c)%N = false by nl F.
    exact: x'f.
  - have -> : (i <= c <= c)%N by nl F.
    have -> : (i <= c1 <= c)%N by nl F.
    by rewrite x'c2 mul0r !mulf_neq0 // invr_eq0.
  - by move=> ds; apply: colc_scale (Hc' ds) _ _ => k hk; rewrite hk.
  - by left.
case: (altP (e i =P 0)) => ei0.
  have {Hl} [lE e1] : l = i.+1 /\ 0 <= e i.+1.
    case: Hl => [//|[[lE hh] [e1 _ _ _]]].
    have [_] := neg_prev (ltn_trans hh c1n) e1.
    by rewrite /= ei0 ltxx.
  rewrite lE in Hc xf *.
  apply: wpe_bind; apply: wpe_bind; apply: cdiv_wp; first by rewrite q0 orbT.
  move=> a b Ha Hb; cbn [bind].
  apply: wpe_bind; apply: (wpe_repr_set Hx) => // h3 H3.
  apply: (wpe_repr_set H3) => // h4 H4; apply: (fin_step (upd xr i a) (upd xi i b)).
  - apply: repr_ext H4 _ => k j hk hj; rewrite /upd.
    case: (altP (j =P c)) => [->|jc]; first by rewrite andbT cc andbF.
    by rewrite andbF; case: (j == c1); rewrite ?andbT ?andbF.
  - move=> k hk; rewrite /upd; have -> : (k == i) = false by nl F.
    by apply: xf; nl F.
  - by rewrite /upd [c1 == _]eq_sym ic1'.
  - by rewrite /upd [c == _]eq_sym ic'.
  - by rewrite /upd [c == _]eq_sym ic'.
  - move=> ds; apply: colc_one => //; first exact: Hc.
      by rewrite -[RS i.+1 i xr]opprK -Ha; ring.
    by rewrite -[RS i.+1 i xi]opprK -Hb; ring.
have {ei ei0} ei : 0 < e i by rewrite lt_neqAle eq_sym ei0.
have [i1n ei1 di1 tri dti] := pos_next i_n ei.
have e1 : e i.+1 < 0 by rewrite ei1 oppr_lt0.
case: Hl => [[_]|[[lE i1c] [_ zE rE sE]]]; first by rewrite leNgt e1.
rewrite lE in Hc xf rE sE *.
have i1cc : (i.+1 < c)%N by nl F.
have i1c' : (i.+1 == c) = false by nl F.
have i1c1' : (i.+1 == c1) = false by nl F.
have [xn0 yn0] := off_neq0 i_n ei.
apply: wpe_bind.
rewrite addn1 (repr_get Hx) //; cbn [bind]; rewrite (repr_get Hx) //; cbn [bind].
rewrite i1c' ic' i1c1' ic1' (f0E i) ?(ltnW i1cc) // (f0E i.+1) //; last exact: ltnW.
rewrite (repr1_get Hd) //; cbn [bind].
set w := f i i - p; set x := f i i.+1; set y := f i.+1 i.
set vr0 := (d i - p) * (d i - p) + e i * e i - q * q; set vi := (d i - p) * _ * q.
set vr := if _ then _ else vr0.
have vrE : vr0 = w * z2 - x * y - q * q.
  have -> : w * z2 - x * y = (f i i * f i.+1 i.+1 - x * y) - p * (f i i + f i.+1 i.+1) + p ^+ 2 by rewrite /w zE; ring.
  by rewrite dti tri /vr0; ring.
have viE : vi = q * (w + z2).
  have -> : w + z2 = (f i i + f i.+1 i.+1) - p *+ 2 by rewrite /w zE; ring.
  by rewrite tri /vi; ring.
have v0 : (vr != 0) || (vi != 0).
  rewrite /vr; case: ifP => [_|/negbT]; last by rewrite negb_and.
  apply/orP; left; rewrite !mulf_neq0 ?(gt_eqF eps0) ?(gt_eqF norm0) //.
  rewrite gt_eqF // ltr_paddr // ltr_paddr // ltr_paddr // ltr_paddl // normr_gt0 //.
have vrd : distc -> vr = vr0.
  move=> ds; rewrite /vr; case: ifP => // /andP[/eqP k1 /eqP k2]; exfalso.
  move: k2; rewrite /vi => /eqP; rewrite !mulf_eq0 (negPf q0) orbF pnatr_eq0 orbF subr_eq0 => /eqP dp.
  apply: (ds i ic ei); split=> //; move: k1; rewrite /vr0 dp subrr mul0r add0r -!expr2 => /eqP.
  rewrite subr_eq0 eqf_sqr => /orP[/eqP k2|/eqP //].
  by move: ei; rewrite k2 ltNge (ltW ec).
apply: wpe_bind; apply: cdiv_wp => // a b Ha Hb; cbn [bind].
apply: wpe_bind; apply: (wpe_repr_set Hx) => // h3 H3.
apply: wpe_bind; apply: (wpe_repr_set H3) => // h4 H4.
rewrite (repr_get H4) //; cbn [bind]; rewrite (repr_get H4) //; cbn [bind].
rewrite !eqxx cc' /= .
have set_ok a2 b2 : (distc -> [/\ w * a + x * a2 - q * b + RS i.+2 i xr = 0,
    w * b + x * b2 + q * a + RS i.+2 i xi = 0, y * a + z2 * a2 - q * b2 + r2 = 0 & y * b + z2 * b2 + q * a2 + s2 = 0]) ->
  forall h6, repr n n h6 (fun k j => if (k == i.+1) && (j == c) then b2 else if (k == i.+1) && (j == c1) then a2 else
     if (k == i) && (j == c) then b else if (k == i) && (j == c1) then a else
     if j == c then xi k else if j == c1 then xr k else f0 k j) ->
  wpe E (h4 <-- hqr2_scale2 (S:=S) n i c h6 ;; Ok (h4, i, z2, r2, s2)) (cinv f0 i).
  move=> HE h6 H6; apply: (fin_step (upd (upd xr i a) i.+1 a2) (upd (upd xi i b) i.+1 b2)).
  - apply: repr_ext H6 _ => k j hk hj; rewrite /upd.
    case: (altP (j =P c)) => [->|jc]; first by rewrite !andbT cc !andbF.
    by rewrite !andbF; case: (j == c1); rewrite ?andbT ?andbF.
  - move=> k hk; rewrite /upd; have -> : (k == i) = false by nl F.
    have -> : (k == i.+1) = false by nl F.
    by apply: xf; nl F.
  - by rewrite /upd ![c1 == _]eq_sym ic1' i1c1'.
  - by rewrite /upd ![c == _]eq_sym ic' i1c'.
  - by rewrite /upd ![c == _]eq_sym ic' i1c'.
  - by move=> ds; have [g1 g2 g3 g4] := HE ds; apply: colc_two => //; [exact: Hc|rewrite -zE -rE|rewrite -zE -sE].
case: ltP => hz.
  rewrite (negPf xn0); cbn [bind].
  apply: wpe_bind; apply: (wpe_repr_set H4) => // h5 H5.
  rewrite (repr_get H5) //; cbn [bind]; rewrite (repr_get H5) //; cbn [bind].
  have -> : (i == i.+1) = false by nl F.
  rewrite /= !eqxx cc' /=.
  apply: (wpe_repr_set H5) => // h6 H6; apply: set_ok H6 => ds.
  move: Ha Hb; rewrite (vrd ds) vrE viE => Ha Hb; split; [by rewrite /x; field|by rewrite /x; field| |].
  - apply: (mulfI xn0); rewrite mulr0 -/x.
    have -> : x * (y * a + z2 * ((- RS i.+2 i xr - w * a + q * b) / x) - q * ((- RS i.+2 i xi - w * b - q * a) / x) + r2)
      = - (a * (w * z2 - x * y - q * q) - b * (q * (w + z2))) + (x * r2 - z2 * RS i.+2 i xr + q * RS i.+2 i xi) by rewrite /x; field.
    by rewrite Ha addNr.
  - apply: (mulfI xn0); rewrite mulr0 -/x.
    have -> : x * (y * b + z2 * ((- RS i.+2 i xi - w * b - q * a) / x) + q * ((- RS i.+2 i xr - w * a + q * b) / x) + s2)
      = - (a * (q * (w + z2)) + b * (w * z2 - x * y - q * q)) + (x * s2 - z2 * RS i.+2 i xi - q * RS i.+2 i xr) by rewrite /x; field.
    by rewrite Hb addNr.
apply: wpe_bind; apply: cdiv_wp; first by rewrite q0 orbT.
move=> a2 b2 Ha2 Hb2; cbn [bind].
apply: wpe_bind; apply: (wpe_repr_set H4) => // h5 H5.
apply: (wpe_repr_set H5) => // h6 H6; apply: set_ok H6 => ds.
move: Ha Hb; rewrite (vrd ds) vrE viE => Ha Hb.
have nz : z2 ^+ 2 + q ^+ 2 != 0 by rewrite gt_eqF // ltr_paddl ?sqr_ge0 // exprn_even_gt0.
set E1 := _ + RS i.+2 i xr; set E2 := _ + RS i.+2 i xi.
have h1 : z2 * E1 - q * E2 = 0.
  have -> : z2 * E1 - q * E2 = (a * (w * z2 - x * y - q * q) - b * (q * (w + z2))) - (x * r2 - z2 * RS i.+2 i xr + q * RS i.+2 i xi)
     + x * ((a2 * z2 - b2 * q) - (- r2 - y * a)) by rewrite /E1 /E2; ring.
  by rewrite Ha Ha2 !subrr mulr0 addr0.
have h2' : q * E1 + z2 * E2 = 0.
  have -> : q * E1 + z2 * E2 = (a * (q * (w + z2)) + b * (w * z2 - x * y - q * q)) - (x * s2 - z2 * RS i.+2 i xi - q * RS i.+2 i xr)
     + x * ((a2 * q + b2 * z2) - (- s2 - y * b)) by rewrite /E1 /E2; ring.
  by rewrite Hb Hb2 !subrr mulr0 addr0.
split.
- apply: (mulfI nz); rewrite mulr0.
  have -> : (z2 ^+ 2 + q ^+ 2) * E1 = z2 * (z2 * E1 - q * E2) + q * (q * E1 + z2 * E2) by ring.
  by rewrite h1 h2' !mulr0 addr0.
- apply: (mulfI nz); rewrite mulr0.
  have -> : (z2 ^+ 2 + q ^+ 2) * E2 = z2 * (q * E1 + z2 * E2) - q * (z2 * E1 - q * E2) by ring.
  by rewrite h1 h2' !mulr0 subr0.
- have -> : y * a + z2 * a2 - q * b2 + r2 = (a2 * z2 - b2 * q) - (- r2 - y * a) by ring.
  by rewrite Ha2 subrr.
- have -> : y * b + z2 * b2 + q * a2 + s2 = (a2 * q + b2 * z2) - (- s2 - y * b) by ring.
  by rewrite Hb2 subrr.
Qed.

End Cplx.
End Col.

(** *** all vectors *)
Definition Xg g k j : F := if (k <= j)%N then g k j else 0.

(** column j of T X - X D *)
Definition resid g i j : F := \sum_(0 <= k < n) Tt i k * Xg g k j - d j * Xg g i j
  + (if 0 < e j then e j * Xg g i j.+1 else if e j < 0 then e j * Xg g i j.-1 else 0).

Definition distall := forall i j, (i < n)%N -> (j < n)%N -> 0 < e i -> 0 < e j ->
  d i = d j -> e i = e j -> i = j.

Definition colok g j := Xg g j j != 0 /\
  (distall -> forall i, (i < n)%N -> `|resid g i j| <= eps * norm * `|Xg g i j|).

Lemma colok_ext g g' j : colok g j -> (j < n)%N ->
  (forall a, (a < n)%N -> g a j = g' a j) ->
  (0 < e j -> forall a, (a < n)%N -> g a j.+1 = g' a j.+1) ->
  (e j < 0 -> forall a, (a < n)%N -> g a j.-1 = g' a j.-1) -> colok g' j.
Proof.
move=> [H1 H2] jn h1 h2 h3.
have hX a : (a < n)%N -> Xg g' a j = Xg g a j by move=> ha; rewrite /Xg h1.
split=> [|ds i hi]; first by rewrite hX.
suff -> : resid g' i j = resid g i j by rewrite hX //; apply: H2.
rewrite /resid hX //; congr (_ - _ + _).
  by apply: eq_big_nat => k hk; rewrite hX //; nl F.
case: ifP => h0; first by rewrite /Xg h2.
by case: ifP => h0' //; rewrite /Xg h3.
Qed.

Lemma RS_full c i x g : (c < n)%N -> (forall k, (k <= c)%N -> Xg g k c = x k) ->
  \sum_(0 <= k < n) Tt i k * Xg g k c = RS c 0 i x.
Proof.
move=> cn hx; rewrite (@big_cat_nat _ _ _ c.+1) //=.
rewrite [X in _ + X]big1_seq ?addr0 => [|k]; last first.
  by rewrite mem_index_iota => /andP[_ hk]; rewrite /Xg; have -> : (k <= c)%N = false by [nl F]; rewrite mulr0.
by apply: eq_big_nat => k hk; rewrite hx //; nl F.
Qed.

Lemma RS_below c i x : (c < i)%N -> (i < n)%N -> e c <= 0 -> RS c 0 i x = 0.
Proof.
move=> ci i_n ec; rewrite /RS big1_seq // => k; rewrite mem_index_iota => /andP[_ hk].
have -> : Tt i k = 0; last by rewrite mul0r.
case: (ltngtP i k.+1) => [|h|iE]; [by nl F|by apply: Tt_low2|apply: Tt_low; first by nl F].
rewrite leNgt; apply/negP => ei; have [_] := neg_prev i_n ei.
by have -> : i.-1 = c by [nl F]; rewrite ltNge ec.
Qed.

Definition bstart m := if (m < n)%N && (e m < 0) then m.-1 else m.

Definition binv m h := exists g, [/\ repr n n h g,
  forall a b, (a < n)%N -> (b < bstart m)%N -> g a b = f a b &
  forall j, (bstart m <= j < n)%N -> colok g j].

Lemma bstartS c : (c < n)%N -> e c <= 0 -> bstart c.+1 = c.+1.
Proof.
move=> cn ec; rewrite /bstart; case: ifP => // /andP[h1 h2].
by have [_] := neg_prev h1 h2; rewrite /= ltNge ec.
Qed.

Lemma back_ok (E : err -> Prop) gz gr gs dd ee h : repr1 n dd d -> repr1 n ee e -> repr n n h f ->
  wpe E (hqr2_back (S:=S) n norm gz gr gs dd ee h) (fun h' => exists g, repr n n h' g /\
    forall j, (j < n)%N -> colok g j).
Proof.
move=> Hd He Hh; rewrite /hqr2_back.
apply: wpe_mono (_ : wpe E _ (binv 0)).
  move=> h' [g [Hg _ H]]; exists g; split=> // j hj; apply: H.
  by rewrite /bstart; case: ifP; rewrite ?hj.
apply: (wpe_for_rev binv) => //.
  exists f; split=> // j; rewrite /bstart ltnn /=; nl F.
move=> c h1 hc [g [Hg gf Hok]]; have cn : (c < n)%N by nl F.
rewrite (repr1_get Hd) //; cbn [bind]; rewrite (repr1_get He) //; cbn [bind]; exs.
case: (altP (e c =P 0)) => ec.
  have bS : bstart c.+1 = c.+1 by apply: bstartS; rewrite ?ec.
  have b0 : bstart c = c by rewrite /bstart ec ltxx andbF.
  rewrite bS in gf Hok.
  apply: wpe_mono (real_ok cn ec E _ _ Hd He Hg (f0 := g) _) => [h2 [x [Hx xc Hx0]]|a b ha hb]; last by apply: gf.
  exists (fun a b => if b == c then x a else g a b); rewrite b0; split=> //.
    by move=> a b ha hb; have -> : (b == c) = false by [nl F]; apply: gf => //; nl F.
  move=> j hj; case: (altP (j =P c)) => [->|jc].
    have xE k : (k <= c)%N -> Xg (fun a b => if b == c then x a else g a b) k c = x k by move=> hk; rewrite /Xg hk eqxx.
    split=> [|_ i hi]; first by rewrite xE.
    rewrite /resid (RS_full _ cn xE) ec ltxx addr0.
    case: (leqP i c) => ic; first by rewrite xE //; apply: Hx0.
    rewrite RS_below ?ec // /Xg; have -> : (i <= c)%N = false by nl F.
    by rewrite mulr0 subr0 !normr0 mulr0.
  apply: colok_ext (Hok j _) _ _ _ _; [by nl F|by nl F|by rewrite (negPf jc)|move=> _ a ha|move=> ej a ha].
    by have -> : (j.+1 == c) = false by nl F.
  have jn : (j < n)%N by nl F.
  have [j0 ej1] := neg_prev jn ej.
  by case: (altP (j.-1 =P c)) => // jE; move: ej1; rewrite jE ec ltxx.
case: (ltP (e c) 0) => ec0.
  have bS := bstartS cn (ltW ec0).
  have b0 : bstart c = c.-1 by rewrite /bstart ec0 cn.
  rewrite bS in gf Hok.
  apply: wpe_mono (cplx_ok cn ec0 E _ _ _ Hd He Hg (f0 := g) _) => [h2 [xr [xi [Hx xr1 xr0 xi1 Hx0]]]|a b ha hb]; last by apply: gf.
  have [c0 ec1] := neg_prev cn ec0.
  have c1n : (c.-1 < n)%N by nl F.
  have cE : c.-1.+1 = c by nl F.
  have cc : (c == c.-1) = false by nl F.
  have cc' : (c.-1 == c) = false by nl F.
  have [_ eE dE _ _] := pos_next c1n ec1; rewrite cE in eE dE.
  set g' := fun a b => if b == c then xi a else if b == c.-1 then xr a else g a b.
  have hdist : distall -> distc c.
    move=> ds i hi ei [dp eq]; have i_n : (i < n)%N by nl F.
    have : i = c.-1 by apply: ds => //; [rewrite dp|rewrite eq eE opprK].
    by nl F.
  have xiE k : (k <= c)%N -> Xg g' k c = xi k by move=> hk; rewrite /Xg hk /g' eqxx.
  have xrE k : (k <= c)%N -> Xg g' k c.-1 = xr k.
    move=> hk; rewrite /Xg /g' cc' eqxx; case: ifP => // hk1.
    by have -> : k = c by nl F.
  have xrE' k : (k <= c.-1)%N -> Xg g' k c.-1 = xr k by move=> hk; apply: xrE; nl F.
  have X0 i : (c < i)%N -> Xg g' i c = 0 /\ Xg g' i c.-1 = 0.
    by move=> ci; rewrite /Xg; split; ifn F.
  exists g'; rewrite b0; split=> //.
    move=> a b ha hb; rewrite /g'; have -> : (b == c) = false by nl F.
    by have -> : (b == c.-1) = false by [nl F]; apply: gf => //; nl F.
  move=> j hj; case: (altP (j =P c)) => [->|jc].
    split=> [|ds i hi]; first by rewrite xiE.
    rewrite /resid (RS_full _ cn xiE) ltNge (ltW ec0) ec0 /=.
    case: (leqP i c) => ic.
      rewrite xiE // xrE //; have [_ ->] := Hx0 (hdist ds) i ic.
      by rewrite normr0 !mulr_ge0 // ltW.
    by have [-> ->] := X0 i ic; rewrite RS_below ?(ltW ec0) // !mulr0 subr0 addr0 !normr0 mulr0.
  case: (altP (j =P c.-1)) => [->|jc1].
    split=> [|ds i hi]; first by rewrite xrE'.
    rewrite /resid ec1 cE.
    have -> : \sum_(0 <= k < n) Tt i k * Xg g' k c.-1 = RS c 0 i xr.
      rewrite (@RS_full _ i xr g' c1n xrE') /RS cE [RHS](@big_cat_nat _ _ _ c) //=.
      by rewrite big_nat1 xr0 mulr0 addr0.
    case: (leqP i c) => ic.
      rewrite xiE // xrE // -dE.
      have -> : RS c 0 i xr - d c * xr i + e c.-1 * xi i = 0.
        by have [<- _] := Hx0 (hdist ds) i ic; rewrite eE; ring.
      by rewrite normr0 !mulr_ge0 // ltW.
    by have [-> ->] := X0 i ic; rewrite RS_below ?(ltW ec0) // !mulr0 subr0 addr0 !normr0 mulr0.
  apply: colok_ext (Hok j _) _ _ _ _; [by nl F|by nl F| |move=> _ a ha|move=> ej a ha].
  - by move=> a ha; rewrite /g' (negPf jc) (negPf jc1).
  - rewrite /g'; have -> : (j.+1 == c) = false by nl F.
    by have -> : (j.+1 == c.-1) = false by nl F.
  - have jn : (j < n)%N by nl F.
    have [j0 ej1] := neg_prev jn ej; rewrite /g'.
    have -> : (j.-1 == c.-1) = false by nl F.
    by case: (altP (j.-1 =P c)) => // jE; move: ej1; rewrite jE ltNge (ltW ec0).
have {ec0} ec0 : 0 < e c by rewrite lt_neqAle eq_sym ec.
have [c1n eE _ _ _] := pos_next cn ec0.
have bE : bstart c.+1 = c by rewrite /bstart c1n eE oppr_lt0 ec0.
have b0 : bstart c = c by rewrite /bstart ltNge (ltW ec0) andbF.
by apply: wpe_ok; exists g; rewrite b0 -bE.
Qed.

End Schur.

(** *** back transformation *)
Lemma trans_ok (E : err -> Prop) h v g V : repr n n h g -> repr n n v V ->
  wpe E (hqr2_trans (S:=S) n h v) (fun v' => repr n n v' (fun i j => \sum_(0 <= k < j.+1) V i k * g k j)).
Proof.
move=> Hh Hv; rewrite /hqr2_trans /at2 /set2.
pose O i j := \sum_(0 <= k < j.+1) V i k * g k j.
apply: (wpe_for_rev (fun m v => repr n n v (fun i j => if (m <= j)%N then O i j else V i j))) => //.
  by apply: repr_ext Hv _ => i j hi hj; have -> : (n <= j)%N = false by nl F.
move=> j v1 hj Hv1; have jn : (j < n)%N by nl F.
apply: wpe_mono; last first.
  apply: (for_own (fun a b => a) (fun a b => if b == j then O a j else if (j < b)%N then O a b else V a b) _ Hv1); first by [].
  move=> i v2 f1 hi Hv2 E1; have i_n : (i < n)%N by nl F.
  exs; rewrite (for_sum0 (G := fun k => V i k * g k j)); last first.
    move=> k s hk; have kn : (k < n)%N by nl F.
    rewrite (repr_get Hv2) //; cbn [bind]; rewrite (repr_get Hh) //; cbn [bind].
    by rewrite (E1 i k) ?eqxx //; have -> : (j < k)%N = false by nl F.
  cbn [bind]; apply: (wpe_repr_set Hv2) => // v3 Hv3; apply: repr_ext Hv3 _ => a b ha hb.
  case: (altP (a =P i)) => [->|ai] //=; case: (altP (b =P j)) => [_|bj]; first by rewrite addn1.
  by rewrite E1 // eqxx.
move=> v2 Hv2; apply: repr_ext Hv2 _ => a b ha hb.
rewrite leq0n ha /=.
case: (altP (b =P j)) => [->|bj]; first by rewrite leqnn.
by have -> : (j <= b)%N = (j < b)%N by nl F.
Qed.


End Back.
