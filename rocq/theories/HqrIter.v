(** * HqrIter: one pass of the outer loop of hqr2 (eigen.rs:382-608). *)
From mathcomp Require Import all_ssreflect all_algebra zify ring.
From Verif Require Import Base Scalar Hoare ModelMatrix ModelEigen Spec SpecDecomp MatrixProofs LUProofs LUThms MiscThms Orth TredProofs TqlProofs OrthesProofs HqrStep HqrSweep.

Set Implicit Arguments.
Unset Strict Implicit.
Unset Printing Implicit Defensive.
Import Order.TTheory GRing.Theory Num.Theory.
Local Open Scope ring_scope.

Section Iter.
Variable F : rcfType.
Variables eps tiny : F.
Hypothesis eps0 : 0 < eps.
Local Notation S := (exactE eps tiny).
Variable n : nat.
Implicit Types (f g V : nat -> nat -> F) (d e : nat -> F).

(** *** the norm *)
Lemma norm_ok h f : repr n n h f ->
  hqr2_norm (S:=S) n h = Ok (\sum_(0 <= i < n) \sum_(i - 1 <= j < n) `|f i j|).
Proof.
move=> Hf; rewrite /hqr2_norm.
have wpE A (r : res A) a : wp r (fun x => x = a) -> r = Ok a by case: r => //= x ->.
apply: wpE; apply: (wpe_for (fun i x => x = \sum_(0 <= i' < i) \sum_(i' - 1 <= j < n) `|f i' j|)) => //.
  by rewrite big_geq.
move=> i x hi ->; apply: (wpe_for (fun j x => x = \sum_(0 <= i' < i) \sum_(i' - 1 <= j < n) `|f i' j| + \sum_(i - 1 <= j' < j) `|f i j'|)).
- by lia.
- by rewrite [X in _ + X]big_geq // addr0.
- move=> j x' hj ->; rewrite /at2 (repr_get Hf); [|by nl F|by nl F]; cbn [bind].
  by apply: wpe_ok; rewrite big_nat_recr /=; [exs; rewrite addrA|nl F].
- by move=> s ->; rewrite [RHS]big_nat_recr.
Qed.

(** *** small subdiagonal elements *)
Section WithNorm.
Variable norm : F.
Hypothesis norm0 : 0 < norm.

Definition sc f i : F := let s := `|f i.-1 i.-1| + `|f i i| in if s == 0 then norm else s.

Lemma sc_gt0 f i : 0 < sc f i.
Proof.
rewrite /sc; case: (altP (_ =P 0)) => // s0.
by rewrite lt_neqAle eq_sym s0 addr_ge0.
Qed.

Lemma find_l_ok t h f : (t < n)%N -> repr n n h f ->
  wp (hqr2_find_l (S:=S) n norm h t) (fun l => [/\ (l <= t)%N,
    (0 < l)%N -> `|f l l.-1| <= eps * sc f l &
    forall i, (l < i <= t)%N -> f i i.-1 != 0]).
Proof.
move=> tn Hf; elim: t tn => [|t IH] tn /=; first by split=> // i; nl F.
rewrite /at2 (repr_get Hf); [|by nl F|by nl F]; cbn [bind].
rewrite (repr_get Hf); [|by nl F|by nl F]; cbn [bind].
rewrite (repr_get Hf); [|by nl F|by nl F]; cbn [bind]; exs.
have -> : (if `|f t t| + `|f t.+1 t.+1| == 0 then norm else `|f t t| + `|f t.+1 t.+1|) = sc f t.+1 by [].
case: ltP => hlt.
  by apply: wpe_ok; split=> // [_|i]; [rewrite /= ltW|nl F].
apply: wpe_mono (IH _) => [l [lt h1 h2]|]; last by nl F.
split=> //; first by nl F.
move=> i hi; case: (altP (i =P t.+1)) => [->|it]; last by apply: h2; nl F.
rewrite -normr_gt0 /=; apply: lt_le_trans hlt.
by rewrite mulr_gt0 // sc_gt0.
Qed.

End WithNorm.

(** *** the shift *)
Lemma sub_diag_ok (E : err -> Prop) t x h f : (t < n)%N -> repr n n h f ->
  wpe E (hqr2_sub_diag (S:=S) n t x h)
    (fun h => repr n n h (fun a b => if (a == b) && (a <= t)%N then f a b - x else f a b)).
Proof.
move=> tn Hf; rewrite /hqr2_sub_diag addn1; apply: wpe_mono; last first.
  apply: (for_own (fun a b => if a == b then a else n) (fun a b => f a b - x) _ Hf) => //.
  move=> k v1 f1 hk Hv1 E1; rewrite /at2 /set2.
  rewrite (repr_get Hv1); [|by nl F|by nl F]; cbn [bind].
  apply: (wpe_repr_set Hv1); [by nl F|by nl F|] => v2 Hv2; apply: repr_ext Hv2 _ => a b ha hb.
  case: (altP (a =P b)) => [<-|ab].
    case: (altP (a =P k)) => [->|ak] //=.
    by exs; rewrite E1 ?eqxx //; nl F.
  have -> : (n == k) = false by nl F.
  by have -> : (a == k) && (b == k) = false by nl F.
move=> v' Hv'; apply: repr_ext Hv' _ => a b ha hb; rewrite leq0n /=.
case: (altP (a =P b)) => [<-|ab] //=.
by have -> : (n < t.+1)%N = false by nl F.
Qed.

Lemma root_bound (M s t w : F) : 0 <= M -> w = s ^+ 2 - t ^+ 2 -> 0 <= s * t -> t + s != 0 ->
  `|w| <= M ^+ 2 -> `|w / (t + s)| <= M.
Proof.
move=> M0 wE st ts wM.
have -> : w / (t + s) = s - t by rewrite wE; field.
rewrite -[M]ger0_norm // -ler_sqr ?nnegrE // -!normrX [X in _ <= X]ger0_norm ?sqr_ge0 //.
apply: le_trans wM; rewrite wE normrX.
have -> : s ^+ 2 - t ^+ 2 = (s - t) * (s + t) by ring.
rewrite normrM expr2 ler_wpmul2l //.
rewrite -ler_sqr ?nnegrE // -!normrX !ger0_norm ?sqr_ge0 //.
have -> : (s - t) ^+ 2 = (s + t) ^+ 2 - 4%:R * (s * t) by ring.
by rewrite ler_subl_addr ler_addl mulr_ge0 // ler0n.
Qed.

Lemma shift_ok (E : err -> Prop) t iter h ex f (M : F) : (1 < t)%N -> (t < n)%N -> repr n n h f -> 0 <= M ->
  `|f t t + ex| <= M -> `|f t t.-1| <= M -> `|f t.-1 t| <= M -> `|ex| <= M *+ 2 ->
  wpe E (hqr2_shift (S:=S) n t iter h ex) (fun r => let '(h', ex', _, _, _) := r in
    `|ex'| <= M *+ 2 /\
    repr n n h' (fun a b => if (a == b) && (a <= t)%N then f a b - (ex' - ex) else f a b)).
Proof.
move=> t1 tn Hf M0 b1 b2 b3 b4; rewrite /hqr2_shift /at2.
rewrite (repr_get Hf); [|by nl F|by nl F]; cbn [bind]; rewrite subn1.
rewrite (repr_get Hf); [|by nl F|by nl F]; cbn [bind].
rewrite (repr_get Hf); [|by nl F|by nl F]; cbn [bind].
rewrite (repr_get Hf); [|by nl F|by nl F]; cbn [bind].
have triv : repr n n h (fun a b => if (a == b) && (a <= t)%N then f a b - (ex - ex) else f a b).
  by apply: repr_ext Hf _ => a b _ _; rewrite subrr subr0 if_same.
case: (altP (iter =P 10%N)) => it.
  have -> : (iter == 30%N) = false by rewrite it.
  apply: wpe_bind; apply: wpe_bind; apply: wpe_mono (sub_diag_ok _ _ tn Hf) => h1 H1.
  rewrite (repr_get H1); [|by nl F|by nl F]; cbn [bind].
  have -> : (t - 2 = t.-2)%N by nl F.
  rewrite (repr_get H1); [|by nl F|by nl F]; cbn [bind].
  do 2![apply: wpe_ok]; exs; split.
    rewrite addrC; apply: le_trans b1 _; by rewrite mulr2n ler_addl.
  apply: repr_ext H1 _ => a b _ _; by rewrite addrAC subrr add0r.
cbn [bind]; case: (iter == 30%N); last by apply: wpe_ok.
exs; set tt := (f t.-1 t.-1 - f t t) / 2%:R; set w := f t t.-1 * f t.-1 t.
have -> : ((2%:R : F) == 0) = false by apply/negP; rewrite pnatr_eq0.
cbn [bind]; case: ltP => s0; last by apply: wpe_ok.
rewrite ltNge (ltW s0); cbn [negb bind].
set s1 := Num.sqrt _; set s := if _ then - s1 else s1.
have s10 : 0 < s1 by rewrite sqrtr_gt0.
have s1E : s1 ^+ 2 = tt ^+ 2 + w by rewrite sqr_sqrtr ?expr2 // ltW.
have sE : w = s ^+ 2 - tt ^+ 2.
  by rewrite /s; case: ifP => _; rewrite ?sqrrN s1E addrAC subrr add0r.
have two0 : (0 : F) < 2%:R by rewrite ltr0n.
have st : 0 <= s * tt.
  rewrite /s /tt; case: ltP => hxy.
    by rewrite mulNr -mulrN -mulNr opprB mulr_ge0 ?(ltW s10) // divr_ge0 ?(ltW two0) // subr_ge0 ltW.
  by rewrite mulr_ge0 ?(ltW s10) // divr_ge0 ?(ltW two0) // subr_ge0.
have ts : tt + s != 0.
  have s2 : 0 < s ^+ 2 by rewrite /s; case: ifP => _; rewrite ?sqrrN exprn_even_gt0 //= gt_eqF.
  have : 0 < tt ^+ 2 + s * tt + s * tt + s ^+ 2 by rewrite ltr_paddl // !addr_ge0 ?sqr_ge0.
  have -> : tt ^+ 2 + s * tt + s * tt + s ^+ 2 = (tt + s) ^+ 2 by ring.
  by apply: contraTneq => ->; rewrite expr0n ltxx.
rewrite (negPf ts); cbn [bind].
have wb : `|w / (tt + s)| <= M.
  apply: root_bound => //; rewrite /w normrM expr2; apply: ler_pmul => //.
apply: wpe_bind; apply: wpe_mono (sub_diag_ok _ _ tn Hf) => h1 H1; apply: wpe_ok; split.
  rewrite addrA mulr2n [ex + _]addrC; apply: le_trans (ler_norm_add _ _) _; rewrite normrN; exact: ler_add.
apply: repr_ext H1 _ => a b _ _; by rewrite [ex + _]addrC addrK.
Qed.

(** *** two consecutive small subdiagonal elements *)
Lemma find_m_ok (E : err -> Prop) t l c x y w h f : (t < n)%N -> (l + c + 2 <= t)%N -> repr n n h f ->
  (forall i, (l < i <= t)%N -> f i i.-1 != 0) ->
  wpe E (hqr2_find_m (S:=S) n l c x y w h) (fun r => let '(m, p, q, r) := r in
    [/\ (l <= m)%N, (m.+2 <= t)%N, p ^+ 2 + q ^+ 2 + r ^+ 2 != 0 &
        (l < m)%N -> `|f m m.-1| * (`|q| + `|r|) < eps * (`|p| * (`|f m.-1 m.-1| + `|f m m| + `|f m.+1 m.+1|))]).
Proof.
move=> tn; elim: c => [|c IH] lc Hf nz; cbn [hqr2_find_m]; rewrite /at2 !addn1 addn2.
1: set m := (l + 0)%N in lc *.
2: set m := (l + c.+1)%N in lc *.
all: have nz1 : f m.+1 m != 0 by [apply: (nz m.+1); rewrite /m; nl F].
all: have nz2 : f m.+2 m.+1 != 0 by [apply: (nz m.+2); rewrite /m; nl F].
all: rewrite (repr_get Hf); [|by rewrite /m; nl F|by rewrite /m; nl F]; cbn [bind].
all: rewrite (repr_get Hf); [|by rewrite /m; nl F|by rewrite /m; nl F]; cbn [bind].
all: exs; rewrite (negPf nz1); cbn [bind].
all: rewrite (repr_get Hf); [|by rewrite /m; nl F|by rewrite /m; nl F]; cbn [bind].
all: rewrite (repr_get Hf); [|by rewrite /m; nl F|by rewrite /m; nl F]; cbn [bind].
all: rewrite (repr_get Hf); [|by rewrite /m; nl F|by rewrite /m; nl F]; cbn [bind].
all: set p := _ / _ + _; set q := f m.+1 m.+1 - _ - _ - _; set r := f m.+2 m.+1; set s := `|p| + `|q| + `|r|.
all: have s0 : s != 0 by rewrite gt_eqF // ltr_paddl ?normr_gt0 // addr_ge0.
all: rewrite (negPf s0); cbn [bind].
all: have pqr : (p / s) ^+ 2 + (q / s) ^+ 2 + (r / s) ^+ 2 != 0
  by rewrite gt_eqF // ltr_paddl ?exprn_even_gt0 //= ?mulf_neq0 ?invr_eq0 // addr_ge0 ?sqr_ge0.
  by apply: wpe_ok; split=> //; rewrite /m; nl F.
rewrite subn1 (repr_get Hf); [|by rewrite /m; nl F|by rewrite /m; nl F]; cbn [bind].
rewrite (repr_get Hf); [|by rewrite /m; nl F|by rewrite /m; nl F]; cbn [bind].
case: ltP => hlt; last by apply: IH => //; rewrite /m in lc; nl F.
by apply: wpe_ok; split=> //; rewrite /m; nl F.
Qed.

(** *** clearing below the subdiagonal *)
Lemma clear_ok (E : err -> Prop) m t h f : (m.+2 <= t)%N -> (t < n)%N -> repr n n h f ->
  wpe E (hqr2_clear (S:=S) n m t h) (fun h => exists f',
    [/\ repr n n h f', zz t m f', f' m.+2 m = 0 &
        forall a b, (a <= b.+1)%N || (t < a)%N -> f' a b = f a b]).
Proof.
move=> mt tn Hf; rewrite /hqr2_clear addn1 addn2.
pose f' a b := if (a == b.+2) || ((a == b.+3) && (m.+2 < a)%N) then 0 else f a b.
apply: wpe_mono; last first.
  apply: (for_own (fun a b => a) f' _ Hf); first by nl F.
  move=> k v1 f1 hk Hv1 E1; rewrite /set2.
  apply: wpe_bind; apply: (wpe_repr_set Hv1); [by nl F|by nl F|] => v2 Hv2.
  case: (ltnP m.+2 k) => mk.
    apply: (wpe_repr_set Hv2); [by nl F|by nl F|] => v3 Hv3; apply: repr_ext Hv3 _ => a b ha hb.
    rewrite /f'; case: (altP (a =P k)) => [->|ak] //=.
    have [bE|[bE|bE]] : k = b.+2 \/ k = b.+3 \/ (k <> b.+2 /\ k <> b.+3) by nl F.
    - by ifn F.
    - by ifn F.
    - by ifn F; rewrite E1 ?eqxx //; nl F.
  apply: wpe_ok; apply: repr_ext Hv2 _ => a b ha hb.
  rewrite /f'; case: (altP (a =P k)) => [->|ak] //=.
  have [bE|bE] : k = b.+2 \/ (k <> b.+2) by nl F.
  - by ifn F.
  - by ifn F; rewrite E1 ?eqxx //; nl F.
move=> h' Hh'; exists (fun a b => if (m.+2 <= a < t.+1)%N then f' a b else f a b); split=> //.
- by move=> i hi; rewrite /f'; ifn F.
- by rewrite /f'; ifn F.
- by move=> a b hab; rewrite /f'; case: ifP => // h1; ifn F.
Qed.

End Iter.
