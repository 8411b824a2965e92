(** * HqrStep: the building blocks of hqr2 (eigen.rs:347-608): row and column
    operations, the reflection of the double QR step. *)
From mathcomp Require Import all_ssreflect all_algebra zify ring.
From Verif Require Import Base Scalar Hoare ModelMatrix ModelEigen Spec SpecDecomp MatrixProofs LUProofs LUThms MiscThms Orth TredProofs TqlProofs OrthesProofs.

Set Implicit Arguments.
Unset Strict Implicit.
Unset Printing Implicit Defensive.
Import Order.TTheory GRing.Theory Num.Theory.
Local Open Scope ring_scope.

(** [iflia] without the hypotheses about F *)
Ltac ifn F := repeat match goal with |- context [if ?c then _ else _] =>
  first [have -> : c = true by nl F | have -> : c = false by nl F] end.

Section Step.
Variable F : rcfType.
Variables eps tiny : F.
Local Notation S := (exactE eps tiny).
Variable n : nat.
Implicit Types (f g V : nat -> nat -> F) (d e : nat -> F) (P Q R s : F).

(** the vector (P, Q, R) at the positions k, k+1, k+2 *)
Definition u3 k P Q R (l : nat) : F :=
  if l == k then P else if l == k.+1 then Q else if l == k.+2 then R else 0.
Definition s3 k P Q R (G : nat -> F) : F := P * G k + Q * G k.+1 + R * G k.+2.

Lemma u3_sum k P Q R (G : nat -> F) : (k.+1 < n)%N -> (k.+2 < n)%N || (R == 0) ->
  \sum_(0 <= l < n) u3 k P Q R l * G l = s3 k P Q R G.
Proof.
move=> kn kR; rewrite /s3.
have kn0 : (k < n)%N by lia.
rewrite big_mkord (bigD1 (Ordinal kn0)) //= (bigD1 (Ordinal kn)) //=; last by rewrite -val_eqE /=; lia.
rewrite {1 2}/u3 !eqxx; ifn F.
rewrite -!addrA; congr (_ + (_ + _)).
case: (ltnP k.+2 n) kR => [k2 _|k2 /= /eqP ->].
  rewrite (bigD1 (Ordinal k2)) /=; last by rewrite -!val_eqE /=; lia.
  rewrite {1}/u3; ifn F; rewrite big1 ?addr0 // => l.
  by rewrite -!val_eqE /= /u3 => h; ifn F; rewrite mul0r.
rewrite mul0r big1 // => l; rewrite -!val_eqE /= /u3 => h.
by have := ltn_ord l => hl; ifn F; rewrite mul0r.
Qed.

(** *** hqr2_rows and hqr2_cols apply the reflection I - u u^T / (P s) *)
Lemma rows_ok (E : err -> Prop) k (nl : bool) P Q R s h f : (k.+1 < n)%N ->
  (if nl then (k.+2 < n)%N else R == 0) -> P != 0 -> s != 0 -> repr n n h f ->
  wpe E (hqr2_rows (S:=S) n k nl (Q / P) (R / P) (P / s) (Q / s) (R / s) h)
    (fun h => repr n n h (fun a b => if (k <= b)%N then
       f a b - u3 k P Q R a * s3 k P Q R (f ^~ b) / (P * s) else f a b)).
Proof.
move=> kn knl P0 s0 Hh; rewrite /hqr2_rows.
pose f' a b := f a b - u3 k P Q R a * s3 k P Q R (f ^~ b) / (P * s).
apply: wpe_mono; last first.
  apply: (for_own (fun a b => b) f' _ Hh); first by lia.
  move=> j h1 f1 hj Hh1 E1; rewrite /at2 /set2 addn1 addn2.
  have E1' a : (a < n)%N -> f1 a j = f a j by move=> ha; apply: E1; rewrite ?eqxx //; lia.
  rewrite (repr_get Hh1); [|by lia|by lia]; cbn [bind].
  rewrite (repr_get Hh1); [|by lia|by lia]; cbn [bind].
  case: nl knl => knl; cbn [bind].
    rewrite (repr_get Hh1); [|by lia|by lia]; cbn [bind].
    apply: wpe_bind; apply: wpe_bind; apply: (wpe_repr_set Hh1); [by lia|by lia|] => h2 Hh2.
    apply: wpe_ok; rewrite (repr_get Hh2); [|by lia|by lia]; cbn [bind].
    apply: wpe_bind; apply: (wpe_repr_set Hh2); [by lia|by lia|] => h3 Hh3.
    rewrite (repr_get Hh3); [|by lia|by lia]; cbn [bind].
    apply: (wpe_repr_set Hh3); [by lia|by lia|] => h4 Hh4; apply: repr_ext Hh4 _ => a b ha hb.
    exs; case: (altP (b =P j)) => [->|bj]; last by rewrite !andbF.
    rewrite !E1' ?andbT; [|by lia|by lia|by lia|by lia].
    rewrite eqxx /f' /s3 /u3.
    have [ak|[ak|[ak|ak]]] : a = k \/ a = k.+1 \/ a = k.+2 \/ (a <> k /\ a <> k.+1 /\ a <> k.+2) by lia.
    - by subst a; ifn F; field; rewrite P0 s0.
    - by subst a; ifn F; field; rewrite P0 s0.
    - by subst a; ifn F; field; rewrite P0 s0.
    - by case: ak => ? [? ?]; ifn F; rewrite !mul0r subr0.
  rewrite (repr_get Hh1); [|by lia|by lia]; cbn [bind].
  apply: wpe_bind; apply: (wpe_repr_set Hh1); [by lia|by lia|] => h3 Hh3.
  rewrite (repr_get Hh3); [|by lia|by lia]; cbn [bind].
  apply: (wpe_repr_set Hh3); [by lia|by lia|] => h4 Hh4; apply: repr_ext Hh4 _ => a b ha hb.
  exs; case: (altP (b =P j)) => [->|bj]; last by rewrite !andbF.
  rewrite !E1' ?andbT; [|by lia|by lia|by lia].
  move/eqP: knl => knl; rewrite eqxx /f' /s3 /u3 knl.
  have [ak|[ak|[ak|ak]]] : a = k \/ a = k.+1 \/ a = k.+2 \/ (a <> k /\ a <> k.+1 /\ a <> k.+2) by lia.
  - by subst a; ifn F; field; rewrite P0 s0.
  - by subst a; ifn F; field; rewrite P0 s0.
  - by subst a; ifn F; rewrite !mul0r subr0.
  - by case: ak => ? [? ?]; ifn F; rewrite !mul0r subr0.
move=> v' Hv'; apply: repr_ext Hv' _ => a b ha hb; rewrite hb andbT /f'; reflexivity.
Qed.

Lemma cols_ok (E : err -> Prop) hi k (nl : bool) P Q R s h f : (k.+1 < n)%N -> (hi <= n)%N ->
  (if nl then (k.+2 < n)%N else R == 0) -> P != 0 -> s != 0 -> repr n n h f ->
  wpe E (hqr2_cols (S:=S) n hi k nl (Q / P) (R / P) (P / s) (Q / s) (R / s) h)
    (fun h => repr n n h (fun a b => if (a < hi)%N then
       f a b - s3 k P Q R (f a) / (P * s) * u3 k P Q R b else f a b)).
Proof.
move=> kn hin knl P0 s0 Hh; rewrite /hqr2_cols.
pose f' a b := f a b - s3 k P Q R (f a) / (P * s) * u3 k P Q R b.
apply: wpe_mono; last first.
  apply: (for_own (fun a b => a) f' _ Hh); first by lia.
  move=> j h1 f1 hj Hh1 E1; rewrite /at2 /set2 addn1 addn2.
  have E1' a : (a < n)%N -> f1 j a = f j a by move=> ha; apply: E1; rewrite ?eqxx //; lia.
  rewrite (repr_get Hh1); [|by lia|by lia]; cbn [bind].
  rewrite (repr_get Hh1); [|by lia|by lia]; cbn [bind].
  case: nl knl => knl; cbn [bind].
    rewrite (repr_get Hh1); [|by lia|by lia]; cbn [bind].
    apply: wpe_bind; apply: wpe_bind; apply: (wpe_repr_set Hh1); [by lia|by lia|] => h2 Hh2.
    apply: wpe_ok; rewrite (repr_get Hh2); [|by lia|by lia]; cbn [bind].
    apply: wpe_bind; apply: (wpe_repr_set Hh2); [by lia|by lia|] => h3 Hh3.
    rewrite (repr_get Hh3); [|by lia|by lia]; cbn [bind].
    apply: (wpe_repr_set Hh3); [by lia|by lia|] => h4 Hh4; apply: repr_ext Hh4 _ => a b ha hb.
    exs; case: (altP (a =P j)) => [->|bj]; last by rewrite /=.
    rewrite !E1' /=; [|by lia|by lia|by lia|by lia].
    rewrite /f' /s3 /u3 !eqxx /=.
    have [ak|[ak|[ak|ak]]] : b = k \/ b = k.+1 \/ b = k.+2 \/ (b <> k /\ b <> k.+1 /\ b <> k.+2) by lia.
    - by subst b; ifn F; field; rewrite P0 s0.
    - by subst b; ifn F; field; rewrite P0 s0.
    - by subst b; ifn F; field; rewrite P0 s0.
    - by case: ak => ? [? ?]; ifn F; rewrite !mulr0 subr0.
  rewrite (repr_get Hh1); [|by lia|by lia]; cbn [bind].
  apply: wpe_bind; apply: (wpe_repr_set Hh1); [by lia|by lia|] => h3 Hh3.
  rewrite (repr_get Hh3); [|by lia|by lia]; cbn [bind].
  apply: (wpe_repr_set Hh3); [by lia|by lia|] => h4 Hh4; apply: repr_ext Hh4 _ => a b ha hb.
  exs; case: (altP (a =P j)) => [->|bj]; last by rewrite /=.
  rewrite !E1' /=; [|by lia|by lia|by lia].
  move/eqP: knl => knl; rewrite /f' /s3 /u3 knl !eqxx /=.
  have [ak|[ak|[ak|ak]]] : b = k \/ b = k.+1 \/ b = k.+2 \/ (b <> k /\ b <> k.+1 /\ b <> k.+2) by lia.
  - by subst b; ifn F; field; rewrite P0 s0.
  - by subst b; ifn F; field; rewrite P0 s0.
  - by subst b; ifn F; rewrite !mulr0 subr0.
  - by case: ak => ? [? ?]; ifn F; rewrite !mulr0 subr0.
by move=> v' Hv'; apply: repr_ext Hv' _ => a b ha hb; rewrite leq0n.
Qed.


(** *** the matrix in the middle of a double QR step on the rows m..t:
    upper triangle, the subdiagonal without (m, m-1) and (t+1, t), and the
    bulge in the columns k-1 and k *)
Definition kp (sub : nat -> bool) m t i := (i != m) && ((i <= t)%N || ((t.+1 < i)%N && sub i)).
Definition pr sub m t k i j :=
  (i <= j)%N || ((i == j.+1) && kp sub m t i) ||
  [&& (m <= j)%N, (k <= j.+1)%N, (j <= k)%N & (i <= minn t k.+2)%N].
Definition W sub m t k f a b : F := if pr sub m t k a b then f a b else 0.

(** what rows_ok, cols_ok compute from g *)
Definition frow k P Q R s g a b : F :=
  if (k <= b)%N then g a b - u3 k P Q R a * s3 k P Q R (g ^~ b) / (P * s) else g a b.
Definition fcol hi k P Q R s g a b : F :=
  if (a < hi)%N then g a b - s3 k P Q R (g a) / (P * s) * u3 k P Q R b else g a b.

(** positions below the profile that the step reads hold zero *)
Definition zz t k f := forall i, (k.+3 <= i <= t)%N -> f i (i - 2)%N = 0 /\ f i (i - 3)%N = 0.

Lemma s3_eq k P Q R G G' : G k = G' k -> G k.+1 = G' k.+1 -> (R != 0 -> G k.+2 = G' k.+2) ->
  s3 k P Q R G = s3 k P Q R G'.
Proof.
rewrite /s3 => -> -> H; congr (_ + _); case: (altP (R =P 0)) => [->|/H -> //]; by rewrite !mul0r.
Qed.
Lemma s3_0 k P Q R G : G k = 0 -> G k.+1 = 0 -> (R != 0 -> G k.+2 = 0) -> s3 k P Q R G = 0.
Proof.
move=> h1 h2 h3; rewrite (@s3_eq k P Q R G (fun=> 0)) // /s3; ring.
Qed.

Lemma step_pure sub m t k P Q R s x p q r c f : (m <= k < t)%N -> (t < n)%N ->
  (R != 0 -> (k.+2 <= t)%N) -> P != 0 -> s != 0 -> zz t k f ->
  P = p + s -> Q = q -> R = r -> s ^+ 2 = p ^+ 2 + q ^+ 2 + r ^+ 2 ->
  ((m < k)%N -> [/\ f k k.-1 = x * p, f k.+1 k.-1 = x * q,
      (k.+2 <= t)%N -> f k.+2 k.-1 = x * r & c = - s * x]) ->
  let g := fun a b => if (a == k) && (b.+1 == k) then c else f a b in
  let H := house n (u3 k P Q R) (P * s) in
  H *m mxf n n (W sub m t k f) *m H =
  mxf n n (W sub m t k.+1 (fcol (minn t k.+3).+1 k P Q R s (frow k P Q R s g))).
Proof.
move=> hk tn hR P0 s0 hz PE QE RE sE hx g H.
have Ps : P * s != 0 by rewrite mulf_neq0.
have knR : (k.+2 < n)%N || (R == 0).
  by case: (altP (R =P 0)) => [_|/hR]; rewrite ?orbT ?orbF //; lia.
have kn : (k.+1 < n)%N by lia.
rewrite /H house_lE // house_rE //; apply/matrixP => a b; rewrite !mxE.
move: (nat_of_ord a) (nat_of_ord b) (ltn_ord a) (ltn_ord b) => {}a {}b an bn.
set h := P * s; set u := u3 k P Q R.
pose X1 a b := W sub m t k f a b - u a * s3 k P Q R (W sub m t k f ^~ b) / h.
pose f1 := frow k P Q R s g.
have uS G : \sum_(0 <= l < n) u l * G l = s3 k P Q R G := u3_sum _ _ G kn knR.
have -> : \sum_(0 <= l < n) (W sub m t k f a l - u a * (\sum_(0 <= l0 < n) u l0 * W sub m t k f l0 l) / h) * u l
   = s3 k P Q R (X1 a).
  by rewrite -uS; apply: eq_bigr => l _; rewrite mulrC uS.
rewrite uS -/(X1 a b).
(* columns >= k of X1 *)
have X1hi a' b' : (k <= b')%N -> X1 a' b' = if pr sub m t k a' b' then f1 a' b' else 0.
  move=> kb; rewrite /X1 /f1 /frow kb.
  have -> : s3 k P Q R (W sub m t k f ^~ b') = s3 k P Q R (g ^~ b').
    by apply: s3_eq => [||/hR h2]; rewrite /W /g /pr /kp; ifn F.
  case: (boolP (pr sub m t k a' b')) => hp.
    by rewrite /W hp /g; ifn F.
  rewrite /W (negPf hp); suff -> : u a' = 0 by rewrite !mul0r subr0.
  move: hp; rewrite /u /u3 /pr /kp => hp; ifn F; case: eqP => // ak.
  by apply/eqP; apply: contraT => /hR; nl F.
(* columns < k: the result *)
have X1lo b' : (b' < k)%N -> X1 a b' = if pr sub m t k.+1 a b' then g a b' else 0.
  move=> bk; rewrite /X1.
  have [mk|mk] : (m < k /\ b'.+1 = k)%N \/ ~ (m < k /\ b'.+1 = k)%N by nl F.
    case: mk => mk bk1; have [h1 h2 h3 h4] := hx mk.
    have bE : b' = k.-1 by nl F.
    have -> : s3 k P Q R (W sub m t k f ^~ b') = x * h.
      have -> : s3 k P Q R (W sub m t k f ^~ b') = s3 k P Q R (u3 k (x * p) (x * q) (x * r)).
        apply: s3_eq => [||/hR hh]; rewrite /W /u3 /pr /kp; ifn F; rewrite bE //; exact: h3.
      rewrite /s3 /u3 /h; ifn F; rewrite PE QE RE; ring: sE.
    rewrite mulrA mulfK // /g /W /u /u3 /pr /kp.
    have [ak|[ak|[ak|ak]]] : a = k \/ a = k.+1 \/ a = k.+2 \/ (a <> k /\ a <> k.+1 /\ a <> k.+2) by nl F.
    - by subst a; ifn F; rewrite bE h1 h4 PE; ring.
    - by subst a; ifn F; rewrite bE h2 QE; ring.
    - subst a; case: (leqP k.+2 t) => k2; ifn F; first by rewrite bE h3 // RE; ring.
      suff -> : R = 0 by rewrite mul0r subr0.
      by apply/eqP; apply: contraT => /hR; nl F.
    - by case: ak => ? [? ?]; case: (leqP a b') => ?; ifn F; rewrite mul0r subr0.
  rewrite s3_0 ?mulr0 ?mul0r ?subr0; first last.
  - by move=> /hR h2; rewrite /W /pr /kp; ifn F.
  - by rewrite /W /pr /kp; ifn F.
  - by rewrite /W /pr /kp; ifn F.
  rewrite /W /g; case: (boolP (pr sub m t k a b')) => hp.
    have -> : pr sub m t k.+1 a b' by move: hp; rewrite /pr /kp; nl F.
    by move: hp; rewrite /pr /kp => hp; ifn F.
  by have -> : pr sub m t k.+1 a b' = false by move: hp; rewrite /pr /kp; nl F.
have ub : ~~ (k <= b <= minn t k.+2)%N -> u b = 0.
  rewrite /u /u3 => hb; ifn F; case: eqP => // bk.
  by apply/eqP; apply: contraT => /hR; nl F.
have f1lo : (b < k)%N -> f1 a b = g a b by move=> bk; rewrite /f1 /frow; ifn F.
case: (leqP k b) => kb; last first.
  rewrite ub ?mulr0 ?subr0; last by nl F.
  by rewrite X1lo // /W; case: ifP => // _; rewrite /fcol -/u ub ?mulr0 ?subr0 ?if_same -/f1 ?f1lo //; nl F.
case: (leqP b (minn t k.+2)) => bt; last first.
  rewrite ub ?mulr0 ?subr0; last by nl F.
  rewrite X1hi // /W /fcol -/u ub ?mulr0 ?subr0 ?if_same; last by nl F.
  have -> : pr sub m t k a b = pr sub m t k.+1 a b by rewrite /pr /kp; nl F.
  by [].
case: (leqP a (minn t k.+3)) => at3; last first.
  rewrite s3_0; first last.
  - by move=> /hR h2; rewrite X1hi; [rewrite /pr /kp; iflia|nl F].
  - by rewrite X1hi; [rewrite /pr /kp; iflia|nl F].
  - by rewrite X1hi; [rewrite /pr /kp; iflia|nl F].
  rewrite !mul0r subr0 X1hi // /W.
  have -> : pr sub m t k.+1 a b = false by rewrite /pr /kp; nl F.
  by have -> : pr sub m t k a b = false by rewrite /pr /kp; nl F.
have XE b' : (k <= b' <= minn t k.+2)%N -> X1 a b' = f1 a b'.
  move=> /andP[kb' bt']; rewrite X1hi //; case: (boolP (pr sub m t k a b')) => // hp.
  have [h1 h2] : f k.+3 k.+1 = 0 /\ f k.+3 k = 0.
    have := hz k.+3 _; rewrite subSS subn1 /= subSS subSS subn1 /=; apply.
    by move: hp; rewrite /pr /kp; nl F.
  have a3 : a = k.+3 by move: hp; rewrite /pr /kp; nl F.
  have bE : b' = k \/ b' = k.+1 by move: hp; rewrite /pr /kp; nl F.
  rewrite /f1 /frow kb' /u3 a3; ifn F; rewrite mul0r mul0r subr0 /g; ifn F.
  by case: bE => ->.
rewrite XE; last by nl F.
rewrite (@s3_eq k P Q R (X1 a) (f1 a)); first last.
- by move=> /hR h2; rewrite XE //; nl F.
- by rewrite XE //; nl F.
- by rewrite XE //; nl F.
rewrite /W /fcol -/f1; have -> : (a < (minn t k.+3).+1)%N by nl F.
by have -> : pr sub m t k.+1 a b by rewrite /pr /kp; nl F.
Qed.

End Step.
