(** * HqrAll: the iteration of hqr2 (eigen.rs:369-608) as a whole. *)
From mathcomp Require Import all_ssreflect all_algebra zify ring.
From Verif Require Import Base Scalar Hoare ModelMatrix ModelEigen Spec SpecDecomp MatrixProofs LUProofs LUThms MiscThms Orth TredProofs TqlProofs OrthesProofs HqrStep HqrSweep HqrIter HqrMore HqrTwo.

Set Implicit Arguments.
Unset Strict Implicit.
Unset Printing Implicit Defensive.
Import Order.TTheory GRing.Theory Num.Theory.
Local Open Scope ring_scope.

Section All.
Variable F : rcfType.
Variables eps tiny : F.
Hypothesis eps0 : 0 < eps.
Local Notation S := (exactE eps tiny).
Variable n : nat.
Implicit Types (f g V : nat -> nat -> F) (d e : nat -> F).

Section WithA.
Variables (A : 'M[F]_n) (norm : F).
Hypothesis norm0 : 0 < norm.
Hypothesis norm_le : norm <= (n * n)%:R * fro A.
Local Notation NN := (NN eps A).
Local Notation hinv := (@hinv F eps tiny n A).

Lemma iter_ok k (st : hq S) : hinv k st ->
  wp (hqr2_iter (S:=S) n norm st) (fun c => match c with
    | Next st' => hinv k.+1 st' | Stop st' => hinv k st' /\ hq_n1 st' = 0%N end).
Proof.
move=> H; rewrite /hqr2_iter; case: (altP (hq_n1 st =P 0%N)) => n10; first by apply: wpe_ok.
have [d [e [f [V [[Hd He Hf HV] n1n [oV exb] Tb Hfin]]]]] := H.
case E1 : (hq_n1 st) n10 => [|t] // _; rewrite E1 in n1n Tb Hfin.
cbn zeta; rewrite subn1 /=.
apply: wpe_bind;
apply: wpe_mono (@find_l_ok F eps tiny eps0 n norm norm0 _ _ _ n1n Hf) => l [lt hl nz].
case: (altP (l =P t)) => [lE|l1].
  apply: wpe_bind; rewrite lE in hl.
  by apply: wpe_mono (one_ok eps0 norm_le Hd He Hf HV E1 n1n oV exb Tb Hfin hl) => st' H'; apply: wpe_ok.
rewrite subn1; case: (altP (l =P t.-1)) => [lE|l2].
  have t0 : (0 < t < n)%N by nl F.
  apply: wpe_bind; rewrite lE in hl nz.
  have c0 : f t t.-1 != 0 by apply: nz; nl F.
  by apply: wpe_mono (two_ok eps0 norm_le Hd He Hf HV E1 t0 oV exb Tb Hfin hl c0) => st' H'; apply: wpe_ok.
have l3 : (l.+2 <= t)%N by nl F.
apply: wpe_bind;
by apply: wpe_mono (more_ok eps0 norm_le Hd He Hf HV E1 n1n l3 oV exb Tb Hfin hl nz) => st' H'; apply: wpe_ok.
Qed.

Lemma loop_ok fuel (st : hq S) : hinv 0 st ->
  wpp (loop_ fuel (hqr2_iter (S:=S) n norm) st) (fun st' => hinv fuel st' /\ hq_n1 st' = 0%N).
Proof.
move=> H; apply: (wpp_loop_count (I := hinv) (J := fun k st' => hinv k st' /\ hq_n1 st' = 0%N) H).
  by move=> k st1 H1; apply: wp_wpp; apply: iter_ok.
move=> k st' hk [[d [e [f [V [Hr n1n [oV exb] Tb Hfin]]]]] n10]; split=> //.
have kf : (k <= fuel)%N by nl F.
have NNk : NN k <= NN fuel.
  by rewrite -(subnKC kf); elim: (fuel - k)%N => [|j IH]; rewrite ?addn0 // addnS; apply: le_trans IH (NN_mono eps0 A _).
exists d, e, f, V; split=> //.
  by split=> //; apply: le_trans exb _; rewrite ler_muln2r NNk orbT.
by apply: le_trans Tb _; rewrite ler_add2r.
Qed.


(** a matrix of order at most 2 needs at most 3 iterations *)
Local Notation anyerr := (fun _ : err => True).
Lemma bnd A0 B0 (m : res A0) (k : A0 -> res B0) Q : (forall a, wpe anyerr (k a) Q) -> wpe anyerr (bind m k) Q.
Proof. by move=> h; case: m. Qed.

Lemma one_n1 t (st : hq S) : wpe anyerr (hqr2_one (S:=S) n t st) (fun st' => hq_n1 st' = t).
Proof.
by rewrite /hqr2_one; do 5![apply: bnd => ?].
Qed.

Lemma two_n1 t (st : hq S) : wpe anyerr (hqr2_two (S:=S) n t st) (fun st' => hq_n1 st' = t.-1).
Proof.
rewrite /hqr2_two subn1; do 10![apply: bnd => ?].
by case: ifP => _; repeat lazymatch goal with |- wpe _ (bind _ _) _ => apply: bnd => ? end.
Qed.

Lemma loop2_ok fuel (st : hq S) : (n <= 2)%N -> (2 < fuel)%N -> hinv 0 st ->
  wp (loop_ fuel (hqr2_iter (S:=S) n norm) st) (fun st' => hinv fuel st' /\ hq_n1 st' = 0%N).
Proof.
move=> n2 f3 H; have H1 := loop_ok fuel H.
suff : wp (loop_ fuel (hqr2_iter (S:=S) n norm) st) (fun _ => True).
  by case: loop_ H1.
have [d [e [f [V [_ n1n _ _ _]]]]] := H.
pose I k (st : hq S) := (exists j, hinv j st) /\ hq_n1 st = k.
apply: (wp_loop (I := I) (k := hq_n1 st)); first exact: leq_ltn_trans (leq_trans n1n n2) f3.
  by split=> //; exists 0%N.
move=> k {H H1 n1n d e f V}st [[j H] kE].
have [d [e [f [V [[_ _ Hf _] n1n _ _ _]]]]] := H.
have := iter_ok H; rewrite /hqr2_iter kE.
case: k kE => [|t] kE //=; rewrite subn1 /= => Hi.
have tn : (t < n)%N by rewrite -kE.
have := find_l_ok tiny eps0 norm0 tn Hf.
case El : (hqr2_find_l _ _ _ _) Hi => [l|//]; cbn [bind wpe] => Hi [lt _ _].
case: (altP (l =P t)) Hi => [_|lt1].
  have := one_n1 t st; case: hqr2_one => [st'|er] //= E1 Hs.
  by exists t => //; split=> //; exists j.+1.
have t1 : t = 1%N by nl F.
rewrite subn1; have -> : (l == t.-1) by nl F.
have := two_n1 t st; case: hqr2_two => [st'|er] //= E1 Hs.
by exists t.-1; [nl F|split=> //; exists j.+1].
Qed.

End WithA.
End All.
