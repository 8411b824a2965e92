(** * EigenProofs: EigenDecomposition::new on symmetric input, cdiv, get_d *)
From mathcomp Require Import all_ssreflect all_algebra zify ring.
From Verif Require Import Base Scalar Hoare ModelMatrix ModelEigen Spec SpecDecomp MatrixProofs MatrixThms LUProofs LUThms MiscThms Orth TredProofs TqlProofs.

Set Implicit Arguments.
Unset Strict Implicit.
Unset Printing Implicit Defensive.
Import Order.TTheory GRing.Theory Num.Theory.
Local Open Scope ring_scope.

Lemma all_iotaS (p : pred nat) k : all p (iota 0 k.+1) = all p (iota 0 k) && p k.
Proof. by rewrite -addn1 iotaD all_cat /= andbT add0n. Qed.

Section Any.
Variable S : scalar.
Implicit Types (f : nat -> nat -> S).

Lemma repr_alloc n (g : nat -> S) : repr n n (alloc_dirty_vec g (n * n)) (fun i j => g (i * n + j)%N).
Proof.
split=> [|i j hi hj]; first by rewrite size_mkseq.
by rewrite vget_mkseq // idx_lt.
Qed.

(** the test compares every pair below cols *)
Definition symb n f := all (fun j => all (fun i => s_eqb (f i j) (f j i)) (iota 0 n)) (iota 0 n).

Lemma eigen_symmetric_ok m n (a : mat S) f : rep m n a f -> (n <= m)%N ->
  eigen_symmetric n a = Ok (symb n f).
Proof.
move=> Ha nm.
have : wp (eigen_symmetric n a) (fun b => b = symb n f); last first.
  by case: (eigen_symmetric n a) => //= b ->.
rewrite /eigen_symmetric.
apply: (wpe_for (fun j b => b = all (fun j => all (fun i => s_eqb (f i j) (f j i)) (iota 0 n)) (iota 0 j))) => //.
move=> j b hj ->; rewrite all_iotaS; case: (all _ (iota 0 j)) => //=.
apply: (wpe_for (fun k b => b = all (fun i => s_eqb (f i j) (f j i)) (iota 0 k))) => //.
move=> i b2 hi ->; rewrite all_iotaS; case: (all _ (iota 0 i)) => //=.
rewrite !(rep_get _ _ Ha); have -> : (i < m)%N && (j < n)%N by lia.
by have -> : (j < m)%N && (i < n)%N by lia.
Qed.

Lemma eigen_copy_ok m n (a : mat S) f v f0 : rep m n a f -> (n <= m)%N -> repr n n v f0 ->
  wp (eigen_copy n a v) (fun v => repr n n v f).
Proof.
move=> Ha nm Hv; rewrite /eigen_copy; apply: wpe_mono; last first.
  apply: (for_own (fun a b => a) f _ Hv) => //.
  move=> i v1 f1 hi Hv1 _; apply: wpe_mono; last first.
    apply: (for_own (fun a b => if a == i then b else n) f _ Hv1) => //.
    move=> j v2 f2 hj Hv2 _; rewrite (rep_get _ _ Ha).
    have -> : (i < m)%N && (j < n)%N by lia.
    cbn [bind]; apply: (wpe_repr_set Hv2); [by lia|by lia|] => v3 Hv3.
    apply: repr_ext Hv3 _ => x y hx hy; case: (altP (x =P i)) => [->|xi] /=; last by iflia.
    by case: eqP => // ->.
  move=> v2 Hv2; apply: repr_ext Hv2 _ => x y hx hy; case: (x == i) => /=; first by rewrite hy.
  by rewrite ltnn.
by move=> v1 Hv1; apply: repr_ext Hv1 _ => x y hx hy; rewrite hx.
Qed.

Lemma eigen_copy_t_ok m n (a : mat S) f v f0 : rep m n a f -> (n <= m)%N -> repr n n v f0 ->
  wp (eigen_copy_t n a v) (fun v => repr n n v f).
Proof.
move=> Ha nm Hv; rewrite /eigen_copy_t; apply: wpe_mono; last first.
  apply: (for_own (fun a b => b) f _ Hv) => //.
  move=> j v1 f1 hj Hv1 _; apply: wpe_mono; last first.
    apply: (for_own (fun a b => if b == j then a else n) f _ Hv1) => //.
    move=> i v2 f2 hi Hv2 _; rewrite (rep_get _ _ Ha).
    have -> : (i < m)%N && (j < n)%N by lia.
    cbn [bind]; apply: (wpe_repr_set Hv2); [by lia|by lia|] => v3 Hv3.
    apply: repr_ext Hv3 _ => x y hx hy; case: (altP (y =P j)) => [->|xi] /=; last by iflia.
    by rewrite andbT; case: eqP => // ->.
  move=> v2 Hv2; apply: repr_ext Hv2 _ => x y hx hy; case: (y == j) => /=; first by rewrite hx.
  by rewrite ltnn.
by move=> v1 Hv1; apply: repr_ext Hv1 _ => x y hx hy; rewrite hy.
Qed.

(** *** get_d *)
Definition eig_block (d e : nat -> S) (i j : nat) : S :=
  if j == i then d i
  else if s_ltb (n_zero S) (e i) then (if j == i.+1 then e i else n_zero S)
  else if s_ltb (e i) (n_zero S) && (j.+1 == i) then e i else n_zero S.

Lemma eigen_get_d_ok n g (x : eigen S) d e : (0 < n)%N ->
  eg_n x = n -> repr1 n (eg_d x) d -> repr1 n (eg_e x) e ->
  ~~ s_ltb (n_zero S) (e n.-1) -> s_ltb (n_zero S) (e 0%N) || ~~ s_ltb (e 0%N) (n_zero S) ->
  wp (eigen_get_d g x) (fun M => rep n n M (eig_block d e)).
Proof.
move=> n0 xn Hd He en e0; rewrite /eigen_get_d xn; apply: wpe_bind.
apply: wpe_mono; last first.
  apply: (for_own (fun a b => a) (eig_block d e) _ (repr_alloc n g)) => //.
  move=> i v1 f1 hi Hv1 _; apply: wpe_bind; apply: wpe_mono; last first.
    apply: (for_own (fun a b => if a == i then b else n) (fun _ _ => n_zero S) _ Hv1) => //.
    move=> j v2 f2 hj Hv2 _; apply: (wpe_repr_set Hv2); [by lia|by lia|] => v3 Hv3.
    by apply: repr_ext Hv3 _ => a b ha hb; case: (altP (a =P i)) => [->|ai] //=; iflia.
  move=> v2 Hv2; cbn beta in Hv2.
  have {}Hv2 : repr n n v2 (fun a b => if a == i then n_zero S else f1 a b).
    by apply: repr_ext Hv2 _ => a b ha hb; case: (a == i) => /=; rewrite ?hb ?ltnn.
  rewrite (repr1_get Hd); last by lia.
  cbn [bind]; apply: wpe_bind; apply: (wpe_repr_set Hv2); [by lia|by lia|] => v3 Hv3.
  rewrite (repr1_get He); last by lia.
  cbn [bind]; rewrite /eig_block; case: ifP => ei.
    have i1 : (i.+1 < n)%N.
      by rewrite ltn_neqAle; apply/andP; split; [apply: contraNneq en => <-|lia].
    rewrite addn1; apply: (wpe_repr_set Hv3); [by lia|by lia|] => v4 Hv4.
    apply: repr_ext Hv4 _ => a b ha hb; case: (altP (a =P i)) => [->|ai] //=; rewrite ?ei.
    by case: (altP (b =P i)) => [->|bi]; case: eqP => //; lia.
  case: ifP => ei2.
    have i0 : (0 < i)%N.
      by rewrite lt0n; apply: contraTneq e0 => i0; rewrite -i0 ei ei2.
    have -> : usub i 1 = Ok i.-1 by rewrite /usub i0 subn1.
    cbn [bind]; apply: (wpe_repr_set Hv3); [by lia|by lia|] => v4 Hv4.
    apply: repr_ext Hv4 _ => a b ha hb; case: (altP (a =P i)) => [->|ai] //=; rewrite ?ei ?ei2 /=.
    have -> : (b == i.-1) = (b.+1 == i) by lia.
    by case: (altP (b =P i)) => [->|bi]; case: eqP => //; lia.
  apply: wpe_ok; apply: repr_ext Hv3 _ => a b ha hb; case: (altP (a =P i)) => [->|ai] //=.
  by rewrite ei ei2.
move=> v Hv; apply: new_rep => //; apply: repr_ext Hv _ => a b ha hb; by rewrite ha.
Qed.
End Any.

Section Exact.
Variable F : rcfType.
Variables eps tiny : F.
Local Notation S := (exactE eps tiny).

Lemma cdiv_okE xr xi yr yi : (yr != 0) || (yi != 0) ->
  cdiv (S:=S) xr xi yr yi = Ok ((xr * yr + xi * yi) / (yr ^+ 2 + yi ^+ 2), (xi * yr - xr * yi) / (yr ^+ 2 + yi ^+ 2)).
Proof.
move=> y0; rewrite /cdiv; exs.
have nn : yr ^+ 2 + yi ^+ 2 != 0.
  by rewrite paddr_eq0 ?sqr_ge0 // !sqrf_eq0 negb_and.
case: ifP => h.
  have yr0 : yr != 0 by rewrite -normr_eq0 gt_eqF // (le_lt_trans _ h).
  rewrite (negPf yr0); cbn [bind].
  have d0 : yr + yi / yr * yi != 0.
    apply: contraNneq nn => H; have : (yr + yi / yr * yi) * yr = 0 by rewrite H mul0r.
    by move=> <-; apply/eqP; field.
  rewrite (negPf d0); cbn [bind]; congr (Ok (_, _)); field.
    by rewrite yr0 nn.
  by rewrite yr0 nn.
have yi0 : yi != 0.
  apply: contraTneq y0 => y0; rewrite y0 eqxx orbF negbK -normr_eq0 eq_le normr_ge0 andbT.
  by move: h; rewrite y0 normr0 => /negbT; rewrite -leNgt.
rewrite (negPf yi0); cbn [bind].
have d0 : yi + yr / yi * yr != 0.
  apply: contraNneq nn => H; have : (yi + yr / yi * yr) * yi = 0 by rewrite H mul0r.
  by move=> <-; apply/eqP; field.
rewrite (negPf d0); cbn [bind]; congr (Ok (_, _)); field.
  by rewrite yi0 nn.
by rewrite yi0 nn.
Qed.
End Exact.
