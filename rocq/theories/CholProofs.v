(** * CholProofs: the Cholesky decomposition (src/decomp/cholesky.rs) in exact
    arithmetic. *)
From mathcomp Require Import all_ssreflect all_algebra zify ring.
From Verif Require Import Base Scalar Hoare ModelMatrix ModelCholesky Spec MatrixProofs LUProofs.

Set Implicit Arguments.
Unset Strict Implicit.
Unset Printing Implicit Defensive.
Import Order.TTheory GRing.Theory Num.Theory.
Local Open Scope ring_scope.

Section Chol.
Variable F : rcfType.
Variables eps tiny : F.
Local Notation S := (exactE eps tiny).
Variables (n : nat) (M : mat F) (a : nat -> nat -> F).
Hypothesis HM : rep n n M a.

(** The first [j] rows of [f] are the Cholesky factor of the leading block. *)
Definition chol_rows (j : nat) (f : nat -> nat -> F) : Prop :=
  [/\ forall i k, (i < j)%N -> (i < k < n)%N -> f i k = 0,
      forall i, (i < j)%N -> 0 < f i i &
      forall i k, (k <= i < j)%N -> a i k = \sum_(0 <= l < k.+1) f i l * f k l /\ a i k = a k i].

(** what is known inside row [j], after [k] of its entries *)
Definition chol_part (j k : nat) (f : nat -> nat -> F) : Prop :=
  chol_rows j f /\ forall k', (k' < k)%N ->
     a j k' = \sum_(0 <= l < k'.+1) f j l * f k' l /\ a j k' = a k' j.

Lemma chol_row_ok j dat f : (j < n)%N -> repr n n dat f -> chol_rows j f ->
  wp (chol_row (S:=S) n j M (dat, 0)) (fun c => match c with
    | Next (dat', d) => exists f', [/\ repr n n dat' f', chol_part j j f' & d = \sum_(0 <= l < j) f' j l * f' j l]
    | Stop _ => exists2 k, (k < j)%N & a k j != a j k end).
Proof.
move=> jn Hd Hr; rewrite /chol_row.
apply: (wpe_forc (fun k st => exists f', [/\ repr n n st.1 f', chol_part j k f' &
     st.2 = \sum_(0 <= l < k) f' j l * f' j l]) (fun _ => exists2 k, (k < j)%N & a k j != a j k)) => //.
- by exists f; split=> //=; rewrite big_geq.
- move=> k [d1 s1] /= hk [f1 [Hf1 [Hr1 Hp1] ->]].
  rewrite (for_sum0 (G := fun i => f1 k i * f1 j i)); last first.
    move=> i s hi; rewrite (repr_get Hf1) //=; [|by lia|by lia].
    by rewrite (repr_get Hf1) //=; lia.
  cbn [bind].
  rewrite (rep_get _ _ HM) jn; have kn : (k < n)%N by lia.
  rewrite kn; cbn [bind andb].
  rewrite (repr_get Hf1) //; cbn [bind].
  have [Hz Hpos Ha] := Hr1; have kpos := Hpos k hk.
  have k0 : (f1 k k == 0) = false by rewrite gt_eqF.
  rewrite /= k0; cbn [bind].
  set x := (_ / _).
  apply: wpe_bind; apply: (wpe_repr_set Hf1) => // v Hv.
  rewrite (rep_get _ _ HM) jn kn; cbn [bind andb].
  set f2 := (fun i' j' => if _ && _ then x else _) in Hv.
  have f2E i l : (i < j)%N -> f2 i l = f1 i l by rewrite /f2 => h; have -> : (i == j) = false by lia.
  have f2j l : (l < k)%N -> f2 j l = f1 j l.
    by rewrite /f2 => h; have -> : (l == k) = false by [lia]; rewrite andbF.
  have f2k : f2 j k = x by rewrite /f2 !eqxx.
  case: (altP (a k j =P a j k)) => [sym|asym] /=; last by exists k.
  exists f2; split=> //.
  + split.
      split.
      * by move=> i k' hi hk'; rewrite f2E ?Hz.
      * by move=> i hi; rewrite f2E ?Hpos.
      * move=> i k' hk'; have [e1 e2] := Ha i k' hk'; split=> //; rewrite e1.
        apply: eq_big_nat => l hl; rewrite !f2E //; lia.
    move=> k'; rewrite ltnS leq_eqVlt => /orP[/eqP ->|lt].
      split; last by rewrite sym.
      rewrite big_nat_recr //= f2k f2E // /x divfK ?k0 //.
      have -> : \sum_(0 <= i < k) f2 j i * f2 k i = \sum_(0 <= i < k) f1 k i * f1 j i.
        by apply: eq_big_nat => l hl; rewrite f2j ?f2E // mulrC.
      by rewrite addrC subrK.
    have [e1 e2] := Hp1 k' lt; split=> //; rewrite e1.
    apply: eq_big_nat => l hl; rewrite f2j ?f2E //; lia.
  + rewrite big_nat_recr //= f2k; congr (_ + _).
    by apply: eq_big_nat => l hl; rewrite f2j.
- by case=> d1 s1 /= [f1 H1]; exists f1.
Qed.

Definition chol_fail : Prop :=
  (exists i k, [/\ (i < n)%N, (k < n)%N & a i k != a k i]) \/
  (exists j f, [/\ (j < n)%N, chol_part j j f & a j j <= \sum_(0 <= l < j) f j l * f j l]).

Lemma chol_step_ok j dat f : (j < n)%N -> repr n n dat f -> chol_rows j f ->
  wp (chol_step (S:=S) n M j dat) (fun c => match c with
    | Next dat' => exists2 f', repr n n dat' f' & chol_rows j.+1 f'
    | Stop _ => chol_fail end).
Proof.
move=> jn Hd Hr; rewrite /chol_step.
apply: wpe_bind; apply: wpe_mono (chol_row_ok jn Hd Hr) => -[[d1 s1] [f1 [Hf1 [Hr1 Hp1] ->]]|_ [k kj asym]] /=; last first.
  by left; exists k, j; split=> //; lia.
rewrite (rep_get _ _ HM) jn /=.
case: (Order.TotalTheory.leP (a j j - \sum_(0 <= l < j) f1 j l * f1 j l) 0) => hle /=.
  by right; exists j, f1; split=> //; rewrite -subr_le0.
set x := a j j - _ in hle *.
rewrite ltNge (ltW hle) /=.
apply: wpe_bind; apply: (wpe_repr_set Hf1) => // v Hv.
apply: wpe_bind.
apply: (wpe_for (fun c d => repr n n d (fun i k => if (i == j) && (j < k < c)%N then 0 else
    if (i == j) && (k == j) then Num.sqrt x else f1 i k))).
- by rewrite addn1.
- apply: repr_ext Hv _ => i k hi hk; case: ifP => //; case: ifP => //; lia.
- move=> k d2 hk Hd2; apply: (wpe_repr_set Hd2) => //; first by lia.
  move=> v' Hv'; apply: repr_ext Hv' _ => i k' hi hk'.
  case: (altP (i =P j)) => //= _; case: (altP (k' =P k)) => [->|ne].
    by have -> : (j < k < k.+1)%N by lia.
  by have -> : (j < k' < k.+1)%N = (j < k' < k)%N by lia.
move=> d2 Hd2 /=; exists (fun i k => if (i == j) && (j < k < n)%N then 0 else
    if (i == j) && (k == j) then Num.sqrt x else f1 i k) => //.
set f2 := (fun i k => _).
have f2E i l : (i < j)%N -> f2 i l = f1 i l by rewrite /f2 => h; have -> : (i == j) = false by lia.
have f2j l : (l < j)%N -> f2 j l = f1 j l.
  rewrite /f2 => h; have -> : (j < l < n)%N = false by lia.
  by have -> : (l == j) = false by [lia]; rewrite !andbF.
have f2d : f2 j j = Num.sqrt x by rewrite /f2 ltnn !andbF eqxx.
have [Hz Hpos Ha] := Hr1.
split.
- move=> i k; rewrite ltnS leq_eqVlt => /orP[/eqP ->|lt] hk; last by rewrite f2E ?Hz.
  by rewrite /f2 eqxx hk.
- move=> i; rewrite ltnS leq_eqVlt => /orP[/eqP ->|lt]; last by rewrite f2E ?Hpos.
  by rewrite f2d sqrtr_gt0.
- move=> i k hik.
  case: (altP (i =P j)) hik => [->|ne]; last first.
    move=> hik; have [|e1 e2] := Ha i k _; first by lia.
    split=> //; rewrite e1; apply: eq_big_nat => l hl; rewrite !f2E //; lia.
  move=> hk; case: (altP (k =P j)) hk => [-> _|nk hk].
    split=> //; rewrite big_nat_recr //= f2d -expr2 sqr_sqrtr; last exact: ltW.
    rewrite /x addrC; have -> : \sum_(0 <= i0 < j) f2 j i0 * f2 j i0 = \sum_(0 <= l < j) f1 j l * f1 j l.
      by apply: eq_big_nat => l hl; rewrite f2j.
    by rewrite subrK.
  have kj : (k < j)%N by lia.
  have [e1 e2] := Hp1 k kj; split=> //; rewrite e1.
  by apply: eq_big_nat => l hl; rewrite f2j ?f2E //; lia.
Qed.

Lemma chol_new_ok g : (0 < n)%N ->
  wp (chol_new (S:=S) g M) (fun r => match r with
    | Some L => exists2 f, rep n n L f & chol_rows n f
    | None => chol_fail end).
Proof.
move=> n0; rewrite /chol_new (rep_cols HM) //= /rows (rep_no_rows HM) eqxx /=.
apply: wpe_bind.
apply: (wpe_forc (fun j d => exists2 f, repr n n d f & chol_rows j f) (fun _ => chol_fail)) => //.
- exists (fun i k => nth 0 (alloc_dirty_vec g (n * n)) (i * n + k)%N) => //.
    by apply: repr_nth; rewrite size_alloc.
  by split=> // i k; rewrite ltn0 andbF.
- by move=> j d hj [f Hd Hr]; apply: chol_step_ok Hd Hr.
move=> d [f Hd Hr] /=; apply: wpe_bind; apply: wpe_mono (new_rep n0 n0 Hd) => L HL /=.
by exists f.
Qed.
End Chol.

(** ** Triangular solves with L and its transpose *)
Section CholSolve.
Variable F : rcfType.
Variables eps tiny : F.
Local Notation S := (exactE eps tiny).
Variables (n nx : nat) (ld : seq F) (f : nat -> nat -> F).
Hypothesis Hl : repr n n ld f.
Hypothesis nz : forall i, (i < n)%N -> f i i != 0.

(** row k, column j of either solve: subtract a sum of products with other
    rows, then divide by the diagonal. *)
Lemma chol_cell_ok (lo hi k j : nat) (c : nat -> F) x y (body : nat -> seq F -> res (seq F)) :
  (k < n)%N -> (j < nx)%N -> (lo <= hi <= n)%N -> (hi <= k)%N || (k < lo)%N -> repr n nx x y ->
  (forall i x, (lo <= i < hi)%N -> body i x = (
          xk <-- vget x (k * nx + j) ;;
          xi <-- vget x (i * nx + j) ;;
          vset x (k * nx + j) (xk - xi * c i))) ->
  wp (xdata <-- for_ lo hi body x ;;
      xk <-- vget xdata (k * nx + j) ;;
      l <-- vget ld (k * n + k) ;;
      q <-- n_div (n:=S) xk l ;;
      vset xdata (k * nx + j) q)
   (fun x' => repr n nx x' (fun i' j' => if (i' == k) && (j' == j) then
        (y k j - \sum_(lo <= l < hi) y l j * c l) / f k k else y i' j')).
Proof.
move=> kn jn hlh hk Hx Hb.
apply: wpe_bind.
apply: (wpe_for (fun i x' => repr n nx x' (fun i' j' => if (i' == k) && (j' == j) then
        (y k j - \sum_(lo <= l < i) y l j * c l) else y i' j'))); first by lia.
- apply: repr_ext Hx _ => i' j' _ _; rewrite big_geq // subr0.
  by case: ifP => // /andP[/eqP -> /eqP ->].
- move=> i x1 hi' Hx1; rewrite Hb // (repr_get Hx1) //; cbn [bind].
  rewrite (repr_get Hx1) //; [|by lia]; cbn [bind].
  rewrite !eqxx /=; have -> /= : (i == k) = false by lia.
  apply: (wpe_repr_set Hx1) => // v Hv; apply: repr_ext Hv _ => i' j' hi1 hj1.
  rewrite (big_nat_recr i) /=; last by lia.
  by rewrite opprD addrA; case: (i' == k) => //=; case: (j' == j).
move=> x1 Hx1; rewrite (repr_get Hx1) //; cbn [bind].
rewrite (repr_get Hl) //; cbn [bind].
rewrite !eqxx /= (negPf (nz kn)) /=.
by apply: (wpe_repr_set Hx1) => // v Hv; apply: repr_ext Hv _ => i' j' _ _; case: (i' == k) => //=; case: (j' == j).
Qed.

Lemma chol_forward_ok x b : repr n nx x b ->
  wp (chol_forward (S:=S) ld n nx x) (fun x' => exists2 y, repr n nx x' y &
    forall i j, (i < n)%N -> (j < nx)%N -> b i j = \sum_(0 <= l < i.+1) f i l * y l j).
Proof.
move=> Hx; rewrite /chol_forward.
apply: (wpe_for (fun k x' => exists y, [/\ repr n nx x' y,
    forall i j, (i < k)%N -> (j < nx)%N -> b i j = \sum_(0 <= l < i.+1) f i l * y l j &
    forall i j, (k <= i < n)%N -> (j < nx)%N -> y i j = b i j])) => //.
- by exists b.
- move=> k x1 /= hk [y [Hy Hb Ht]].
  apply: (wpe_for (fun c x => repr n nx x (fun i j => if (i == k) && (j < c)%N then
       (y k j - \sum_(0 <= l < k) y l j * f k l) / f k k else y i j))) => //.
  + by apply: repr_ext Hy _ => i j _ _; rewrite ltn0 andbF.
  + move=> j x2 /= hj Hx2.
    apply: wpe_mono; last first.
      apply: (@chol_cell_ok 0%N k k j (fun i => f k i) x2 _ _ hk hj _ _ Hx2) => //; first by rewrite (ltnW hk).
        by rewrite leqnn.
      by move=> i x3 hi; rewrite (repr_get Hl) //; lia.
    move=> x3 Hx3; apply: repr_ext Hx3 _ => i j' hi hj'.
    case: (altP (i =P k)) => //= _; case: (altP (j' =P j)) => [->|ne] /=; last first.
      by have -> : (j' < j.+1)%N = (j' < j)%N by lia.
    rewrite ltnSn ltnn !andbF; congr ((_ - _) / _); apply: eq_big_nat => l hl.
    by rewrite ?ltnn ?andbF.
  + move=> x2 Hx2; eexists; split; [exact: Hx2| |].
    * move=> i j; rewrite ltnS leq_eqVlt => /orP[/eqP ->|lt] hj.
        rewrite big_nat_recr //= eqxx hj /= [f k k * _]mulrC divfK ?nz // -Ht ?leqnn //.
        set X := \sum_(0 <= l < k) y l j * f k l; set Y := (X in _ = X + _).
        have -> : Y = X; last by rewrite addrC subrK.
        by apply: eq_big_nat => l hl; have -> /= : (l == k) = false by [lia]; rewrite mulrC.
      rewrite (Hb i j lt hj); apply: eq_big_nat => l hl.
      by have -> : (l == k) = false by lia.
    * move=> i j hi hj; have -> /= : (i == k) = false by lia.
      by apply: Ht => //; lia.
- by move=> x1 [y [Hy Hb _]]; exists y.
Qed.

Lemma chol_backward_ok x y : repr n nx x y ->
  wp (chol_backward (S:=S) ld n nx x) (fun x' => exists2 z, repr n nx x' z &
    forall i j, (i < n)%N -> (j < nx)%N -> y i j = \sum_(i <= l < n) f l i * z l j).
Proof.
move=> Hx; rewrite /chol_backward.
apply: (wpe_for_rev (fun k x' => exists z, [/\ repr n nx x' z,
    forall i j, (k <= i < n)%N -> (j < nx)%N -> y i j = \sum_(i <= l < n) f l i * z l j &
    forall i j, (i < k)%N -> (j < nx)%N -> z i j = y i j])) => //.
- by exists y; split=> // i j hi hj; lia.
- move=> k x1 /= hk [z [Hz Hy Ht]].
  apply: (wpe_for (fun c x => repr n nx x (fun i j => if (i == k) && (j < c)%N then
       (z k j - \sum_(k.+1 <= l < n) z l j * f l k) / f k k else z i j))) => //.
  + by apply: repr_ext Hz _ => i j _ _; rewrite ltn0 andbF.
  + move=> j x2 /= hj Hx2; rewrite addn1.
    apply: wpe_mono; last first.
      apply: (@chol_cell_ok k.+1 n k j (fun i => f i k) x2 _ _ hk hj _ _ Hx2) => //; first by rewrite hk /=.
        by rewrite ltnSn orbT.
      by move=> i x3 hi; rewrite (repr_get Hl) //; lia.
    move=> x3 Hx3; apply: repr_ext Hx3 _ => i j' hi hj'.
    case: (altP (i =P k)) => //= _; case: (altP (j' =P j)) => [->|ne] /=; last first.
      by have -> : (j' < j.+1)%N = (j' < j)%N by lia.
    rewrite ltnSn ltnn !andbF; congr ((_ - _) / _); apply: eq_big_nat => l hl.
    by rewrite ?ltnn ?andbF.
  + move=> x2 Hx2; eexists; split; [exact: Hx2| |].
    * move=> i j hi hj; case: (altP (i =P k)) => [->|ne].
        rewrite big_ltn // eqxx hj /= [f k k * _]mulrC divfK ?nz // -Ht //.
        set X := \sum_(k.+1 <= l < n) z l j * f l k; set Y := (X in _ = _ + X).
        have -> : Y = X; last by rewrite subrK.
        by apply: eq_big_nat => l hl; have -> /= : (l == k) = false by [lia]; rewrite mulrC.
      rewrite (Hy i j) //; last by lia.
      by apply: eq_big_nat => l hl; have -> : (l == k) = false by lia.
    * move=> i j hi hj; have -> /= : (i == k) = false by lia.
      by apply: Ht => //; lia.
- by move=> x1 [z [Hz Hb _]]; exists z.
Qed.

End CholSolve.
