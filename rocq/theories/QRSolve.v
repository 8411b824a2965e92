(** * QRSolve: what QRDecomposition::solve (qr.rs:199-238) computes, in exact arithmetic. *)
From mathcomp Require Import all_ssreflect all_algebra zify ring.
From Verif Require Import Base Scalar Hoare ModelMatrix ModelLU ModelQR Spec MatrixProofs MatrixProofs2 LUProofs LUThms QRProofs.

Set Implicit Arguments.
Unset Strict Implicit.
Unset Printing Implicit Defensive.
Import GRing.Theory Num.Theory.
Local Open Scope ring_scope.

Section QRSolve.
Variable F : rcfType.
Variables eps tiny : F.
Local Notation S := (exactE eps tiny).
Variables m n nx : nat.
Variables (d : qr_decomp S) (f : nat -> nat -> F) (r : nat -> F).
Hypothesis Hd : rep m n (qr d) f.
Hypothesis Hr : repr1 (minn m n) (rdiag d) r.
Hypothesis nm : (n <= m)%N.
Let em : minn m n = n. Proof. exact/minn_idPr. Qed.

(** the matrix solve multiplies by where it should multiply by the reflection *)
Definition gmx k : 'M[F]_m := 1%:M - (f k k)^-1 *: (ucol m f k *m (ucol m f k)^T).
Fixpoint gprod k : 'M[F]_m := if k is k'.+1 then gmx k' *m gprod k' else 1%:M.

Lemma gmx_app k (g : nat -> nat -> F) (i : 'I_m) (j : 'I_nx) : (k <= m)%N ->
  (gmx k *m mxf m nx g) i j = g i j +
    (- (\sum_(k <= l < m) f l k * g l j)) / f k k * (if (k <= i)%N then f i k else 0).
Proof.
move=> km; rewrite /gmx mulmxBl mul1mx mxE -scalemxAl [X in _ + X]mxE mxE; congr (_ + _).
rewrite mxE -mulmxA mxE big_ord1 mxE [X in _ * (_ * X)]mxE.
rewrite -(sum_from _ km); set s1 := \sum_(l < m) _; set s2 := \sum_(l < m) _.
have -> : s1 = s2.
  by apply: eq_bigr => l _; rewrite !mxE; case: ifP; rewrite ?mul0r.
by move: ((f k k)^-1) => c; ring.
Qed.

Lemma qr_solve_qt_ok x b : (forall k, (k < n)%N -> f k k != 0) -> repr m nx x b ->
  wp (qr_solve_qt (S:=S) d m n nx x) (fun x' => exists y, repr m nx x' y /\
     mxf m nx y = gprod n *m mxf m nx b).
Proof.
move=> nz Hx; rewrite /qr_solve_qt.
apply: (wpe_for (fun k x => exists y, repr m nx x y /\ mxf m nx y = gprod k *m mxf m nx b)) => //.
- by exists b; rewrite mul1mx.
move=> k x1 hk [y [Hy Ey]]; have kn : (k < n)%N by lia.
have km : (k < m)%N by lia.
pose fac j : F := (- (\sum_(k <= l < m) f l k * y l j)) / f k k.
apply: (wpe_for (fun c x => repr m nx x (fun i j =>
   if (j < c)%N && (k <= i)%N then y i j + fac j * f i k else y i j))) => //.
- move=> c x2 hc Hx2.
  rewrite (for_sum0 (G := fun l => f l k * y l c)); last first.
    move=> l s hl; rewrite (rep_vget Hd) //; [|by lia]; cbn [bind].
    rewrite (repr_get Hx2) //; [|by lia]; cbn [bind].
    by rewrite ltnn.
  cbn [bind]; rewrite (rep_vget Hd) //; cbn [bind].
  rewrite /= (negPf (nz _ kn)) /= -/(fac c).
  apply: wpe_mono; last first.
    apply: (@col_update_ok F m k c nx x2 _ (fac c) (fun r => f r k) _ (ltnW km) _ Hx2) => //.
    move=> row x' f' hrow Hx' Hne He.
    rewrite (repr_get Hx') //; [|by lia]; cbn [bind].
    rewrite (rep_vget Hd) //; [|by lia]; cbn [bind].
    by rewrite He; last by lia.
  move=> x3 Hx3; apply: repr_ext Hx3 _ => i j hi hj.
  rewrite ltnn /=; case: (altP (j =P c)) => [->|ne] /=.
    by rewrite ltnSn; case: (k <= i)%N; rewrite /= ?ltnn.
  by have -> : (j < c.+1)%N = (j < c)%N by lia.
- move=> x2 Hx2; eexists; split; first exact: Hx2.
  rewrite /= -mulmxA -Ey; apply/matrixP => i j; rewrite gmx_app; last exact: ltnW.
  by rewrite mxE ltn_ord /=; case: ifP => // _; rewrite mulr0 addr0.
Qed.

Lemma qr_solve_r_ok x y : repr m nx x y -> (forall i, (i < n)%N -> r i != 0) ->
  wp (qr_solve_r (S:=S) d n nx x) (fun x' => exists z, [/\ repr m nx x' z,
    forall i j, (i < n)%N -> (j < nx)%N -> y i j = r i * z i j + \sum_(i.+1 <= l < n) f i l * z l j &
    forall i j, (n <= i < m)%N -> (j < nx)%N -> z i j = y i j]).
Proof.
move=> Hx nz; rewrite /qr_solve_r; have Hl : repr m n (get_data (qr d)) f by case: Hd.
apply: (wpe_for_rev (fun k x' => exists z, [/\ repr m nx x' z,
    forall i j, (i < n)%N -> (j < nx)%N -> y i j =
       \sum_(maxn k i.+1 <= l < n) f i l * z l j + (if (i < k)%N then z i j else r i * z i j) &
    forall i j, (n <= i < m)%N -> (j < nx)%N -> z i j = y i j])) => //.
- exists y; split=> // i j hi hj; rewrite big_geq ?add0r ?hi //; lia.
- move=> k x1 /= hk [z [Hz Hy Ht]].
  apply: wpe_bind.
  apply: (wpe_for (fun c x => repr m nx x (fun i j =>
     if (i == k) && (j < c)%N then z k j / r k else z i j))) => //.
  + by apply: repr_ext Hz _ => i j _ _; rewrite ltn0 andbF.
  + move=> j x2 /= hj Hx2.
    rewrite (repr_get Hx2) //=; [|by lia].
    rewrite (repr1_get Hr) ?em //=.
    rewrite ltnn andbF (negPf (nz _ hk)) /=.
    apply: (wpe_repr_set Hx2); [by lia|by []|move=> v Hv].
    apply: repr_ext Hv _ => i' j' hi' hj'.
    case: (altP (i' =P k)) => [->|ni] //=; case: (altP (j' =P j)) => [->|nj]; first by rewrite ltnSn.
    by have -> : (j' < j.+1)%N = (j' < j)%N by lia.
  move=> x2 Hx2.
  set w := (fun i j => if i == k then z k j / r k else z i j).
  have Hw : repr m nx x2 w by apply: repr_ext Hx2 _ => i j hi hj; rewrite hj andbT.
  apply: (wpe_for (fun c x => repr m nx x (fun i j =>
     if (i < c)%N then w i j - w k j * f i k else w i j))) => //.
  + move=> i x3 /= hi Hx3.
    have H0 := @lu_elim_ok F eps tiny m n nx _ f Hl nm k i x3 _ hk _ _ Hx3.
    apply: wpe_mono (H0 _ _); [|by lia|by lia].
    move=> x4 Hx4; apply: repr_ext Hx4 _ => i' j hi' hj.
    rewrite ltnn; have -> : (k < i)%N = false by lia.
    case: (altP (i' =P i)) => [->|ne]; first by rewrite ltnSn.
    by have -> : (i' < i.+1)%N = (i' < i)%N by lia.
  + move=> x3 Hx3; eexists; split; [exact: Hx3| |].
    * move=> i j hi hj; rewrite (Hy i j hi hj).
      have sumE c : (k < c)%N ->
         \sum_(c <= l < n) f i l * (if (l < k)%N then w l j - w k j * f l k else w l j) =
         \sum_(c <= l < n) f i l * z l j.
        move=> kc; apply: eq_big_nat => l hl; have -> : (l < k)%N = false by lia.
        by rewrite /w; have -> : (l == k) = false by lia.
      case: (ltngtP i k) => ik.
      - have -> : maxn k i.+1 = k by lia.
        have -> : maxn k.+1 i.+1 = k.+1 by lia.
        have -> : (i < k.+1)%N by lia.
        rewrite (big_ltn hk) sumE // ltnn /w eqxx; have -> : (i == k) = false by lia.
        by move: (\sum_(_ <= l < _) _) (z i j) (f i k) (z k j / r k) => A B C D; ring.
      - have -> : maxn k i.+1 = i.+1 by lia.
        have -> : maxn k.+1 i.+1 = i.+1 by lia.
        have -> : (i < k.+1)%N = false by lia.
        rewrite sumE; last by lia.
        by rewrite /w; have -> : (i == k) = false by lia.
      - subst i; rewrite maxnn ltnSn.
        have -> : maxn k k.+1 = k.+1 by lia.
        by rewrite sumE // /w eqxx mulrC divfK // nz.
    * move=> i j hi hj; have -> : (i < k)%N = false by lia.
      by rewrite /w; have -> : (i == k) = false by [lia]; rewrite Ht.
- move=> x' [z [Hz Hy Ht]]; exists z; split=> // i j hi hj.
  by rewrite (Hy i j hi hj) max0n ltn0 addrC.
Qed.
End QRSolve.
