(** * LUProofs: the LU decomposition (src/decomp/lu.rs) in exact arithmetic. *)
From mathcomp Require Import all_ssreflect all_algebra zify ring.
From mathcomp Require Import fingroup perm.
From Verif Require Import Base Scalar Hoare ModelMatrix ModelLU Spec MatrixProofs MatrixProofs2.

Set Implicit Arguments.
Unset Strict Implicit.
Unset Printing Implicit Defensive.
Import Order.TTheory GRing.Theory Num.Theory.
Local Open Scope ring_scope.

(** ** Sums computed by loops *)
Lemma for_sum (V : zmodType) lo hi (G : nat -> V) (body : nat -> V -> res V) s :
  (forall k s, (lo <= k < hi)%N -> body k s = Ok (s + G k)) ->
  for_ lo hi body s = Ok (s + \sum_(lo <= k < hi) G k).
Proof.
move=> H; case: (leqP hi lo) => [h|h]; first by rewrite for_nil // big_geq // addr0.
have [d e] : exists d, hi = (lo + d)%N by exists (hi - lo)%N; lia.
move: H; rewrite {}e {h} => H; elim: d H => [|d IH] H.
  by rewrite addn0 for_nil // big_geq // addr0.
rewrite addnS for_recr ?leq_addr // IH => [|k s' hk]; last by apply: H; lia.
by rewrite /= H ?big_nat_recr ?leq_addr ?addrA //= ; lia.
Qed.

Lemma for_sum0 (V : zmodType) lo hi (G : nat -> V) (body : nat -> V -> res V) :
  (forall k s, (lo <= k < hi)%N -> body k s = Ok (s + G k)) ->
  for_ lo hi body 0 = Ok (\sum_(lo <= k < hi) G k).
Proof. by move=> H; rewrite (for_sum _ H) add0r. Qed.

Section LU.
Variable F : rcfType.
Variables eps tiny : F.
Local Notation S := (exactE eps tiny).

Variables m n : nat.

(** one column of the left-looking elimination *)
Lemma lu_column_ok j (d : seq F) f : (j < n)%N -> repr m n d f ->
  wp (lu_column (S:=S) m n j d) (fun d' => exists g : nat -> F,
    repr m n d' (fun i k => if k == j then g i else f i k) /\
    forall i, (i < m)%N -> f i j = \sum_(0 <= l < minn i j) f i l * g l + g i).
Proof.
move=> jn Hd; rewrite /lu_column.
apply: (wpe_for (fun i d => exists g : nat -> F,
    repr m n d (fun i' k => if (k == j) && (i' < i)%N then g i' else f i' k) /\
    forall i', (i' < i)%N -> f i' j = \sum_(0 <= l < minn i' j) f i' l * g l + g i')) => //.
- exists (fun _ => 0); split=> //.
  by apply: repr_ext Hd _ => i k _ _; rewrite ltn0 andbF.
- move=> i d' /= hi [g [Hd' Hg]].
  rewrite (for_sum0 (G := fun l => f i l * g l)); last first.
    move=> k s hk.
    rewrite (repr_get Hd') //=; [|by lia].
    rewrite (repr_get Hd') //=; [|by lia].
    rewrite eqxx ltnn andbF.
    by have -> : (k < i)%N by lia.
  rewrite /= (repr_get Hd') //= ltnn andbF.
  apply: (wpe_repr_set Hd') => // v' Hv'.
  set x := f i j - _ in Hv'.
  exists (fun i' => if i' == i then x else g i'); split.
    apply: repr_ext Hv' _ => i' k hi' hk.
    case: (altP (i' =P i)) => [->|ne] /=; first by rewrite ltnSn andbT ltnn andbF.
    by have -> : (i' < i.+1)%N = (i' < i)%N by lia.
  move=> i'; rewrite ltnS leq_eqVlt => /orP[/eqP ->|lt].
    rewrite eqxx /x addrC; rewrite [X in _ = _ - _ + X](_ : _ = \sum_(0 <= l < minn i j) f i l * g l).
      by rewrite subrK.
    apply: eq_big_nat => l hl; case: eqP => // e; lia.
  rewrite {1}(Hg i' lt); have -> : (i' == i) = false by lia.
  congr (_ + _); apply: eq_big_nat => l hl; case: eqP => // e; lia.
move=> d' [g [Hd' Hg]]; exists g; split=> //.
by apply: repr_ext Hd' _ => i k hi hk; rewrite hi andbT.
Qed.

(** pivot search *)
Lemma lu_pivot_ok j (d : seq F) f : (j < m)%N -> (j < n)%N -> repr m n d f ->
  wp (lu_pivot (S:=S) m n j d) (fun p => [/\ (j <= p)%N, (p < m)%N &
    forall i, (j <= i < m)%N -> `|f i j| <= `|f p j|]).
Proof.
move=> jm jn Hd; rewrite /lu_pivot addn1.
apply: (wpe_for (fun i p => [/\ (j <= p)%N, (p < m)%N &
    forall i', (j <= i' < i)%N -> `|f i' j| <= `|f p j|])) => //.
- split=> // i' hi'; have -> : i' = j by lia.
  by [].
- move=> i p hi [jp pm Hp] /=.
  rewrite (repr_get Hd) //=; [|by lia].
  rewrite (repr_get Hd) //=.
  case: (Order.TotalTheory.ltP `|f p j| `|f i j|) => h; split=> //; try lia.
  + move=> i' hi'; case: (ltnP i' i) => lt; last by have -> : i' = i by lia.
    by apply: le_trans (Hp i' _) (ltW h); lia.
  + move=> i' hi'; case: (ltnP i' i) => lt; last by have -> : i' = i by lia.
    by apply: Hp; lia.
Qed.

(** row swap *)
Definition tp (p j i : nat) : nat := if i == p then j else if i == j then p else i.

Lemma lu_swap_rows_ok p j (d : seq F) f : (p < m)%N -> (j < m)%N -> repr m n d f ->
  wp (lu_swap_rows (S:=S) n p j d) (fun d' => repr m n d' (fun i k => f (tp p j i) k)).
Proof.
move=> pm jm Hd; rewrite /lu_swap_rows.
apply: (wpe_for (fun c d => repr m n d (fun i k => if (k < c)%N then f (tp p j i) k else f i k))) => //.
- move=> c d' /= hc Hd'.
  rewrite (repr_get Hd') //= (repr_get Hd') //= ltnn.
  apply: wpe_bind; apply: (wpe_repr_set Hd') => // v Hv.
  apply: (wpe_repr_set Hv) => // v' Hv'.
  apply: repr_ext Hv' _ => i k hi hk.
  case: (altP (k =P c)) => [->|nk]; rewrite ?andbT ?andbF; last first.
    by have -> : (k < c.+1)%N = (k < c)%N by lia.
  rewrite ltnSn ltnn /tp; case: (altP (i =P j)) => [->|nj].
    by case: eqP => [->|].
  by case: (altP (i =P p)).
by move=> d' Hd'; apply: repr_ext Hd' _ => i k hi ->.
Qed.

Lemma lu_swap_piv_ok p j (v : seq nat) q : (p < m)%N -> (j < m)%N -> repr1 m v q ->
  wp (lu_swap_piv p j v) (fun v' => repr1 m v' (fun i => q (tp p j i))).
Proof.
move=> pm jm Hv; rewrite /lu_swap_piv (repr1_get Hv) //= (repr1_get Hv) //=.
apply: wpe_bind; apply: wpe_vset; first by rewrite (repr1_size Hv).
have Hv1 : repr1 m (upd v p (q j)) (fun i => if i == p then q j else q i).
  by apply: repr1_upd Hv pm _.
apply: wpe_vset; first by rewrite (repr1_size Hv1).
apply: repr1_upd Hv1 jm _ => i hi; rewrite /tp.
case: (altP (i =P j)) => [->|nj]; first by case: eqP => [->|].
by case: eqP.
Qed.

(** division by the pivot *)
Lemma lu_divide_ok j (d : seq F) f : (j < m)%N -> (j < n)%N -> repr m n d f ->
  wp (lu_divide (S:=S) m n j d) (fun d' => repr m n d' (fun i k =>
    if [&& k == j, (j < i)%N & f j j != 0] then f i j / f j j else f i k)).
Proof.
move=> jm jn Hd; rewrite /lu_divide jm (repr_get Hd) //=.
case: (altP (f j j =P 0)) => [f0|f0] /=.
  by apply: repr_ext Hd _ => i k hi hk; rewrite !andbF.
rewrite addn1.
apply: (wpe_for (fun c d => repr m n d (fun i k =>
    if [&& k == j, (j < i)%N & (i < c)%N] then f i j / f j j else f i k))) => //.
- apply: repr_ext Hd _ => i k hi hk; case: ifP => // /and3P[_ h1 h2]; lia.
- move=> i d' hi Hd' /=.
  rewrite (repr_get Hd') //=; [|by lia].
  rewrite (repr_get Hd') //= ltnn /= andbF ltnn andbF andbF (negPf f0) /=.
  apply: (wpe_repr_set Hd'); [by lia|by []|move=> v Hv].
  apply: repr_ext Hv _ => i' k hi' hk.
  case: (altP (i' =P i)) => [->|ne] /=; last first.
    by have -> : (i' < i.+1)%N = (i' < i)%N by lia.
  have -> : (j < i)%N by lia.
  by rewrite ltnSn ltnn !andbF andbT; case: eqP.
move=> d' Hd'; apply: repr_ext Hd' _ => i k hi hk.
by rewrite hi andbT ?f0 ?andbT.
Qed.

Lemma lu_divide_nop j (d : seq F) : (m <= j)%N -> lu_divide (S:=S) m n j d = Ok d.
Proof. by move=> h; rewrite /lu_divide ltnNge h. Qed.

Lemma lu_pivot_nop j (d : seq F) : (m <= j)%N -> lu_pivot (S:=S) m n j d = Ok j.
Proof. by move=> h; rewrite /lu_pivot for_nil //; lia. Qed.

(** ** The elimination invariant.  [a] is the input, [s] the row permutation
    so far. *)
Variable a : nat -> nat -> F.

Definition lu_inv (j : nat) (st : seq F * seq nat * bool) : Prop :=
  exists (s : 'S_m) (f : nat -> nat -> F) (q : nat -> nat),
  [/\ repr m n st.1.1 f, repr1 m st.1.2 q, (forall i : 'I_m, q i = s i), st.2 = ~~ odd_perm s &
  [/\ forall i k, (i < m)%N -> (k < j)%N -> a (q i) k =
        \sum_(0 <= l < minn i k.+1) f i l * f l k + (if (i <= k)%N then f i k else 0),
      forall i k, (i < m)%N -> (j <= k < n)%N -> f i k = a (q i) k &
      forall i k, (k < j)%N -> (k < i < m)%N -> `|f i k| <= 1]].

Lemma lu_step_ok j st : (j < n)%N -> lu_inv j st -> wp (lu_step (S:=S) m n j st) (lu_inv j.+1).
Proof.
move=> jn [s [f [q [Hd Hp Hq Hs [Hlu Hrest Hle]]]]].
case: st Hd Hp Hs => [[d piv] sign] /= Hd Hp Hs.
apply: wpe_bind; apply: wpe_mono (lu_column_ok jn Hd) => d1 [g [Hd1 Hg]].
set f1 := (fun i k => if k == j then g i else f i k) in Hd1.
have Hlu1 i k : (i < m)%N -> (k < j)%N -> a (q i) k =
    \sum_(0 <= l < minn i k.+1) f1 i l * f1 l k + (if (i <= k)%N then f1 i k else 0).
  move=> hi hk; rewrite (Hlu i k hi hk) /f1; have -> : (k == j) = false by lia.
  congr (_ + _); apply: eq_big_nat => l hl; have -> : (l == j) = false by lia.
  by [].
have Hg1 i : (i < m)%N -> a (q i) j = \sum_(0 <= l < minn i j) f1 i l * f1 l j + f1 i j.
  move=> hi; rewrite -Hrest //; last by lia.
  rewrite (Hg i hi) /f1 eqxx; congr (_ + _).
  apply: eq_big_nat => l hl; have -> // : (l == j) = false by lia.
have Hrest1 i k : (i < m)%N -> (j < k < n)%N -> f1 i k = a (q i) k.
  by move=> hi hk; rewrite -Hrest //; [rewrite /f1; have -> // : (k == j) = false by lia|lia].
have Hle1 i k : (k < j)%N -> (k < i < m)%N -> `|f1 i k| <= 1.
  by move=> hk hi; rewrite /f1; have -> : (k == j) = false by [lia]; apply: Hle.
case: (ltnP j m) => jm; last first.
  rewrite lu_pivot_nop //= eqxx /= lu_divide_nop //=.
  exists s, f1, q; split=> //; split=> //.
  - move=> i k hi; rewrite ltnS leq_eqVlt => /orP[/eqP ->|]; last exact: Hlu1.
    rewrite (Hg1 i hi); have -> : (i <= j)%N by lia.
    by congr (_ + _); congr (\sum_(_ <= l < _) _); lia.
  - by move=> i k; rewrite ltnS leq_eqVlt => /orP[/eqP ->|]; [lia|exact: Hle1].
apply: wpe_bind; apply: wpe_mono (lu_pivot_ok jm jn Hd1) => p [jp pm Hmax].
(* after the (possible) swap *)
set f2 := fun i k => f1 (tp p j i) k.
have swap_ok : wp (if p != j then
     ludata <-- lu_swap_rows (S:=S) n p j d1 ;;
     pivdata <-- lu_swap_piv p j piv ;;
     Ok (ludata, pivdata, ~~ sign)
   else Ok (d1, piv, sign))
  (fun st => exists (s' : 'S_m) q', [/\ repr m n st.1.1 f2, repr1 m st.1.2 q',
     (forall i : 'I_m, q' i = s' i), st.2 = ~~ odd_perm s' & forall i, q' i = q (tp p j i)]).
  case: (altP (p =P j)) => [e|ne] /=.
    have tpE i : tp p j i = i by rewrite /tp e; case: eqP.
    exists s, q; split=> //; last by move=> i; rewrite tpE.
    by apply: repr_ext Hd1 _ => i k _ _; rewrite /f2 tpE.
  apply: wpe_bind; apply: wpe_mono (lu_swap_rows_ok pm jm Hd1) => d2 Hd2.
  apply: wpe_bind; apply: wpe_mono (lu_swap_piv_ok pm jm Hp) => piv2 Hp2 /=.
  exists (tperm (Ordinal pm) (Ordinal jm) * s)%g, (fun i => q (tp p j i)); split=> //.
    move=> i; rewrite permM -Hq; congr q; rewrite /tp.
    case: tpermP => [->|->|/eqP n1 /eqP n2] /=; rewrite ?eqxx //.
      by case: eqP.
    by rewrite -val_eqE in n1; rewrite -val_eqE in n2; rewrite (negPf n1) (negPf n2).
  by rewrite odd_permM odd_tperm -val_eqE /= ne Hs.
apply: wpe_bind2 swap_ok _ => -[[d2 piv2] sign2] /= [s' [q' [Hd2 Hp2 Hq2 Hs2 qq]]].
apply: wpe_bind; apply: wpe_mono (lu_divide_ok jm jn Hd2) => d3 Hd3 /=.
set f3 := (fun i k => if [&& k == j, _ & _] then _ else _) in Hd3.
have tpm i : (i < m)%N -> (tp p j i < m)%N by rewrite /tp => hi; case: ifP => // _; case: ifP.
have tplt i : (i < j)%N -> tp p j i = i.
  by move=> hi; rewrite /tp; have -> : (i == p) = false by [lia]; have -> : (i == j) = false by lia.
have tpge i : (j <= i)%N -> (j <= tp p j i)%N.
  by rewrite /tp => hi; case: ifP => // _; case: ifP.
(* the factorisation of the processed columns after the swap *)
have Hlu2 i k : (i < m)%N -> (k < j)%N -> a (q' i) k =
    \sum_(0 <= l < minn i k.+1) f2 i l * f2 l k + (if (i <= k)%N then f2 i k else 0).
  move=> hi hk; rewrite qq (Hlu1 _ _ (tpm i hi) hk) /f2.
  case: (ltnP i j) => ij.
    rewrite tplt //; congr (_ + _); apply: eq_big_nat => l hl; rewrite tplt //; lia.
  have ij' := tpge i ij.
  have -> : (tp p j i <= k)%N = false by lia.
  have -> : (i <= k)%N = false by lia.
  have -> : minn (tp p j i) k.+1 = k.+1 by lia.
  have -> : minn i k.+1 = k.+1 by lia.
  congr (_ + _); apply: eq_big_nat => l hl; rewrite (tplt l) //; lia.
have Hg2 i : (i < m)%N -> a (q' i) j = \sum_(0 <= l < minn i j) f2 i l * f2 l j + f2 i j.
  move=> hi; rewrite qq (Hg1 _ (tpm i hi)) /f2; congr (_ + _).
  have -> : minn (tp p j i) j = minn i j.
    case: (ltnP i j) => ij; first by rewrite tplt //; lia.
    by have := tpge i ij; lia.
  by apply: eq_big_nat => l hl; rewrite (tplt l) //; lia.
have Hmax2 i : (j <= i < m)%N -> `|f2 i j| <= `|f2 j j|.
  move=> hi; rewrite /f2; have -> : tp p j j = p by rewrite /tp eqxx; case: eqP.
  by apply: Hmax; rewrite tpge ?tpm //; lia.
exists s', f3, q'; split=> //; split.
- move=> i k hi; rewrite ltnS leq_eqVlt => /orP[/eqP ->|hk]; last first.
    have f3E i' l : (l < j)%N -> f3 i' l = f2 i' l.
      by move=> hl; rewrite /f3; have -> : (l == j) = false by lia.
    rewrite (Hlu2 i k hi hk) f3E //; congr (_ + _).
    apply: eq_big_nat => l hl; rewrite !f3E //; lia.
  have f3E i' l : l != j -> f3 i' l = f2 i' l by move=> /negPf hl; rewrite /f3 hl.
  have f3u i' : (i' <= j)%N -> f3 i' j = f2 i' j.
    by move=> h; rewrite /f3; have -> : (j < i')%N = false by [lia]; rewrite andbF.
  rewrite (Hg2 i hi); case: (boolP (i <= j)%N) => ij; last rewrite -ltnNge in ij.
    have -> : minn i j.+1 = minn i j by lia.
    rewrite f3u //; congr (_ + _); apply: eq_big_nat => l hl.
    by rewrite f3E ?f3u //; lia.
  have -> : minn i j.+1 = j.+1 by lia.
  have -> : minn i j = j by lia.
  rewrite big_nat_recr //= addr0; congr (_ + _).
    by apply: eq_big_nat => l hl; rewrite f3E ?f3u //; lia.
  rewrite (f3u j (leqnn j)) /f3 eqxx ij /=; case: (altP (f2 j j =P 0)) => [f0|f0] /=; last by rewrite divfK.
  rewrite f0 mulr0; apply/eqP; rewrite -normr_le0 -(normr0 F) -f0; apply: Hmax2; lia.
- move=> i k hi hk; rewrite /f3; have -> : (k == j) = false by lia.
  by rewrite /= /f2 qq Hrest1 //; apply: tpm.
- move=> i k; rewrite ltnS leq_eqVlt => /orP[/eqP ->|hk] hi.
    rewrite /f3 eqxx; have -> : (j < i)%N by lia.
    have Hi := Hmax2 i _; rewrite /=; case: (altP (f2 j j =P 0)) => [f0|f0] /=.
      by apply: le_trans (Hi _) _; [lia|rewrite f0 normr0 ler01].
    by rewrite normrM normfV ler_pdivr_mulr ?normr_gt0 // mul1r; apply: Hi; lia.
  rewrite /f3; have -> : (k == j) = false by lia.
  rewrite /f2; apply: Hle1 => //; case: (ltnP i j) => ij; first by rewrite tplt.
  by rewrite tpm ?andbT; [have := tpge i ij; lia|lia].
Qed.


(** What [LUDecomposition::new] leaves behind. *)
Definition lu_post (d : lu_decomp S) : Prop :=
  exists (s : 'S_m) (f : nat -> nat -> F),
  [/\ rep m n (lu d) f, piv d = perm_list s, pospivsign d = ~~ odd_perm s &
  (forall (i : 'I_m) k, (k < n)%N -> a (s i) k =
        \sum_(0 <= l < minn i k.+1) f i l * f l k + (if (i <= k)%N then f i k else 0)) /\
  (forall i k, (k < n)%N -> (k < i < m)%N -> `|f i k| <= 1)].

Lemma lu_new_ok gp M : rep m n M a -> (0 < m)%N -> (0 < n)%N ->
  wp (lu_new (S:=S) gp M) lu_post.
Proof.
move=> HM m0 n0; rewrite /lu_new (rep_cols HM) // [bind _ _]/= /rows (rep_no_rows HM).
rewrite (for_fill (f := fun i => i)) ?size_alloc //= /get_data.
case: (HM) => _ Ha; move: (data M) Ha => ad Ha.
apply: wpe_bind; apply: (wpe_for lu_inv) => //.
- exists 1%g, a, (fun i => i); split=> //.
  + exact: repr1_mkseq.
  + by move=> i; rewrite perm1.
  + by rewrite odd_perm1.
- by move=> j st hj; apply: lu_step_ok.
case=> [[ld pv] sg] [s [f [q [/= Hd Hp Hq Hs [Hlu _ Hle]]]]].
apply: wpe_bind; apply: wpe_mono (new_rep m0 n0 Hd) => L HL /=.
exists s, f; split=> //=.
- rewrite (repr1_eq Hp) /perm_list /mkseq -val_enum_ord -map_comp.
  by apply: eq_map => i /=; rewrite Hq.
- by split=> // i k hk; rewrite -Hq Hlu.
Qed.

End LU.

(** ** The factors as matrices *)
Section Factors.
Variable F : rcfType.
Implicit Types f a : nat -> nat -> F.

Definition lfn f i j : F := if (j < i)%N then f i j else (i == j)%:R.
Definition ufn f i j : F := if (i <= j)%N then f i j else 0.

Lemma lu_sum f r i k : (i < r)%N || (k < r)%N -> ((i <= k) ==> (i < r))%N ->
  \sum_(0 <= l < r) lfn f i l * ufn f l k =
  \sum_(0 <= l < minn i k.+1) f i l * f l k + (if (i <= k)%N then f i k else 0).
Proof.
move=> h1 h2; rewrite (@big_cat_nat _ _ _ (minn i k.+1)) //=; last by lia.
congr (_ + _).
  apply: eq_big_nat => l hl; rewrite /lfn /ufn.
  have -> : (l < i)%N by lia.
  by have -> : (l <= k)%N by lia.
case: (boolP (i <= k)%N) => ik.
  have ir : (i < r)%N by lia.
  have -> : minn i k.+1 = i by lia.
  rewrite big_ltn // big_nat big1 ?addr0; last first.
    move=> l hl; rewrite /lfn; have -> : (l < i)%N = false by lia.
    by have -> : (i == l) = false by [lia]; rewrite mul0r.
  by rewrite /lfn ltnn eqxx mul1r /ufn ik.
rewrite big_nat big1 // => l hl; rewrite /ufn.
by have -> : (l <= k)%N = false by [lia]; rewrite mulr0.
Qed.

End Factors.

(** Filling a matrix by a double loop. *)
Lemma for_fill2 (E : err -> Prop) T m n (G : nat -> nat -> T)
    (body : nat -> nat -> seq T -> res (seq T)) d :
  size d = (m * n)%N ->
  (forall i j d, (i < m)%N -> (j < n)%N -> size d = (m * n)%N ->
     body i j d = vset d (i * n + j)%N (G i j)) ->
  wpe E (for_ 0 m (fun i d => for_ 0 n (body i) d) d) (fun d => repr m n d G).
Proof.
move=> sz H.
have X : wpe E (for_ 0 m (fun i d => for_ 0 n (body i) d) d)
   (fun d => pre1 (m * n) (m * n) d (fun k => G (k %/ n)%N (k %% n)%N)).
  apply: (wpe_for (fun i d => pre1 (m * n) (i * n) d (fun k => G (k %/ n)%N (k %% n)%N))) => //.
  move=> i d1 /= hi Hd1.
  apply: (wpe_for (fun j d => pre1 (m * n) (i * n + j) d (fun k => G (k %/ n)%N (k %% n)%N))) => //.
  - by rewrite addn0.
  - move=> j d2 /= hj Hd2; rewrite H //; last by case: Hd2.
    apply: (wpe_pre1_set Hd2); [exact: idx_lt|by rewrite flat_at|by move=> v'; rewrite addnS].
  - by move=> d2; rewrite mulSn addnC.
by apply: wpe_mono X => d1; apply: pre1_repr.
Qed.

Section Getters.
Variable F : rcfType.
Variables eps tiny : F.
Local Notation S := (exactE eps tiny).
Variables m n : nat.
Variables (d : lu_decomp S) (f : nat -> nat -> F).
Hypothesis Hd : rep m n (lu d) f.
Hypotheses (m0 : (0 < m)%N) (n0 : (0 < n)%N).

Lemma minnE' : (if (n <= m)%N then n else m) = minn m n.
Proof. by case: leqP. Qed.

Lemma lu_get_l_ok g : wp (lu_get_l g d) (fun R => rep m (minn m n) R (lfn f)).
Proof.
rewrite /lu_get_l (rep_cols Hd) //= /rows (rep_no_rows Hd) minnE'.
apply: wpe_bind.
apply: wpe_mono (for_fill2 (G := lfn f) _ _ _); last 2 first.
- by rewrite size_alloc.
- move=> i j d1 hi hj _; rewrite /lfn; case: ifP => ji.
    by rewrite /get_data (rep_vget Hd) //; lia.
  by case: eqP.
by move=> v Hv; apply: new_rep Hv; lia.
Qed.

Lemma lu_get_u_ok g : wp (lu_get_u g d) (fun R => rep (minn m n) n R (ufn f)).
Proof.
rewrite /lu_get_u (rep_cols Hd) //= /rows (rep_no_rows Hd) minnE'.
apply: wpe_bind.
apply: wpe_mono (for_fill2 (G := ufn f) _ _ _); last 2 first.
- by rewrite size_alloc.
- move=> i j d1 hi hj _; rewrite /ufn; case: ifP => ji //.
  by rewrite /get_data (rep_vget Hd) //; lia.
by move=> v Hv; apply: new_rep Hv; lia.
Qed.

(** non-singularity test: no zero on the diagonal of U (square or tall) *)
Lemma lu_is_non_singular_ok : (n <= m)%N ->
  lu_is_non_singular d = Ok (all (fun j => f j j != 0) (iota 0 n)).
Proof.
move=> nm; rewrite /lu_is_non_singular (rep_cols Hd) //=.
suff /wp_ex [c -> /= ->] : wp (forc 0 n (fun j (_ : unit) =>
         x <-- vget (get_data (lu d)) (j * n + j) ;;
         if s_eqb x (n_zero S) then Ok (Stop false) else Ok (Next tt)) tt)
   (fun c => match c with Next _ => true | Stop b => b end =
             all (fun j => f j j != 0) (iota 0 n)) by [].
apply: (wpe_forc (fun k _ => all (fun j => f j j != 0) (iota 0 k))
          (fun b => b = all (fun j => f j j != 0) (iota 0 n))) => //.
- move=> j [] /= hj Hj; rewrite /get_data (rep_vget Hd) //=; last by lia.
  case: eqP => [fz|/eqP fz] /=.
    apply/esym/negbTE/allPn; exists j; rewrite ?mem_iota //= fz eqxx //.
  by rewrite -[_ && _]/(all (fun j => f j j != 0) (iota 0 j.+1)) -addn1 iotaD all_cat Hj /= fz.
Qed.

(** wide matrix: the test runs off the end of the data unless it meets a zero *)
Lemma lu_is_non_singular_wide : (m < n)%N ->
  lu_is_non_singular d =
  if all (fun j => f j j != 0) (iota 0 m) then Err Panic else Ok false.
Proof.
move=> mn; rewrite /lu_is_non_singular (rep_cols Hd) //=.
set body := (fun j (_ : unit) => _).
have step j : (j < m)%N -> body j tt = Ok (if f j j == 0 then Stop false else Next tt).
  move=> hj; rewrite /body /get_data (rep_vget Hd) //=; last by lia.
  by case: ifP.
have last_ : body m tt = Err Panic.
  by rewrite /body /get_data vget_oob // (rep_size Hd) leq_addr.
have main r k : (k + r)%N = m -> (forc_n (n - k) k body tt) =
    if all (fun j => f j j != 0) (iota k r) then Err Panic else Ok (Stop false).
  elim: r k => [|r IH] k e.
    have -> : k = m by lia.
    have -> : (n - m = (n - m).-1.+1)%N by lia.
    by rewrite /= last_.
  have -> : (n - k = (n - k.+1).+1)%N by lia.
  rewrite /= step; last by lia.
  by case: (f k k == 0) => //=; apply: IH; lia.
rewrite /forc (main m 0%N) //; by case: all.
Qed.

Lemma lu_det_ok : m = n -> lu_det d =
  Ok ((if pospivsign d then 1 else -1) * \prod_(0 <= j < n) f j j).
Proof.
move=> e; rewrite /lu_det (rep_cols Hd) //= /rows (rep_no_rows Hd) e eqxx /=.
set s0 := (if _ then _ else _).
suff /wp_ex [x -> ->] : wp (for_ 0 n (fun j acc =>
    x <-- vget (get_data (lu d)) (j * n + j) ;;
    Ok (n_mul (n:=S) acc x)) s0) (fun x => x = s0 * \prod_(0 <= j < n) f j j) by [].
apply: (wpe_for (fun k (x : F) => x = s0 * \prod_(0 <= j < k) f j j)) => //.
- by rewrite big_geq // mulr1.
- move=> j x /= hj ->; rewrite /get_data (rep_vget Hd) //=; last by lia.
  by rewrite big_nat_recr //= mulrA.
Qed.

End Getters.

(** ** Triangular solves *)
Section Solve.
Variable F : rcfType.
Variables eps tiny : F.
Local Notation S := (exactE eps tiny).
Variables m n nx : nat.
Variables (lud : seq F) (f : nat -> nat -> F).
Hypothesis Hl : repr m n lud f.
Hypothesis nm : (n <= m)%N.

Lemma lu_elim_ok k i x b : (k < n)%N -> (i < n)%N -> i != k -> repr m nx x b ->
  wp (lu_elim (S:=S) lud n nx k i x) (fun x' => repr m nx x' (fun i' j =>
     if i' == i then b i j - b k j * f i k else b i' j)).
Proof.
move=> hk hi ne Hx; rewrite /lu_elim.
apply: (wpe_for (fun c x => repr m nx x (fun i' j =>
     if (i' == i) && (j < c)%N then b i j - b k j * f i k else b i' j))) => //.
- by apply: repr_ext Hx _ => i' j _ _; rewrite ltn0 andbF.
- move=> j x' /= hj Hx'.
  rewrite (repr_get Hx') //=; [|by lia].
  rewrite (repr_get Hx') //=; [|by lia].
  rewrite (repr_get Hl) //=; [|by lia].
  rewrite ltnn andbF eq_sym (negPf ne) /=.
  apply: (wpe_repr_set Hx'); [by lia|by []|move=> v Hv].
  apply: repr_ext Hv _ => i' j' hi' hj'.
  case: (altP (i' =P i)) => [->|ni] //=; case: (altP (j' =P j)) => [->|nj]; first by rewrite ltnSn.
  by have -> : (j' < j.+1)%N = (j' < j)%N by lia.
- by move=> x' Hx'; apply: repr_ext Hx' _ => i' j hi' hj; rewrite hj andbT.
Qed.

Lemma lu_forward_ok x b : repr m nx x b ->
  wp (lu_forward (S:=S) lud n nx x) (fun x' => exists y, [/\ repr m nx x' y,
    forall i j, (i < n)%N -> (j < nx)%N -> b i j = \sum_(0 <= l < i) f i l * y l j + y i j &
    forall i j, (n <= i < m)%N -> (j < nx)%N -> y i j = b i j]).
Proof.
move=> Hx; rewrite /lu_forward.
apply: (wpe_for (fun k x' => exists y, [/\ repr m nx x' y,
    forall i j, (i < n)%N -> (j < nx)%N -> b i j = \sum_(0 <= l < minn i k) f i l * y l j + y i j &
    forall i j, (n <= i < m)%N -> (j < nx)%N -> y i j = b i j])) => //.
- exists b; split=> // i j hi hj; rewrite big_geq ?add0r //; lia.
- move=> k x1 /= hk [y [Hy Hb Ht]].
  apply: (wpe_for (fun c x => repr m nx x (fun i j =>
     if (k < i < c)%N then y i j - y k j * f i k else y i j))).
  + by rewrite addn1.
  + apply: repr_ext Hy _ => i j _ _; case: ifP => //; lia.
  + move=> i x2 hi Hx2.
    apply: wpe_mono (lu_elim_ok hk _ _ Hx2); [|by lia|by lia].
    move=> x3 Hx3; apply: repr_ext Hx3 _ => i' j hi' hj.
    case: (altP (i' =P i)) => [->|ne].
      have -> : (k < i < i)%N = false by lia.
      have -> : (k < k < i)%N = false by lia.
      by have -> : (k < i < i.+1)%N by lia.
    by have -> : (k < i' < i.+1)%N = (k < i' < i)%N by lia.
  + move=> x2 Hx2; eexists; split; [exact: Hx2| |].
    * move=> i j hi hj; rewrite (Hb i j hi hj).
      case: (boolP (k < i)%N) => ki; last first.
        have -> /= : minn i k.+1 = minn i k by lia.
        congr (_ + _); apply: eq_big_nat => l hl.
        by have -> : (k < l < n)%N = false by lia.
      rewrite hi /=; have -> : minn i k.+1 = k.+1 by lia.
      have -> : minn i k = k by lia.
      rewrite big_nat_recr //= ltnn /= -addrA; congr (_ + _); last by ring.
      apply: eq_big_nat => l hl.
      by have -> : (k < l < n)%N = false by lia.
    * move=> i j hi hj; rewrite -Ht //; have -> // : (k < i < n)%N = false by lia.
- move=> x' [y [Hy Hb Ht]]; exists y; split=> // i j hi hj.
  rewrite (Hb i j hi hj); by have -> : minn i n = i by lia.
Qed.

Lemma lu_backward_ok x y : repr m nx x y -> (forall i, (i < n)%N -> f i i != 0) ->
  wp (lu_backward (S:=S) lud n nx x) (fun x' => exists z, [/\ repr m nx x' z,
    forall i j, (i < n)%N -> (j < nx)%N -> y i j = \sum_(i <= l < n) f i l * z l j &
    forall i j, (n <= i < m)%N -> (j < nx)%N -> z i j = y i j]).
Proof.
move=> Hx nz; rewrite /lu_backward.
apply: (wpe_for_rev (fun k x' => exists z, [/\ repr m nx x' z,
    forall i j, (i < n)%N -> (j < nx)%N -> y i j =
       \sum_(maxn k i.+1 <= l < n) f i l * z l j + (if (i < k)%N then z i j else f i i * z i j) &
    forall i j, (n <= i < m)%N -> (j < nx)%N -> z i j = y i j])) => //.
- exists y; split=> // i j hi hj; rewrite big_geq ?add0r ?hi //; lia.
- move=> k x1 /= hk [z [Hz Hy Ht]].
  apply: wpe_bind.
  apply: (wpe_for (fun c x => repr m nx x (fun i j =>
     if (i == k) && (j < c)%N then z k j / f k k else z i j))) => //.
  + by apply: repr_ext Hz _ => i j _ _; rewrite ltn0 andbF.
  + move=> j x2 /= hj Hx2.
    rewrite (repr_get Hx2) //=; [|by lia].
    rewrite (repr_get Hl) //=; [|by lia].
    rewrite ltnn andbF (negPf (nz _ hk)) /=.
    apply: (wpe_repr_set Hx2); [by lia|by []|move=> v Hv].
    apply: repr_ext Hv _ => i' j' hi' hj'.
    case: (altP (i' =P k)) => [->|ni] //=; case: (altP (j' =P j)) => [->|nj]; first by rewrite ltnSn.
    by have -> : (j' < j.+1)%N = (j' < j)%N by lia.
  move=> x2 Hx2.
  set w := (fun i j => if i == k then z k j / f k k else z i j).
  have Hw : repr m nx x2 w by apply: repr_ext Hx2 _ => i j hi hj; rewrite hj andbT.
  apply: (wpe_for (fun c x => repr m nx x (fun i j =>
     if (i < c)%N then w i j - w k j * f i k else w i j))) => //.
  + move=> i x3 /= hi Hx3.
    apply: wpe_mono (lu_elim_ok hk _ _ Hx3); [|by lia|by lia].
    move=> x4 Hx4; apply: repr_ext Hx4 _ => i' j hi' hj.
    rewrite ltnn; have -> : (k < i)%N = false by lia.
    case: (altP (i' =P i)) => [->|ne]; first by rewrite ltnSn.
    by have -> : (i' < i.+1)%N = (i' < i)%N by lia.
  + move=> x3 Hx3; eexists; split; [exact: Hx3| |].
    * move=> i j hi hj; rewrite (Hy i j hi hj).
      have sumE c : (k < c)%N ->
         \sum_(c <= l < n) f i l * (if (l < k)%N then w l j - w k j * f l k else w l j) =
         \sum_(c <= l < n) f i l * z l j.
        move=> kc; apply: eq_big_nat => l hl; have -> : (l < k)%N = false by lia.
        by rewrite /w; have -> : (l == k) = false by lia.
      case: (ltngtP i k) => ik.
      - have -> : maxn k i.+1 = k by lia.
        have -> : maxn k.+1 i.+1 = k.+1 by lia.
        have -> : (i < k.+1)%N by lia.
        rewrite (big_ltn hk) sumE // ltnn /w eqxx; have -> : (i == k) = false by lia.
        by move: (\sum_(_ <= l < _) _) (z i j) (f i k) (z k j / f k k) => A B C D; ring.
      - have -> : maxn k i.+1 = i.+1 by lia.
        have -> : maxn k.+1 i.+1 = i.+1 by lia.
        have -> : (i < k.+1)%N = false by lia.
        rewrite sumE; last by lia.
        by rewrite /w; have -> : (i == k) = false by lia.
      - subst i; rewrite maxnn ltnSn.
        have -> : maxn k k.+1 = k.+1 by lia.
        by rewrite sumE // /w eqxx mulrC divfK // nz.
    * move=> i j hi hj; have -> : (i < k)%N = false by lia.
      by rewrite /w; have -> : (i == k) = false by [lia]; rewrite Ht.
- move=> x' [z [Hz Hy Ht]]; exists z; split=> // i j hi hj.
  by rewrite (Hy i j hi hj) max0n ltn0 [RHS]big_ltn // addrC.
Qed.

End Solve.
