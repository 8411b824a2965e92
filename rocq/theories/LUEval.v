(** * LUEval: the order of evaluation of lu.rs, for every scalar whose division
    by a non-zero divisor does not fail (f32, f64, exact arithmetic). *)
From mathcomp Require Import all_ssreflect all_algebra zify.
From mathcomp Require Import fingroup perm.
From Verif Require Import Base Scalar Hoare ModelMatrix ModelLU Spec MatrixProofs MatrixProofs2 LUProofs.

Set Implicit Arguments.
Unset Strict Implicit.
Unset Printing Implicit Defensive.

Lemma for_foldl_nat (A : Type) lo hi (h : A -> nat -> A) (body : nat -> A -> res A) s :
  (forall k s, lo <= k < hi -> body k s = Ok (h s k)) ->
  for_ lo hi body s = Ok (foldl h s (iota lo (hi - lo))).
Proof.
move=> H; case: (leqP hi lo) => [l|l].
  by rewrite for_nil //; have -> : hi - lo = 0 by lia.
have [d e] : exists d, hi = (lo + d)%N by exists (hi - lo)%N; lia.
move: H; rewrite {}e {l} => H; have -> : lo + d - lo = d by lia.
elim: d H => [|d IH] H; first by rewrite addn0 for_nil.
rewrite addnS for_recr ?leq_addr // IH => [|k s' hk]; last by apply: H; lia.
by cbn [bind]; rewrite H; [rewrite -[d.+1]addn1 iotaD foldl_cat | lia].
Qed.

Lemma foldl_eq_in (T : Type) (f g : T -> nat -> T) s l :
  (forall s k, k \in l -> f s k = g s k) -> foldl f s l = foldl g s l.
Proof.
elim: l s => //= x l IH s h; rewrite h ?inE ?eqxx //; apply: IH => t k hk.
by apply: h; rewrite inE hk orbT.
Qed.

Section LU.
Variable S : scalar.
Variable sdiv : S -> S -> S.
Hypothesis sdivE : forall x y, ~~ s_eqb y (n_zero S) -> n_div x y = Ok (sdiv x y).
(** comparison of absolute values: no element is larger than itself, and what
    is not below a is not below anything above a *)
Hypothesis lt_irr : forall a : S, ~~ s_ltb a a.
Hypothesis lt_tr : forall a b c : S, s_ltb a b -> ~~ s_ltb a c -> ~~ s_ltb b c.

Variables m n : nat.

(** 0 + f0 g0 + f1 g1 + ..., from the left *)
Definition sdot (c : nat) (f g : nat -> S) : S :=
  foldl (fun s l => n_add s (n_mul (f l) (g l))) (n_zero S) (iota 0 c).

Lemma sdot_ext c f g f' g' : (forall l, l < c -> f l = f' l) -> (forall l, l < c -> g l = g' l) ->
  sdot c f g = sdot c f' g'.
Proof.
move=> h1 h2; apply: foldl_eq_in => s k; rewrite mem_iota add0n => /= hk.
by rewrite h1 // h2.
Qed.

Lemma lu_column_ev j (d : seq S) f : j < n -> repr m n d f ->
  wp (lu_column m n j d) (fun d' => exists g : nat -> S,
    repr m n d' (fun i k => if k == j then g i else f i k) /\
    forall i, i < m -> g i = n_sub (f i j) (sdot (minn i j) (f i) g)).
Proof.
move=> jn Hd; rewrite /lu_column.
apply: (wpe_for (fun i d => exists g : nat -> S,
    repr m n d (fun i' k => if (k == j) && (i' < i) then g i' else f i' k) /\
    forall i', i' < i -> g i' = n_sub (f i' j) (sdot (minn i' j) (f i') g))) => //.
- exists (fun _ => n_zero S); split=> //.
  by apply: repr_ext Hd _ => i k _ _; rewrite ltn0 andbF.
- move=> i d' /= hi [g [Hd' Hg]].
  rewrite (for_foldl_nat (h := fun s l => n_add s (n_mul (f i l) (g l)))); last first.
    move=> k s hk.
    rewrite (repr_get Hd') //=; [|by lia].
    rewrite (repr_get Hd') //=; [|by lia].
    rewrite eqxx ltnn andbF.
    by have -> : k < i by lia.
  rewrite subn0 -/(sdot _ _ _).
  cbn [bind]; rewrite (repr_get Hd') //= ltnn andbF.
  apply: (wpe_repr_set Hd') => // v' Hv'.
  set x := n_sub (f i j) _ in Hv'.
  exists (fun i' => if i' == i then x else g i'); split.
    apply: repr_ext Hv' _ => i' k hi' hk.
    case: (altP (i' =P i)) => [->|ne] /=; first by rewrite ltnSn andbT ltnn andbF.
    by have -> : (i' < i.+1) = (i' < i) by lia.
  move=> i'; rewrite ltnS leq_eqVlt => /orP[/eqP ->|lt].
    rewrite eqxx /x; congr n_sub; apply: sdot_ext => // l hl.
    by have -> : (l == i) = false by lia.
  have -> : (i' == i) = false by lia.
  rewrite (Hg i' lt); congr n_sub; apply: sdot_ext => // l hl.
  by have -> : (l == i) = false by lia.
move=> d' [g [Hd' Hg]]; exists g; split=> //.
by apply: repr_ext Hd' _ => i k hi hk; rewrite hi andbT.
Qed.

Lemma lu_pivot_ev j (d : seq S) f : j < m -> j < n -> repr m n d f ->
  wp (lu_pivot m n j d) (fun p => [/\ j <= p, p < m &
    forall i, j <= i < m -> ~~ s_ltb (s_abs (f p j)) (s_abs (f i j))]).
Proof.
move=> jm jn Hd; rewrite /lu_pivot addn1.
apply: (wpe_for (fun i p => [/\ j <= p, p < m &
    forall i', j <= i' < i -> ~~ s_ltb (s_abs (f p j)) (s_abs (f i' j))])) => //.
- split=> // i' hi'; have -> : i' = j by lia.
  exact: lt_irr.
- move=> i p hi [jp pm Hp] /=.
  rewrite (repr_get Hd) //=; [|by lia].
  rewrite (repr_get Hd) //=.
  case: (boolP (s_ltb _ _)) => h; split=> //; try lia.
  + move=> i' hi'; case: (ltnP i' i) => lt; last by have -> : i' = i by [lia]; apply: lt_irr.
    by apply: lt_tr h _; apply: Hp; lia.
  + move=> i' hi'; case: (ltnP i' i) => lt; last by have -> : i' = i by lia.
    by apply: Hp; lia.
Qed.

Lemma lu_swap_rows_ev p j (d : seq S) f : p < m -> j < m -> repr m n d f ->
  wp (lu_swap_rows n p j d) (fun d' => repr m n d' (fun i k => f (tp p j i) k)).
Proof.
move=> pm jm Hd; rewrite /lu_swap_rows.
apply: (wpe_for (fun c d => repr m n d (fun i k => if k < c then f (tp p j i) k else f i k))) => //.
- move=> c d' /= hc Hd'.
  rewrite (repr_get Hd') //= (repr_get Hd') //= ltnn.
  apply: wpe_bind; apply: (wpe_repr_set Hd') => // v Hv.
  apply: (wpe_repr_set Hv) => // v' Hv'.
  apply: repr_ext Hv' _ => i k hi hk.
  case: (altP (k =P c)) => [->|nk]; rewrite ?andbT ?andbF; last first.
    by have -> : (k < c.+1) = (k < c) by lia.
  rewrite ltnSn ltnn /tp; case: (altP (i =P j)) => [->|nj].
    by case: eqP => [->|].
  by case: (altP (i =P p)).
by move=> d' Hd'; apply: repr_ext Hd' _ => i k hi ->.
Qed.

Lemma lu_divide_ev j (d : seq S) f : j < m -> j < n -> repr m n d f ->
  wp (lu_divide m n j d) (fun d' => repr m n d' (fun i k =>
    if (k == j) && (j < i) then if s_eqb (f j j) (n_zero S) then f i j else sdiv (f i j) (f j j) else f i k)).
Proof.
move=> jm jn Hd; rewrite /lu_divide jm (repr_get Hd) //=.
case: (boolP (s_eqb (f j j) (n_zero S))) => [f0|f0] /=.
  by apply: repr_ext Hd _ => i k hi hk; case: ifP => // /andP[/eqP-> _].
rewrite addn1.
apply: (wpe_for (fun c d => repr m n d (fun i k =>
    if [&& k == j, j < i & i < c] then sdiv (f i j) (f j j) else f i k))) => //.
- apply: repr_ext Hd _ => i k hi hk; case: ifP => // /and3P[_ h1 h2]; lia.
- move=> i d' hi Hd' /=.
  rewrite (repr_get Hd') //=; [|by lia].
  rewrite (repr_get Hd') //= !ltnn !(andbF, andFb) sdivE //=.
  apply: (wpe_repr_set Hd'); [by lia|by []|move=> v Hv].
  apply: repr_ext Hv _ => i' k hi' hk.
  case: (altP (i' =P i)) => [->|ne] /=; last first.
    by have -> : (i' < i.+1) = (i' < i) by lia.
  have -> : j < i by lia.
  by rewrite ltnSn ltnn !andbF andbT; case: eqP.
move=> d' Hd'; apply: repr_ext Hd' _ => i k hi hk.
by rewrite hi andbT.
Qed.

Lemma lu_divide_nop_ev j (d : seq S) : m <= j -> lu_divide m n j d = Ok d.
Proof. by move=> h; rewrite /lu_divide ltnNge h. Qed.
Lemma lu_pivot_nop_ev j (d : seq S) : m <= j -> lu_pivot m n j d = Ok j.
Proof. by move=> h; rewrite /lu_pivot for_nil //; lia. Qed.

(** ** The elimination *)
Variable a : nat -> nat -> S.

(** element (i,k) before the division by the pivot *)
Definition lu_num (f : nat -> nat -> S) (q : nat -> nat) (i k : nat) : S :=
  n_sub (a (q i) k) (sdot (minn i k) (f i) (fun l => f l k)).

Definition lu_entry (f : nat -> nat -> S) (q : nat -> nat) (i k : nat) : S :=
  let y := lu_num f q i k in
  if i <= k then y else if s_eqb (f k k) (n_zero S) then y else sdiv y (f k k).

Definition lu_invE (j : nat) (st : seq S * seq nat * bool) : Prop :=
  exists (s : 'S_m) (f : nat -> nat -> S) (q : nat -> nat),
  [/\ repr m n st.1.1 f, repr1 m st.1.2 q, (forall i : 'I_m, q i = s i), st.2 = ~~ odd_perm s &
  [/\ forall i k, i < m -> k < j -> f i k = lu_entry f q i k,
      forall i k, i < m -> j <= k < n -> f i k = a (q i) k &
      forall i k, k < j -> k <= i < m -> ~~ s_ltb (s_abs (lu_num f q k k)) (s_abs (lu_num f q i k))]].

Lemma lu_num_ext f f' q q' i i' k : minn i k = minn i' k -> q i = q' i' ->
  (forall l, l < minn i k -> f i l = f' i' l /\ f l k = f' l k) -> lu_num f q i k = lu_num f' q' i' k.
Proof.
move=> e1 e2 h; rewrite /lu_num e2 -e1; congr n_sub.
by apply: sdot_ext => l /h [].
Qed.

Lemma lu_step_ev j st : j < n -> lu_invE j st -> wp (lu_step m n j st) (lu_invE j.+1).
Proof.
move=> jn [s [f [q [Hd Hp Hq Hs [Hlu Hrest Hle]]]]].
case: st Hd Hp Hs => [[d piv] sign] /= Hd Hp Hs.
apply: wpe_bind; apply: wpe_mono (lu_column_ev jn Hd) => d1 [g [Hd1 Hg]].
set f1 := (fun i k => if k == j then g i else f i k) in Hd1.
have f1E i k : k != j -> f1 i k = f i k by move=> /negPf h; rewrite /f1 h.
have N1 i k : k < j -> lu_num f1 q i k = lu_num f q i k.
  by move=> hk; apply: lu_num_ext => // l hl; rewrite !f1E //; lia.
have Hlu1 i k : i < m -> k < j -> f1 i k = lu_entry f1 q i k.
  by move=> hi hk; rewrite /lu_entry N1 // !f1E; [rewrite Hlu|lia..].
have Hg1 i : i < m -> f1 i j = lu_num f1 q i j.
  move=> hi; rewrite {1}/f1 eqxx Hg // Hrest //; last by lia.
  rewrite /lu_num; congr n_sub; apply: sdot_ext => l hl; first by rewrite f1E //; lia.
  by rewrite /f1 eqxx.
have Hrest1 i k : i < m -> j < k < n -> f1 i k = a (q i) k.
  by move=> hi hk; rewrite f1E ?Hrest //; lia.
have Hle1 i k : k < j -> k <= i < m -> ~~ s_ltb (s_abs (lu_num f1 q k k)) (s_abs (lu_num f1 q i k)).
  by move=> hk hi; rewrite !N1 //; apply: Hle.
case: (ltnP j m) => jm; last first.
  rewrite lu_pivot_nop_ev //= eqxx /= lu_divide_nop_ev //=.
  exists s, f1, q; split=> //; split=> //.
  - move=> i k hi; rewrite ltnS leq_eqVlt => /orP[/eqP ->|]; last exact: Hlu1.
    by rewrite /lu_entry Hg1 //; have -> : i <= j by lia.
  - by move=> i k; rewrite ltnS leq_eqVlt => /orP[/eqP ->|]; [lia|exact: Hle1].
apply: wpe_bind; apply: wpe_mono (lu_pivot_ev jm jn Hd1) => p [jp pm Hmax].
set f2 := fun i k => f1 (tp p j i) k.
have swap_ok : wp (if p != j then
     ludata <-- lu_swap_rows n p j d1 ;;
     pivdata <-- lu_swap_piv p j piv ;;
     Ok (ludata, pivdata, ~~ sign)
   else Ok (d1, piv, sign))
  (fun st => exists (s' : 'S_m) q', [/\ repr m n st.1.1 f2, repr1 m st.1.2 q',
     (forall i : 'I_m, q' i = s' i), st.2 = ~~ odd_perm s' & forall i, q' i = q (tp p j i)]).
  case: (altP (p =P j)) => [e|ne] /=.
    have tpE i : tp p j i = i by rewrite /tp e; case: eqP.
    exists s, q; split=> //; last by move=> i; rewrite tpE.
    by apply: repr_ext Hd1 _ => i k _ _; rewrite /f2 tpE.
  apply: wpe_bind; apply: wpe_mono (lu_swap_rows_ev pm jm Hd1) => d2 Hd2.
  apply: wpe_bind; apply: wpe_mono (lu_swap_piv_ok pm jm Hp) => piv2 Hp2 /=.
  exists (tperm (Ordinal pm) (Ordinal jm) * s)%g, (fun i => q (tp p j i)); split=> //.
    move=> i; rewrite permM -Hq; congr q; rewrite /tp.
    case: tpermP => [->|->|/eqP n1 /eqP n2] /=; rewrite ?eqxx //.
      by case: eqP.
    by rewrite -val_eqE in n1; rewrite -val_eqE in n2; rewrite (negPf n1) (negPf n2).
  by rewrite odd_permM odd_tperm -val_eqE /= ne Hs.
apply: wpe_bind2 swap_ok _ => -[[d2 piv2] sign2] /= [s' [q' [Hd2 Hp2 Hq2 Hs2 qq]]].
apply: wpe_bind; apply: wpe_mono (lu_divide_ev jm jn Hd2) => d3 Hd3 /=.
set f3 := (fun i k => if (k == j) && _ then _ else _) in Hd3.
have tpm i : i < m -> tp p j i < m by rewrite /tp => hi; case: ifP => // _; case: ifP.
have tplt i : i < j -> tp p j i = i.
  by move=> hi; rewrite /tp; have -> : (i == p) = false by [lia]; have -> : (i == j) = false by lia.
have tpge i : j <= i -> j <= tp p j i.
  by rewrite /tp => hi; case: ifP => // _; case: ifP.
have tpmin i k : k <= j -> minn (tp p j i) k = minn i k.
  move=> kj; case: (ltnP i j) => ij; first by rewrite tplt.
  by have := tpge i ij; lia.
have f3E i k : k != j -> f3 i k = f2 i k by move=> /negPf h; rewrite /f3 h.
have f3u i : i <= j -> f3 i j = f2 i j.
  by move=> h; rewrite /f3 eqxx; have -> : (j < i) = false by lia.
have N3 i k : k <= j -> lu_num f3 q' i k = lu_num f1 q (tp p j i) k.
  move=> hk; apply: lu_num_ext; [by rewrite tpmin|exact: qq|move=> l hl; split].
    by rewrite f3E //; lia.
  have lj : l < j by lia.
  have -> : f3 l k = f2 l k by case: (altP (k =P j)) => [->|ne]; [apply: f3u; lia|apply: f3E].
  by rewrite /f2 tplt.
exists s', f3, q'; split=> //; split.
- move=> i k hi; rewrite ltnS leq_eqVlt => /orP[/eqP ->|hk]; last first.
    have kj : k != j by lia.
    rewrite /lu_entry N3 ?f3E //; last lia.
    rewrite /f2 (Hlu1 _ _ (tpm i hi) hk) /lu_entry (tplt k) //.
    case: (ltnP i j) => ij; first by rewrite tplt.
    have h1 : (i <= k) = false by lia.
    by have h2 : (tp p j i <= k) = false; [have := tpge i ij; lia|rewrite h1 h2].
  rewrite /lu_entry N3 // -Hg1 ?tpm //.
  case: (leqP i j) => ij; first by rewrite f3u.
  by rewrite {1}/f3 eqxx ij (f3u j (leqnn j)).
- move=> i k hi hk; rewrite f3E; last by lia.
  by rewrite /f2 qq Hrest1 // tpm.
- move=> i k; rewrite ltnS leq_eqVlt => /orP[/eqP ->|hk] hi.
    rewrite !N3 // -!Hg1; [|by apply: tpm; lia|by apply: tpm; lia].
    have -> : tp p j j = p by rewrite /tp eqxx; case: eqP.
    by apply: Hmax; rewrite tpge ?tpm //; lia.
  rewrite !N3; [|lia..]; rewrite (tplt k) //; apply: Hle1 => //.
  case: (ltnP i j) => ij; first by rewrite tplt.
  by rewrite tpm ?andbT; [have := tpge i ij; lia|lia].
Qed.

Definition lu_postE (d : lu_decomp S) : Prop :=
  exists (s : 'S_m) (f : nat -> nat -> S) (q : nat -> nat),
  [/\ rep m n (lu d) f, piv d = perm_list s, pospivsign d = ~~ odd_perm s, (forall i : 'I_m, q i = s i) &
  (forall i k, i < m -> k < n -> f i k = lu_entry f q i k) /\
  (forall i k, k < n -> k <= i < m -> ~~ s_ltb (s_abs (lu_num f q k k)) (s_abs (lu_num f q i k)))].

Lemma lu_new_ev gp M : rep m n M a -> 0 < m -> 0 < n -> wp (lu_new gp M) lu_postE.
Proof.
move=> HM m0 n0; rewrite /lu_new (rep_cols HM) //; cbn [bind]; rewrite /rows (rep_no_rows HM).
rewrite (for_fill (f := fun i => i)) ?size_alloc //=; cbn [bind]; rewrite /get_data.
case: (HM) => _ Ha; move: (data M) Ha => ad Ha.
apply: wpe_bind; apply: (wpe_for lu_invE) => //.
- exists 1%g, a, (fun i => i); split=> //.
  + exact: repr1_mkseq.
  + by move=> i; rewrite perm1.
  + by rewrite odd_perm1.
- by move=> j st hj; apply: lu_step_ev.
case=> [[ld pv] sg] [s [f [q [/= Hd Hp Hq Hs [Hlu _ Hle]]]]].
apply: wpe_bind; apply: wpe_mono (new_rep m0 n0 Hd) => L HL /=.
exists s, f, q; split=> //=.
rewrite (repr1_eq Hp) /perm_list /mkseq -val_enum_ord -map_comp.
by apply: eq_map => i /=; rewrite Hq.
Qed.

(** ** The factors *)
Definition lfnS (f : nat -> nat -> S) i j : S := if j < i then f i j else if i == j then n_one S else n_zero S.
Definition ufnS (f : nat -> nat -> S) i j : S := if i <= j then f i j else n_zero S.

Section Getters.
Variables (d : lu_decomp S) (f : nat -> nat -> S).
Hypothesis Hd : rep m n (lu d) f.
Hypotheses (m0 : 0 < m) (n0 : 0 < n).

Lemma lu_get_l_ev g : wp (lu_get_l g d) (fun R => rep m (minn m n) R (lfnS f)).
Proof.
rewrite /lu_get_l (rep_cols Hd) //; cbn [bind]; rewrite /rows (rep_no_rows Hd) minnE'.
apply: wpe_bind.
apply: wpe_mono (for_fill2 (G := lfnS f) _ _ _); last 2 first.
- by rewrite size_alloc.
- move=> i j d1 hi hj _; rewrite /lfnS; case: ifP => ji.
    by rewrite /get_data (rep_vget Hd) //; lia.
  by case: eqP.
by move=> v Hv; apply: new_rep Hv; lia.
Qed.

Lemma lu_get_u_ev g : wp (lu_get_u g d) (fun R => rep (minn m n) n R (ufnS f)).
Proof.
rewrite /lu_get_u (rep_cols Hd) //; cbn [bind]; rewrite /rows (rep_no_rows Hd) minnE'.
apply: wpe_bind.
apply: wpe_mono (for_fill2 (G := ufnS f) _ _ _); last 2 first.
- by rewrite size_alloc.
- move=> i j d1 hi hj _; rewrite /ufnS; case: ifP => ji //.
  by rewrite /get_data (rep_vget Hd) //; lia.
by move=> v Hv; apply: new_rep Hv; lia.
Qed.

Lemma lu_is_non_singular_ev : n <= m ->
  lu_is_non_singular d = Ok (all (fun j => ~~ s_eqb (f j j) (n_zero S)) (iota 0 n)).
Proof.
move=> nm; rewrite /lu_is_non_singular (rep_cols Hd) //; cbn [bind].
suff /wp_ex [c -> /= ->] : wp (forc 0 n (fun j (_ : unit) =>
         x <-- vget (get_data (lu d)) (j * n + j) ;;
         if s_eqb x (n_zero S) then Ok (Stop false) else Ok (Next tt)) tt)
   (fun c => match c with Next _ => true | Stop b => b end =
             all (fun j => ~~ s_eqb (f j j) (n_zero S)) (iota 0 n)) by [].
apply: (wpe_forc (fun k _ => all (fun j => ~~ s_eqb (f j j) (n_zero S)) (iota 0 k))
          (fun b => b = all (fun j => ~~ s_eqb (f j j) (n_zero S)) (iota 0 n))) => //.
move=> j [] /= hj Hj; rewrite /get_data (rep_vget Hd) //=; last by lia.
case: (boolP (s_eqb _ _)) => fz /=.
  by apply/esym/negbTE/allPn; exists j; rewrite ?mem_iota //= fz.
by rewrite -[_ && _]/(all (fun j => ~~ s_eqb (f j j) (n_zero S)) (iota 0 j.+1)) -addn1 iotaD all_cat Hj /= fz.
Qed.

Lemma lu_det_ev : m = n -> lu_det d =
  Ok (foldl (fun acc j => n_mul acc (f j j)) (if pospivsign d then n_one S else n_neg (n_one S)) (iota 0 n)).
Proof.
move=> e; rewrite /lu_det (rep_cols Hd) //; cbn [bind]; rewrite /rows (rep_no_rows Hd) e eqxx /=.
rewrite (for_foldl_nat (h := fun acc j => n_mul acc (f j j))) ?subn0 //.
by move=> k s hk; rewrite /get_data (rep_vget Hd) //; lia.
Qed.
End Getters.

(** ** Triangular solves *)
Section Solve.
Variable nx : nat.
Variables (lud : seq S) (f : nat -> nat -> S).
Hypothesis Hl : repr m n lud f.
Hypothesis nm : n <= m.

Lemma lu_elim_ev k i x b : k < n -> i < n -> i != k -> repr m nx x b ->
  wp (lu_elim lud n nx k i x) (fun x' => repr m nx x' (fun i' j =>
     if i' == i then n_sub (b i j) (n_mul (b k j) (f i k)) else b i' j)).
Proof.
move=> hk hi ne Hx; rewrite /lu_elim.
apply: (wpe_for (fun c x => repr m nx x (fun i' j =>
     if (i' == i) && (j < c) then n_sub (b i j) (n_mul (b k j) (f i k)) else b i' j))) => //.
- by apply: repr_ext Hx _ => i' j _ _; rewrite ltn0 andbF.
- move=> j x' /= hj Hx'.
  rewrite (repr_get Hx') //=; [|by lia].
  rewrite (repr_get Hx') //=; [|by lia].
  rewrite (repr_get Hl) //=; [|by lia].
  rewrite ltnn andbF eq_sym (negPf ne) /=.
  apply: (wpe_repr_set Hx'); [by lia|by []|move=> v Hv].
  apply: repr_ext Hv _ => i' j' hi' hj'.
  case: (altP (i' =P i)) => [->|ni] //=; case: (altP (j' =P j)) => [->|nj]; first by rewrite ltnSn.
  by have -> : (j' < j.+1) = (j' < j) by lia.
- by move=> x' Hx'; apply: repr_ext Hx' _ => i' j hi' hj; rewrite hj andbT.
Qed.

(** c - y0 f0 - y1 f1 - ..., from the left *)
Definition chain (c : S) (ks : seq nat) (y f : nat -> S) : S :=
  foldl (fun s k => n_sub s (n_mul (y k) (f k))) c ks.

Lemma chain_ext c ks y y' g : (forall k, k \in ks -> y k = y' k) -> chain c ks y g = chain c ks y' g.
Proof. by move=> h; apply: foldl_eq_in => s k /h ->. Qed.

Lemma lu_forward_ev x b : repr m nx x b ->
  wp (lu_forward lud n nx x) (fun x' => exists y, [/\ repr m nx x' y,
    forall i j, i < n -> j < nx -> y i j = chain (b i j) (iota 0 i) (fun k => y k j) (f i) &
    forall i j, n <= i < m -> j < nx -> y i j = b i j]).
Proof.
move=> Hx; rewrite /lu_forward.
apply: (wpe_for (fun k x' => exists y, [/\ repr m nx x' y,
    forall i j, i < n -> j < nx -> y i j = chain (b i j) (iota 0 (minn i k)) (fun k => y k j) (f i) &
    forall i j, n <= i < m -> j < nx -> y i j = b i j])) => //.
- by exists b; split=> // i j hi hj; rewrite minn0.
- move=> k x1 /= hk [y [Hy Hb Ht]].
  apply: (wpe_for (fun c x => repr m nx x (fun i j =>
     if k < i < c then n_sub (y i j) (n_mul (y k j) (f i k)) else y i j))).
  + by rewrite addn1.
  + apply: repr_ext Hy _ => i j _ _; case: ifP => //; lia.
  + move=> i x2 hi Hx2.
    apply: wpe_mono (lu_elim_ev hk _ _ Hx2); [|by lia|by lia].
    move=> x3 Hx3; apply: repr_ext Hx3 _ => i' j hi' hj.
    case: (altP (i' =P i)) => [->|ne].
      have -> : (k < i < i) = false by lia.
      have -> : (k < k < i) = false by lia.
      by have -> : k < i < i.+1 by lia.
    by have -> : (k < i' < i.+1) = (k < i' < i) by lia.
  + move=> x2 Hx2; eexists; split; [exact: Hx2| |].
    * move=> i j hi hj.
      set y' := (fun k0 => if k < k0 < n then n_sub (y k0 j) _ else y k0 j).
      have ye l : l <= k -> y' l = y l j by move=> hl; rewrite /y'; have -> : (k < l < n) = false by lia.
      case: (boolP (k < i)) => ki; last first.
        have -> /= : minn i k.+1 = minn i k by lia.
        rewrite (Hb i j hi hj); apply: chain_ext => l; rewrite mem_iota => hl.
        by rewrite ye //; lia.
      rewrite hi /=; have -> : minn i k.+1 = k + 1 by lia.
      rewrite iotaD /chain foldl_cat /= add0n (ye k) // (Hb i j hi hj).
      have -> : minn i k = k by lia.
      congr n_sub; apply: chain_ext => l; rewrite mem_iota => hl.
      by rewrite ye //; lia.
    * move=> i j hi hj; rewrite -Ht //; have -> // : (k < i < n) = false by lia.
- move=> x' [y [Hy Hb Ht]]; exists y; split=> // i j hi hj.
  rewrite (Hb i j hi hj); by have -> : minn i n = i by lia.
Qed.

Lemma lu_backward_ev x y : repr m nx x y -> (forall i, i < n -> ~~ s_eqb (f i i) (n_zero S)) ->
  wp (lu_backward lud n nx x) (fun x' => exists z, [/\ repr m nx x' z,
    forall i j, i < n -> j < nx ->
      z i j = sdiv (chain (y i j) (rev (iota i.+1 (n - i.+1))) (fun k => z k j) (f i)) (f i i) &
    forall i j, n <= i < m -> j < nx -> z i j = y i j]).
Proof.
move=> Hx nz; rewrite /lu_backward.
apply: (wpe_for_rev (fun k x' => exists z, [/\ repr m nx x' z,
    forall i j, i < n -> j < nx ->
      let c := chain (y i j) (rev (iota (maxn k i.+1) (n - maxn k i.+1))) (fun k => z k j) (f i) in
      z i j = if i < k then c else sdiv c (f i i) &
    forall i j, n <= i < m -> j < nx -> z i j = y i j])) => //.
- exists y; split=> // i j hi hj; rewrite hi /=.
  by have -> : n - maxn n i.+1 = 0 by lia.
- move=> k x1 /= hk [z [Hz Hy Ht]].
  apply: wpe_bind.
  apply: (wpe_for (fun c x => repr m nx x (fun i j =>
     if (i == k) && (j < c) then sdiv (z k j) (f k k) else z i j))) => //.
  + by apply: repr_ext Hz _ => i j _ _; rewrite ltn0 andbF.
  + move=> j x2 /= hj Hx2.
    rewrite (repr_get Hx2) //=; [|by lia].
    rewrite (repr_get Hl) //=; [|by lia].
    rewrite ltnn andbF sdivE ?nz //=.
    apply: (wpe_repr_set Hx2); [by lia|by []|move=> v Hv].
    apply: repr_ext Hv _ => i' j' hi' hj'.
    case: (altP (i' =P k)) => [->|ni] //=; case: (altP (j' =P j)) => [->|nj]; first by rewrite ltnSn.
    by have -> : (j' < j.+1) = (j' < j) by lia.
  move=> x2 Hx2.
  set w := (fun i j => if i == k then sdiv (z k j) (f k k) else z i j).
  have Hw : repr m nx x2 w by apply: repr_ext Hx2 _ => i j hi hj; rewrite hj andbT.
  apply: (wpe_for (fun c x => repr m nx x (fun i j =>
     if i < c then n_sub (w i j) (n_mul (w k j) (f i k)) else w i j))) => //.
  + move=> i x3 /= hi Hx3.
    apply: wpe_mono (lu_elim_ev hk _ _ Hx3); [|by lia|by lia].
    move=> x4 Hx4; apply: repr_ext Hx4 _ => i' j hi' hj.
    rewrite ltnn; have -> : (k < i) = false by lia.
    case: (altP (i' =P i)) => [->|ne]; first by rewrite ltnSn.
    by have -> : (i' < i.+1) = (i' < i) by lia.
  + move=> x3 Hx3; eexists; split; [exact: Hx3| |].
    * move=> i j hi hj /=.
      set z' := (fun k0 => if k0 < k then _ else w k0 j).
      have ze l : k < l -> z' l = z l j.
        by move=> hl; rewrite /z' /w; have -> : (l < k) = false by [lia]; have -> : (l == k) = false by lia.
      have zk : z' k = sdiv (z k j) (f k k) by rewrite /z' ltnn /w eqxx.
      have ce c : k < c -> chain (y i j) (rev (iota c (n - c))) z' (f i) =
                  chain (y i j) (rev (iota c (n - c))) (fun k => z k j) (f i).
        move=> hc; apply: chain_ext => l; rewrite mem_rev mem_iota => hl.
        by rewrite ze //; lia.
      have := Hy i j hi hj; rewrite /=; case: (ltngtP i k) => ik.
      - have -> : maxn k.+1 i.+1 = k.+1 by lia.
        have -> : maxn k i.+1 = k by lia.
        have -> : i < k.+1 by lia.
        have -> : n - k = (n - k.+1).+1 by lia.
        move=> E; rewrite /= rev_cons -cats1 /chain foldl_cat -/(chain _ _ _ _) /= zk.
        rewrite /w; have -> : (i == k) = false by [lia]; rewrite eqxx E; congr n_sub; apply/esym; exact: ce.
      - have -> : maxn k.+1 i.+1 = i.+1 by lia.
        have -> : maxn k i.+1 = i.+1 by lia.
        have -> : (i < k.+1) = false by lia.
        move=> E; rewrite ce; last lia.
        by rewrite /w; have -> : (i == k) = false by lia.
      - subst i; have -> : maxn k.+1 k.+1 = k.+1 by lia.
        have -> : maxn k k.+1 = k.+1 by lia.
        by rewrite ltnSn ?ltnn => E; rewrite ce // /w eqxx E.
    * move=> i j hi hj; have -> : (i < k) = false by lia.
      by rewrite /w; have -> : (i == k) = false by [lia]; rewrite Ht.
Qed.
End Solve.

Lemma lu_copy_rhs_ev k (d : lu_decomp S) (s : 'S_m) (q : nat -> nat) B b xd : piv d = perm_list s -> (forall i : 'I_m, q i = s i) ->
  rep m k B b -> size xd = (m * k)%N ->
  wp (lu_copy_rhs d B k xd) (fun x => repr m k x (fun i j => b (q i) j)).
Proof.
move=> ep eq HB sz.
have szp : size (perm_list s) = m by rewrite size_map size_enum_ord.
rewrite /lu_copy_rhs ep szp.
set G := (fun i j => b _ j); pose Fk q := G (q %/ k)%N (q %% k)%N.
apply: wpe_bind.
apply: (wpe_for (fun i st => pre1 (m * k) (i * k) st.1 Fk /\ st.2 = (i * k)%N)) => //.
- move=> i [x dest] /= hi [Hx ->].
  apply: (wpe_for (fun j st => pre1 (m * k) (i * k + j) st.1 Fk /\ st.2 = (i * k + j)%N)) => //.
  + by rewrite addn0.
  + move=> j [x' dest'] /= hj [Hx' ->].
    have pe : nth 0 (perm_list s) i = q i.
      by rewrite (nth_map (Ordinal hi)) ?size_enum_ord // -[RHS]/(q (Ordinal hi)) eq; congr (val (s _)); apply: val_inj; rewrite /= nth_enum_ord.
    rewrite (vgetE 0%N) ?szp //= /get_data pe (rep_vget HB) //=; last first.
      by rewrite -[i]/(val (Ordinal hi)) eq.
    apply: wpe_bind; apply: (wpe_pre1_set Hx'); [exact: idx_lt|by rewrite /Fk flat_at|].
    by move=> v Hv /=; rewrite addn1 addnS.
  + by case=> x' dest' /= [Hx' ->]; rewrite mulSn addnC.
by case=> x dest /= [Hx _]; apply: pre1_repr.
Qed.

(** square systems *)
Lemma lu_solve_ev k g (d : lu_decomp S) (s : 'S_m) (q : nat -> nat) f B b : m = n -> 0 < m -> 0 < k ->
  rep m n (lu d) f -> piv d = perm_list s -> (forall i : 'I_m, q i = s i) -> rep m k B b ->
  if all (fun j => ~~ s_eqb (f j j) (n_zero S)) (iota 0 n) then
    exists X y z, [/\ lu_solve g d B = Ok (Some X), rep m k X z,
      forall i j, i < m -> j < k -> y i j = chain (b (q i) j) (iota 0 i) (fun l => y l j) (f i) &
      forall i j, i < m -> j < k ->
        z i j = sdiv (chain (y i j) (rev (iota i.+1 (m - i.+1))) (fun l => z l j) (f i)) (f i i)]
  else lu_solve g d B = Ok None.
Proof.
move=> mn m0 k0 Hd Hp Hq HB.
have n0 : 0 < n by lia.
have nm : n <= m by lia.
have E r : lu_is_non_singular d = Ok r -> lu_solve g d B =
   if ~~ r then Ok None else (nx <-- cols B ;;
    xdata <-- lu_copy_rhs d B nx (alloc_dirty_vec g (m * nx)) ;;
    xdata <-- lu_forward (get_data (lu d)) n nx xdata ;;
    xdata <-- lu_backward (get_data (lu d)) n nx xdata ;;
    x <-- new m nx xdata ;;
    Ok (Some x)).
  move=> Er; rewrite /lu_solve (rep_cols Hd) //; cbn [bind].
  by rewrite /rows (rep_no_rows HB) (rep_no_rows Hd) eqxx; cbn [require]; rewrite Er.
rewrite (E _ (lu_is_non_singular_ev Hd m0 n0 nm)).
case: (boolP (all _ _)) => nz //=.
have nz' i : i < n -> ~~ s_eqb (f i i) (n_zero S).
  by move=> hi; move/allP: nz => /(_ i); rewrite mem_iota /=; apply.
suff /wp_ex [r -> [X [y [z [-> H1 H2 H3]]]]] : wp (nx <-- cols B ;;
    xdata <-- lu_copy_rhs d B nx (alloc_dirty_vec g (m * nx)) ;;
    xdata <-- lu_forward (get_data (lu d)) n nx xdata ;;
    xdata <-- lu_backward (get_data (lu d)) n nx xdata ;;
    x <-- new m nx xdata ;;
    Ok (Some x)) (fun r => exists X y z, [/\ r = Some X, rep m k X z,
      forall i j, i < m -> j < k -> y i j = chain (b (q i) j) (iota 0 i) (fun l => y l j) (f i) &
      forall i j, i < m -> j < k ->
        z i j = sdiv (chain (y i j) (rev (iota i.+1 (m - i.+1))) (fun l => z l j) (f i)) (f i i)]).
  by exists X, y, z.
rewrite (rep_cols HB) //; cbn [bind].
apply: wpe_bind; apply: wpe_mono (lu_copy_rhs_ev Hp Hq HB (size_alloc (T:=S) g (m * k))).
move=> x1 H1; case: (Hd) => _ Hl.
apply: wpe_bind; apply: wpe_mono (lu_forward_ev Hl nm H1).
move=> x2 [y [H2 Hy _]].
apply: wpe_bind; apply: wpe_mono (lu_backward_ev Hl nm H2 nz').
move=> x3 [z [H3 Hz _]].
apply: wpe_bind; apply: wpe_mono (new_rep m0 k0 H3) => X HX.
exists X, y, z; split=> //; first by move=> i j hi; apply: Hy; lia.
by move=> i j hi hj; rewrite [in LHS]Hz //; [rewrite mn|lia].
Qed.

End LU.
