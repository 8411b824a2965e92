(** * CholEval: the order of evaluation of cholesky.rs, for every scalar whose
    division and square root never fail (f32, f64). *)
From mathcomp Require Import all_ssreflect all_algebra zify.
From Verif Require Import Base Scalar Hoare ModelMatrix ModelCholesky Spec MatrixProofs MatrixProofs2 LUProofs LUEval.

Set Implicit Arguments.
Unset Strict Implicit.
Unset Printing Implicit Defensive.

Section CholEval.
Variable S : scalar.
Variables (sdiv : S -> S -> S) (sq : S -> S).
Hypothesis sdivE : forall x y, n_div x y = Ok (sdiv x y).
Hypothesis sqE : forall x, s_sqrt x = Ok (sq x).

Section New.
Variables (n : nat) (M : mat S) (a : nat -> nat -> S).
Hypothesis HM : rep n n M a.

(** a_jk - (0 + l_k0 l_j0 + l_k1 l_j1 + ...) *)
Definition ch_num (f : nat -> nat -> S) (j k : nat) : S := n_sub (a j k) (sdot k (f k) (f j)).
(** element (j, k) of the factor *)
Definition ch_entry (f : nat -> nat -> S) (j k : nat) : S :=
  if k < j then sdiv (ch_num f j k) (f k k) else if k == j then sq (ch_num f j j) else n_zero S.

Definition ch_rows (j : nat) (f : nat -> nat -> S) : Prop :=
  [/\ forall i k, i < j -> k < n -> f i k = ch_entry f i k,
      forall i, i < j -> ~~ s_leb (ch_num f i i) (n_zero S) &
      forall i k, k < i < j -> s_eqb (a k i) (a i k)].
Definition ch_part (j c : nat) (f : nat -> nat -> S) : Prop :=
  ch_rows j f /\ forall k, k < c -> f j k = ch_entry f j k /\ s_eqb (a k j) (a j k).

Lemma ch_num_ext f f' j k : (forall l, l < k -> f k l = f' k l) -> (forall l, l < k -> f j l = f' j l) ->
  ch_num f j k = ch_num f' j k.
Proof. by move=> h1 h2; congr n_sub; apply: sdot_ext. Qed.

Lemma ch_entry_ext f f' j k : k <= j -> (forall l, l < k -> f k l = f' k l) -> (forall l, l < k -> f j l = f' j l) ->
  (k < j -> f k k = f' k k) -> ch_entry f j k = ch_entry f' j k.
Proof.
move=> kj h1 h2 h3; rewrite /ch_entry; case: ltnP => lt; first by rewrite (ch_num_ext h1 h2) h3.
by have -> : j = k by [lia]; rewrite eqxx (ch_num_ext h1 h1).
Qed.

Lemma ch_rows_ext j f f' : j <= n -> (forall i k, i < j -> k < n -> f i k = f' i k) -> ch_rows j f -> ch_rows j f'.
Proof.
move=> jn h [H1 H2 H3]; split=> //.
- move=> i k hi hk; rewrite -h // H1 //; case: (leqP k i) => ki.
    by apply: ch_entry_ext => // *; apply: h; lia.
  by rewrite /ch_entry; case: ltnP => [|_]; [lia|]; case: eqP => //; lia.
- move=> i hi; rewrite -(@ch_num_ext f) => [|l hl|l hl]; [exact: H2|apply: h; lia|apply: h; lia].
Qed.

Lemma chol_row_ev j dat f : j < n -> repr n n dat f -> ch_rows j f ->
  wp (chol_row n j M (dat, n_zero S)) (fun c => match c with
    | Next (dat', d) => exists f', [/\ repr n n dat' f', ch_part j j f' & d = sdot j (f' j) (f' j)]
    | Stop _ => exists2 k, k < j & ~~ s_eqb (a k j) (a j k) end).
Proof.
move=> jn Hd Hr; rewrite /chol_row.
apply: (wpe_forc (fun k st => exists f', [/\ repr n n st.1 f', ch_part j k f' &
     st.2 = sdot k (f' j) (f' j)]) (fun _ => exists2 k, k < j & ~~ s_eqb (a k j) (a j k))) => //.
- by exists f.
- move=> k [d1 s1] /= hk [f1 [Hf1 [Hr1 Hp1] ->]].
  rewrite (for_foldl_nat (h := fun s i => n_add s (n_mul (f1 k i) (f1 j i)))); last first.
    move=> i s hi; rewrite (repr_get Hf1) //=; [|by lia|by lia].
    by rewrite (repr_get Hf1) //=; lia.
  rewrite subn0 -/(sdot k (f1 k) (f1 j)); cbn [bind].
  rewrite (rep_get _ _ HM) jn; have kn : k < n by lia.
  rewrite kn; cbn [bind andb].
  rewrite (repr_get Hf1) //; cbn [bind].
  rewrite sdivE; cbn [bind].
  set x := sdiv _ _.
  apply: wpe_bind; apply: (wpe_repr_set Hf1) => // v Hv.
  rewrite (rep_get _ _ HM) jn kn; cbn [bind andb].
  set f2 := (fun i' j' => if _ && _ then x else _) in Hv.
  have f2E i l : i < j -> f2 i l = f1 i l by rewrite /f2 => h; have -> : (i == j) = false by lia.
  have f2j l : l < k -> f2 j l = f1 j l.
    by rewrite /f2 => h; have -> : (l == k) = false by [lia]; rewrite andbF.
  have f2k : f2 j k = x by rewrite /f2 !eqxx.
  case: (boolP (s_eqb (a k j) (a j k))) => [sym|asym]; last by apply: wpe_ok; exists k.
  apply: wpe_ok; exists f2; split=> //.
  + split; first by apply: ch_rows_ext Hr1; [lia|move=> i l hi _; rewrite f2E].
    move=> l; rewrite ltnS leq_eqVlt => /orP[/eqP->|lt].
      split=> //; rewrite f2k /ch_entry hk f2E // /x; congr sdiv.
      by apply: (@ch_num_ext f1) => i hi; [rewrite f2E | rewrite f2j].
    have [e1 e2] := Hp1 l lt; split=> //; rewrite f2j // e1.
    apply: ch_entry_ext; first by lia.
    * by move=> i hi; rewrite f2E //; lia.
    * by move=> i hi; rewrite f2j //; lia.
    * by move=> lj; rewrite f2E.
  + rewrite [LHS]/= [RHS]/sdot -(addn1 k) iotaD foldl_cat /= add0n f2k; congr n_add.
    by apply: sdot_ext => l hl; rewrite f2j.
- by case=> d1 s1 /= [f1 H1]; exists f1.
Qed.

(** the reasons for which the decomposition is refused *)
Definition ch_fail : Prop :=
  (exists i k, [/\ k < i, i < n & ~~ s_eqb (a k i) (a i k)]) \/
  (exists j f, [/\ j < n, ch_part j j f & s_leb (ch_num f j j) (n_zero S)]).

Lemma chol_step_ev j dat f : j < n -> repr n n dat f -> ch_rows j f ->
  wp (chol_step n M j dat) (fun c => match c with
    | Next dat' => exists2 f', repr n n dat' f' & ch_rows j.+1 f'
    | Stop _ => ch_fail end).
Proof.
move=> jn Hd Hr; rewrite /chol_step.
apply: wpe_bind; apply: wpe_mono (chol_row_ev jn Hd Hr) => -[[d1 s1] [f1 [Hf1 [Hr1 Hp1] ->]]|_ [k kj asym]]; last first.
  by apply: wpe_ok; left; exists j, k.
rewrite (rep_get _ _ HM) jn; cbn [bind andb].
rewrite -/(ch_num f1 j j); set x := ch_num f1 j j.
case: (boolP (s_leb x _)) => hle.
  by apply: wpe_ok; right; exists j, f1.
rewrite sqE; cbn [bind].
apply: wpe_bind; apply: (wpe_repr_set Hf1) => // v Hv.
apply: wpe_bind.
apply: (wpe_for (fun c d => repr n n d (fun i k => if (i == j) && (j < k < c) then n_zero S else
    if (i == j) && (k == j) then sq x else f1 i k))).
- by rewrite addn1.
- apply: repr_ext Hv _ => i k hi hk; case: ifP => //; case: ifP => //; lia.
- move=> k d2 hk Hd2; apply: (wpe_repr_set Hd2) => //; first by lia.
  move=> v' Hv'; apply: repr_ext Hv' _ => i k' hi hk'.
  case: (altP (i =P j)) => //= _; case: (altP (k' =P k)) => [->|ne].
    by have -> : j < k < k.+1 by lia.
  by have -> : (j < k' < k.+1) = (j < k' < k) by lia.
move=> d2 Hd2; apply: wpe_ok; exists (fun i k => if (i == j) && (j < k < n) then n_zero S else
    if (i == j) && (k == j) then sq x else f1 i k) => //.
set f2 := (fun i k => _).
have f2E i l : i < j -> f2 i l = f1 i l by rewrite /f2 => h; have -> : (i == j) = false by lia.
have f2j l : l < j -> f2 j l = f1 j l.
  rewrite /f2 => h; have -> : (j < l < n) = false by lia.
  by have -> : (l == j) = false by [lia]; rewrite !andbF.
have f2d : f2 j j = sq x by rewrite /f2 ltnn !andbF eqxx.
have [Ha Hpos Hs] : ch_rows j f2 by apply: ch_rows_ext Hr1; [lia|move=> i l hi _; rewrite f2E].
have xE : ch_num f2 j j = x by apply: ch_num_ext => l hl; rewrite f2j.
split.
- move=> i k; rewrite ltnS leq_eqVlt => /orP[/eqP->|lt] hk; last exact: Ha.
  case: (ltngtP k j) => kj.
  + have [e _] := Hp1 k kj; rewrite f2j // e; apply: ch_entry_ext; first exact: ltnW.
    * by move=> l hl; rewrite f2E.
    * by move=> l hl; rewrite f2j //; lia.
    * by move=> lj; rewrite f2E.
  + by rewrite /ch_entry ltnNge (ltnW kj) /= gtn_eqF // /f2 eqxx kj hk.
  + by rewrite kj f2d /ch_entry ltnn eqxx xE.
- move=> i; rewrite ltnS leq_eqVlt => /orP[/eqP->|lt]; last exact: Hpos.
  by rewrite xE.
- move=> i k /andP[ki]; rewrite ltnS leq_eqVlt => /orP[/eqP e|lt]; last by apply: Hs; rewrite ki.
  by rewrite e in ki *; have [] := Hp1 k ki.
Qed.

Lemma chol_new_ev g : 0 < n ->
  wp (chol_new g M) (fun r => match r with
    | Some L => exists2 f, rep n n L f & ch_rows n f
    | None => ch_fail end).
Proof.
move=> n0; rewrite /chol_new (rep_cols HM) //; cbn [bind]; rewrite /rows (rep_no_rows HM) eqxx.
cbn [negb]; apply: wpe_bind.
apply: (wpe_forc (fun j d => exists2 f, repr n n d f & ch_rows j f) (fun _ => ch_fail)) => //.
- exists (fun i k => nth (n_zero S) (alloc_dirty_vec g (n * n)) (i * n + k)).
    by apply: repr_nth; rewrite size_alloc.
  by split=> // i k; rewrite ltn0 andbF.
- by move=> j d hj [f Hd Hr]; apply: chol_step_ev Hd Hr.
move=> d [f Hd Hr]; apply: wpe_bind; apply: wpe_mono (new_rep n0 n0 Hd) => L HL.
by apply: wpe_ok; exists f.
Qed.
End New.

(** ** Triangular solves with L and its transpose *)
Section Solve.
Variables (n nx : nat) (ld : seq S) (f : nat -> nat -> S).
Hypothesis Hl : repr n n ld f.

Lemma chol_cell_ev (lo hi k j : nat) (c : nat -> S) x y (body : nat -> seq S -> res (seq S)) :
  k < n -> j < nx -> lo <= hi <= n -> (hi <= k) || (k < lo) -> repr n nx x y ->
  (forall i x, lo <= i < hi -> body i x = (
          xk <-- vget x (k * nx + j) ;;
          xi <-- vget x (i * nx + j) ;;
          vset x (k * nx + j) (n_sub xk (n_mul xi (c i))))) ->
  wp (xdata <-- for_ lo hi body x ;;
      xk <-- vget xdata (k * nx + j) ;;
      l <-- vget ld (k * n + k) ;;
      q <-- n_div xk l ;;
      vset xdata (k * nx + j) q)
   (fun x' => repr n nx x' (fun i' j' => if (i' == k) && (j' == j) then
        sdiv (chain (y k j) (iota lo (hi - lo)) (fun l => y l j) c) (f k k) else y i' j')).
Proof.
move=> kn jn hlh hk Hx Hb.
apply: wpe_bind.
apply: (wpe_for (fun i x' => repr n nx x' (fun i' j' => if (i' == k) && (j' == j) then
        chain (y k j) (iota lo (i - lo)) (fun l => y l j) c else y i' j'))); first by lia.
- apply: repr_ext Hx _ => i' j' _ _; rewrite subnn.
  by case: ifP => // /andP[/eqP -> /eqP ->].
- move=> i x1 hi' Hx1; rewrite Hb // (repr_get Hx1) //; cbn [bind].
  rewrite (repr_get Hx1) //; [|by lia]; cbn [bind].
  rewrite !eqxx; cbn [andb]; have -> : (i == k) = false by lia.
  cbn [andb]; apply: (wpe_repr_set Hx1) => // v Hv; apply: repr_ext Hv _ => i' j' hi1 hj1.
  have -> : i.+1 - lo = (i - lo) + 1 by lia.
  rewrite iotaD /chain foldl_cat /=; have -> : lo + (i - lo) = i by lia.
  by case: (i' == k) => //=; case: (j' == j).
move=> x1 Hx1; rewrite (repr_get Hx1) //; cbn [bind].
rewrite (repr_get Hl) //; cbn [bind].
rewrite !eqxx sdivE; cbn [bind andb].
by apply: (wpe_repr_set Hx1) => // v Hv; apply: repr_ext Hv _ => i' j' _ _; case: (i' == k) => //=; case: (j' == j).
Qed.

Lemma chol_forward_ev x b : repr n nx x b ->
  wp (chol_forward ld n nx x) (fun x' => exists2 y, repr n nx x' y &
    forall i j, i < n -> j < nx -> y i j = sdiv (chain (b i j) (iota 0 i) (fun l => y l j) (f i)) (f i i)).
Proof.
move=> Hx; rewrite /chol_forward.
apply: (wpe_for (fun k x' => exists y, [/\ repr n nx x' y,
    forall i j, i < k -> j < nx -> y i j = sdiv (chain (b i j) (iota 0 i) (fun l => y l j) (f i)) (f i i) &
    forall i j, k <= i < n -> j < nx -> y i j = b i j])) => //.
- by exists b.
- move=> k x1 /= hk [y [Hy Hb Ht]].
  apply: (wpe_for (fun c x => repr n nx x (fun i j => if (i == k) && (j < c) then
       sdiv (chain (y k j) (iota 0 k) (fun l => y l j) (f k)) (f k k) else y i j))) => //.
  + by apply: repr_ext Hy _ => i j _ _; rewrite ltn0 andbF.
  + move=> j x2 /= hj Hx2.
    apply: wpe_mono; last first.
      apply: (@chol_cell_ev 0 k k j (fun i => f k i) x2 _ _ hk hj _ _ Hx2) => //; first by rewrite (ltnW hk).
        by rewrite leqnn.
      by move=> i x3 hi; rewrite (repr_get Hl) //; lia.
    move=> x3 Hx3; apply: repr_ext Hx3 _ => i j' hi hj'.
    case: (altP (i =P k)) => //= _; case: (altP (j' =P j)) => [->|ne] /=; last first.
      by have -> : (j' < j.+1) = (j' < j) by lia.
    rewrite ltnSn ltnn !andbF subn0; congr sdiv; apply: chain_ext => l hl.
    by rewrite ?ltnn ?andbF.
  + move=> x2 Hx2; eexists; split; [exact: Hx2| |].
    * move=> i j; rewrite ltnS leq_eqVlt => /orP[/eqP ->|lt] hj.
        rewrite eqxx hj /= Ht ?leqnn //; congr sdiv; apply: chain_ext => l; rewrite mem_iota => hl.
        by have -> : (l == k) = false by lia.
      have -> /= : (i == k) = false by lia.
      rewrite (Hb i j lt hj); congr sdiv; apply: chain_ext => l; rewrite mem_iota => hl.
      by have -> : (l == k) = false by lia.
    * move=> i j hi hj; have -> /= : (i == k) = false by lia.
      by apply: Ht => //; lia.
- by move=> x1 [y [Hy Hb _]]; exists y.
Qed.

Lemma chol_backward_ev x y : repr n nx x y ->
  wp (chol_backward ld n nx x) (fun x' => exists2 z, repr n nx x' z &
    forall i j, i < n -> j < nx ->
      z i j = sdiv (chain (y i j) (iota i.+1 (n - i.+1)) (fun l => z l j) (fun l => f l i)) (f i i)).
Proof.
move=> Hx; rewrite /chol_backward.
apply: (wpe_for_rev (fun k x' => exists z, [/\ repr n nx x' z,
    forall i j, k <= i < n -> j < nx ->
      z i j = sdiv (chain (y i j) (iota i.+1 (n - i.+1)) (fun l => z l j) (fun l => f l i)) (f i i) &
    forall i j, i < k -> j < nx -> z i j = y i j])) => //.
- by exists y; split=> // i j hi hj; lia.
- move=> k x1 /= hk [z [Hz Hy Ht]].
  apply: (wpe_for (fun c x => repr n nx x (fun i j => if (i == k) && (j < c) then
       sdiv (chain (z k j) (iota k.+1 (n - k.+1)) (fun l => z l j) (fun l => f l k)) (f k k) else z i j))) => //.
  + by apply: repr_ext Hz _ => i j _ _; rewrite ltn0 andbF.
  + move=> j x2 /= hj Hx2; rewrite addn1.
    apply: wpe_mono; last first.
      apply: (@chol_cell_ev k.+1 n k j (fun i => f i k) x2 _ _ hk hj _ _ Hx2) => //; first by rewrite hk /=.
        by rewrite ltnSn orbT.
      by move=> i x3 hi; rewrite (repr_get Hl) //; lia.
    move=> x3 Hx3; apply: repr_ext Hx3 _ => i j' hi hj'.
    case: (altP (i =P k)) => //= _; case: (altP (j' =P j)) => [->|ne] /=; last first.
      by have -> : (j' < j.+1) = (j' < j) by lia.
    rewrite ltnSn ltnn !andbF; congr sdiv; apply: chain_ext => l hl.
    by rewrite ?ltnn ?andbF.
  + move=> x2 Hx2; eexists; split; [exact: Hx2| |].
    * move=> i j hi hj; case: (altP (i =P k)) => [->|ne].
        rewrite eqxx hj /= Ht //; congr sdiv; apply: chain_ext => l; rewrite mem_iota => hl.
        by have -> : (l == k) = false by lia.
      have -> /= : (i == k) = false by lia.
      rewrite (Hy i j) //; last by lia.
      congr sdiv; apply: chain_ext => l; rewrite mem_iota => hl.
      by have -> : (l == k) = false by lia.
    * move=> i j hi hj; have -> /= : (i == k) = false by lia.
      by apply: Ht => //; lia.
- by move=> x1 [z [Hz Hb _]]; exists z.
Qed.
End Solve.

Lemma chol_solve_ev n nx L f B b : 0 < n -> 0 < nx -> rep n n L f -> rep n nx B b ->
  exists X y z, [/\ chol_solve L B = Ok X, rep n nx X z,
    forall i j, i < n -> j < nx -> y i j = sdiv (chain (b i j) (iota 0 i) (fun l => y l j) (f i)) (f i i) &
    forall i j, i < n -> j < nx ->
      z i j = sdiv (chain (y i j) (iota i.+1 (n - i.+1)) (fun l => z l j) (fun l => f l i)) (f i i)].
Proof.
move=> n0 x0 HL HB; rewrite /chol_solve /rows (rep_no_rows HL) (rep_no_rows HB) eqxx; cbn [require].
rewrite (rep_cols HB) //; cbn [bind].
have /wp_ex [x1 e1 [y Hy Ey]] := chol_forward_ev HL.2 HB.2.
rewrite e1; cbn [bind].
have /wp_ex [x2 e2 [z Hz Ez]] := chol_backward_ev HL.2 Hy.
rewrite e2; cbn [bind].
have /wp_ex [X eX HX] := new_rep n0 x0 Hz.
by exists X, y, z.
Qed.
End CholEval.
