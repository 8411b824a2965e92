(** * OpsThms: C16, every program over matrix variables behaves as its abstract
    meaning (restated in PropOps.v). *)
From mathcomp Require Import all_ssreflect all_algebra zify.
From Verif Require Import Base Scalar Hoare ModelMatrix Spec SpecOps MatrixProofs MatrixProofs2 MtProofs MatrixThms.

Set Implicit Arguments.
Unset Strict Implicit.
Unset Printing Implicit Defensive.

Section Refine.
Variable N : numops.
Hypothesis div_panics : forall (x y : N) e, n_div x y = Err e -> e = Panic.

Lemma holdsP (M : mat N) a : holds M a <-> [/\ 0 < am a, 0 < an a & rep (am a) (an a) M (af a)].
Proof.
split.
  case=> -[m0 n0 rM cM sM] H; split=> //; split=> //; split=> // i j hi hj.
  by have := H i j; rewrite hi hj /get; rewrite -[no_rows M]/(rows M) rM hi cM /= hj.
case=> m0 n0 H; split; last by move=> i j; rewrite (rep_get _ _ H).
by split=> //; [apply: rep_no_rows H | rewrite (rep_cols H) | apply: rep_size H].
Qed.

(** one call refines its abstract outcome *)
Definition refines (s : store N) (a : astore N) (r : res (store N)) (o : outcome N) : Prop :=
  match o with
  | Assign d v => exists2 s', r = Ok s' & holds_all s' (update a d v)
  | Panics => r = Err Panic
  | Empty => True
  end.

Lemma refine_mk s a (c : res (mat N)) d m n f :
  holds_all s a ->
  (0 < m -> 0 < n -> wp c (fun M => rep m n M f)) ->
  refines s a (bind c (fun M => Ok (update s d M))) (mk d m n f).
Proof.
move=> H Hc; rewrite /mk; case: (boolP (_ && _)) => // /andP[m0 n0] /=.
have /wp_ex [M -> HM] := Hc m0 n0; eexists; first by [].
move=> k; rewrite /update; case: eqP => // _; exact/holdsP.
Qed.

Lemma foldl_dot (f g : nat -> N) n :
  dot f g n = foldl (fun s k => n_add s (n_mul (f k) (g k))) (n_zero N) (iota 0 n).
Proof. by []. Qed.

Lemma call_refines g s a c : holds_all s a -> refines s a (call_c g s c) (call_a a c).
Proof.
move=> H.
have R x : [/\ 0 < am (a x), 0 < an (a x) & rep (am (a x)) (an (a x)) (s x) (af (a x))] by apply/holdsP.
have zip d x y h : refines s a (bind (pointwise2 g (fun u v => Ok (h u v)) (s x) (s y)) (fun M => Ok (update s d M)))
                    (zipa d h (a x) (a y)).
  have [mx nx Hx] := R x; have [my ny Hy] := R y; rewrite /zipa; case: (boolP (_ && _)) => [/andP[/eqP em /eqP en]|ne].
    rewrite -em -en in Hy; apply: refine_mk => // _ _; exact: (rep_pointwise2 g (k := h) Hx Hy mx).
  by rewrite (pointwise2_panic _ _ Hx Hy).
have dv d x y : refines s a (bind (pointwise2 g (fun u v => n_div u v) (s x) (s y)) (fun M => Ok (update s d M)))
                    (diva d (a x) (a y)).
  have [mx nx Hx] := R x; have [my ny Hy] := R y; rewrite /diva; case: (boolP (_ && _)) => [/andP[/eqP em /eqP en]|ne]; last first.
    by rewrite (pointwise2_panic _ _ Hx Hy).
  rewrite -em -en in Hy; case: ifP => [/hasP[i]|/negbT nf].
    rewrite mem_iota => /andP[_ hi] /hasP[j]; rewrite mem_iota => /andP[_ hj].
    rewrite /div_fails; case E: (n_div _ _) => [|e] // _; have ? := div_panics E; subst e.
    rewrite (pointwise2_err g (i0 := i) (j0 := j) Hx Hy _ _ E) //.
    by move=> i' j' e' _ _ /div_panics.
  apply: refine_mk => // _ _; apply: (rep_pointwise2 g (k := @div_or N) Hx Hy mx) => i j hi hj.
  rewrite /div_or; case E: (n_div _ _) => [//|e]; case/negP: nf; apply/hasP; exists i; first by rewrite mem_iota.
  by apply/hasP; exists j; [rewrite mem_iota | rewrite /div_fails E].
have mu d x y (c' : res (mat N)) : c' = mul g (s x) (s y) ->
    refines s a (bind c' (fun M => Ok (update s d M))) (mula d (a x) (a y)).
  move=> ->; have [mx nx Hx] := R x; have [my ny Hy] := R y; rewrite /mula; case: eqP => [e|/eqP ne].
    by rewrite -e in Hy; apply: refine_mk => // _ _; apply: rep_mul Hx Hy mx nx.
  by rewrite (mul_panic _ Hx Hy).
have ip x y h : mpointwise2 h (s x) (s y) = pointwise2 g h (s x) (s y).
  have [_ _ Hx] := R x; have [_ _ Hy] := R y; exact: pointwise2_inplace Hx Hy.
case: c => /=.
- move=> x i j v; have [mx nx Hx] := R x; case: ifP => [/andP[hi hj]|/negbT h]; last by rewrite (rep_set_oob _ Hx).
  apply: refine_mk => // _ _; apply/wp_ex; have [M' -> H'] := rep_set v Hx hi hj; by exists M'.
- by move=> x f; apply: refine_mk => // _ _; apply: rep_mmap; have [] := R x.
- by move=> x; apply: refine_mk => // _ _; apply: rep_mpointwise1; have [] := R x.
- by move=> x k; apply: refine_mk => // _ _; apply: (rep_mpointwise1 (n_mul k)); have [] := R x.
- by move=> x y; rewrite /madd ip; apply: (zip x x y (fun u v => n_add u v)).
- by move=> x y; rewrite /msub ip; apply: (zip x x y (fun u v => n_sub u v)).
- by move=> x y; rewrite /melem_mul ip; apply: (zip x x y (fun u v => n_mul u v)).
- by move=> x y; rewrite /melem_div ip; apply: dv.
- by move=> x y; apply: mu.
- move=> x; apply: refine_mk => // _ _; have [mx nx Hx] := R x; exact: rep_mt.
- move=> d x; eexists; first by []. 
  by move=> k; rewrite /update; case: eqP.
- move=> d r c v; case: ifP => h; last by rewrite new_panics_L ?h.
  case/and3P: h => /eqP e r0 c0; apply: refine_mk => // _ _; apply: new_rep => //.
  by apply: repr_nth; rewrite e.
- move=> d [|v0 v] //; apply: refine_mk => // _ _; rewrite /vector /=; split=> //.
  by split; rewrite ?muln1 // => i [|//] hi _; rewrite muln1 addn0 (vgetE (n_zero N)).
- move=> d [|v0 v] //; apply: refine_mk => // _ _; rewrite /row_vector /=; split=> //.
  by split; rewrite ?mul1n // => -[|//] j _ hj; rewrite mul0n add0n (vgetE (n_zero N)).
- by move=> d r c; apply: refine_mk => // _ _; apply: rep_id.
- by move=> d r c; apply: refine_mk => // _ _; apply: rep_zero.
- by move=> d [|v0 v] //; apply: refine_mk => // _ _; apply: rep_diag.
- move=> d r c v; case: ifP => h.
    by case/and3P: h => /eqP e r0 c0; apply: refine_mk => // _ _; apply: rep_block_diag.
  case: (eqVneq (size v) (minn r c)) h => [e|ne] h; last by rewrite block_diag_panic.
  rewrite /block_diag e eqxx [require _ _]/= fill_eq ?size_alloc //; cbn [bind].
  set b := bind _ _; suff : wpe panicerr b (fun _ => False) by move/panicP => ->.
  rewrite /b; apply: wpe_bind.
  have := @diag_loop N r c (minn r c) (nth (n_zero N) v) (nseq (r * c) (n_zero N)) (fun _ _ => n_zero N)
            (fun i d => bind (vget v i) (fun x => vset d (i * c + i) x)) (leqnn _).
  case/(_ _ _)/wp_ex.
  + by move=> i d' hi; rewrite (vgetE (n_zero N)) ?e.
  + exact: repr_nseq.
  move=> d' -> _ /=; rewrite /new; case: (_ == size d') => //=.
  by move: h; rewrite /= => ->.
- by move=> d x f; apply: refine_mk => // _ _; apply: rep_map; have [] := R x.
- move=> d x v f; have [mx nx Hx] := R x; case: eqP => [e|/eqP ne]; last by rewrite (reduce_panic _ Hx).
  by apply: refine_mk => // _ _; apply: rep_reduce.
- by move=> d x; apply: refine_mk => // _ _; apply: rep_pointwise1; have [] := R x.
- by move=> d x k; apply: refine_mk => // _ _; apply: (rep_pointwise1 g (n_mul k)); have [] := R x.
- by move=> d x y; apply: (zip d x y (fun u v => n_add u v)).
- by move=> d x y; apply: (zip d x y (fun u v => n_sub u v)).
- by move=> d x y; apply: (zip d x y (fun u v => n_mul u v)).
- by move=> d x y; apply: dv.
- by move=> d x y; apply: mu.
- by move=> d x; apply: refine_mk => // _ _; have [mx nx Hx] := R x; apply: rep_t.
- move=> d x y; have [mx nx Hx] := R x; have [my ny Hy] := R y; case: eqP => [e|/eqP ne]; last by rewrite (cr_panic _ Hx Hy).
  by rewrite -e in Hy; apply: refine_mk => // _ _; apply: rep_cr.
- move=> d x y; have [mx nx Hx] := R x; have [my ny Hy] := R y; case: eqP => [e|/eqP ne]; last by rewrite (cb_panic _ Hx Hy).
  by rewrite -e in Hy; apply: refine_mk => // _ _; apply: rep_cb.
- move=> d x r c; have [mx nx Hx] := R x; case: ifP => [/and4P[h1 h2 h3 h4]|/negbT h]; last by rewrite (minor_panic _ Hx).
  apply: refine_mk => // _ _; apply: wpe_mono (rep_minor g Hx h1 h2 h3 h4) => M HM.
  apply: rep_ext HM _ => i j hi hj; rewrite /bump; have b h k : (h <= k) + k = if k < h then k else k.+1 by case: leqP.
  by rewrite !b.
- move=> d x c; have [mx nx Hx] := R x; case: ltnP => h; last by rewrite (get_column_panic _ Hx).
  by apply: refine_mk => // _ _; apply: rep_get_column Hx mx h.
- move=> d x ks; have [mx nx Hx] := R x; case: ifP => [h|/negbT h]; last by rewrite (permute_rows_panic _ Hx).
  by apply: refine_mk => // _ _; apply: rep_permute_rows Hx mx h.
- move=> d x ks; have [mx nx Hx] := R x; case: ifP => [h|/negbT h]; last by rewrite (permute_columns_panic _ Hx).
  by apply: refine_mk => // _ _; apply: rep_permute_columns Hx mx h.
- by move=> d x p; have [mx nx Hx] := R x; apply: refine_mk => // _ _; apply: (rep_filter_rows g (fun _ => p) Hx mx).
- by move=> d x p; have [mx nx Hx] := R x; apply: refine_mk => // _ _; apply: (rep_filter_columns g (fun _ => p) Hx mx).
- move=> d x sel; have [mx nx Hx] := R x; case: eqP => [e|/eqP ne]; last by rewrite (select_rows_panic _ Hx).
  by apply: refine_mk => // _ _; apply: rep_select_rows Hx mx e.
- move=> d x sel; have [mx nx Hx] := R x; case: eqP => [e|/eqP ne]; last by rewrite (select_columns_panic _ Hx).
  by apply: refine_mk => // _ _; apply: rep_select_columns Hx mx e.
Qed.
End Refine.

(*@section C16 programs over matrix variables @*)
(*@doc C16: any program, started in variables that hold constructed matrices, finishes exactly when its abstract
    meaning does, and then every variable again holds the abstract value (shape, data length and every element);
    it panics exactly when the abstract meaning panics.  The only excluded programs are those in which some call
    produces a matrix without rows or columns.  The element type is arbitrary; its division may only fail by a
    panic. *)
Lemma program_refines_L : forall (N : numops) (gs : nat -> nat -> N) (cs : seq (call N)) (s : store N) (a : astore N),
  (forall (x y : N) e, n_div x y = Err e -> e = Panic) ->
  holds_all s a ->
  match run_a a cs with
  | Finished a' => exists2 s', run_c gs s cs = Ok s' & holds_all s' a'
  | Panicked => run_c gs s cs = Err Panic
  | LeftDomain => True
  end.
Proof.
move=> N gs cs s a dp; elim: cs gs s a => [|c cs IH] gs s a H /=; first by exists s.
have := call_refines dp (gs 0) c H; rewrite /refines; case: (call_a a c) => [d v||] //=.
  by case=> s' -> H' /=; apply: IH.
by move=> ->.
Qed.

(*@doc C16: the shape invariant: whatever prefix of a program has run, each variable has data of length rows * cols, both positive. *)
Lemma program_invariant_L : forall (N : numops) (gs : nat -> nat -> N) (cs : seq (call N)) (s s' : store N) (a : astore N),
  (forall (x y : N) e, n_div x y = Err e -> e = Panic) ->
  holds_all s a -> run_a a cs <> LeftDomain N -> run_c gs s cs = Ok s' ->
  forall k, exists n, [/\ cols (s' k) = Ok n, 0 < rows (s' k), 0 < n & size (get_data (s' k)) = rows (s' k) * n].
Proof.
move=> N gs cs s s' a dp H nl e k; have := program_refines_L gs cs dp H.
case: (run_a a cs) nl => [a'||] // _; last by rewrite e.
rewrite e => -[s2 [<-]] /(_ k) [[m0 n0 r0 c0 sz] _]; exists (an (a' k)); split=> //; rewrite ?r0 //; by rewrite sz.
Qed.

(*@doc C16: what the constructors return can be used as an initial variable. *)
Lemma constructed_holds_L : forall (N : numops) m n (A : 'M[N]_(m.+1, n.+1)),
  holds (mat_of A) (AMat m.+1 n.+1 (fun i j => nth (n_zero N) (get_data (mat_of A)) (i * n.+1 + j))).
Proof.
move=> N m n A; apply/holdsP; split=> //=; split=> //; apply: repr_nth; exact: size_mat_of.
Qed.

(*@example
(** Hypotheses are met: integer division only fails by a panic, every
    variable initially holds the 1 x 2 matrix (2 3), and this program
    finishes; running it gives X1 = X0^T (2 x 1), X2 = X1 * X0 (2 x 2),
    X2 := X2 + X2, and the element (1, 0) of X2 is 12. *)
Lemma int_div_panics (x y : int_num) e : n_div x y = Err e -> e = Panic.
Proof. by rewrite /=; case: eqP => // _ [<-]. Qed.
Definition ops_A : mat int_num := mat_of (\matrix_(i < 1, j < 2) (2 + j : int))%R.
Definition ops_prog : seq (call int_num) := [:: CT _ 1 0; CMul _ 2 1 0; CMadd _ 2 2].
Example program_hyps : holds_all (fun _ => ops_A) (fun _ => AMat 1 2 (fun i j => nth (n_zero int_num) (get_data ops_A) (i * 2 + j))) /\
  exists a', run_a (fun _ => AMat 1 2 (fun i j => nth (n_zero int_num) (get_data ops_A) (i * 2 + j))) ops_prog = Finished a'.
Proof. by split; [move=> k; exact: constructed_holds_L | eexists]. Qed.
@*)
