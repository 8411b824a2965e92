(** * FloatNanThms: what NaN and infinite elements do to the results in f64 (C65) *)
From Coq Require Import ZArith Reals Lra Psatz.
From Flocq Require Import Core BinarySingleNaN.
From mathcomp Require Import all_ssreflect all_algebra zify.
From mathcomp Require Import fingroup perm.
From Verif Require Import Base Scalar Hoare ModelMatrix ModelLU Spec MatrixThms MiscThms LUProofs LUEval MatrixProofs MatrixProofs2 B64 SpecFloat64 FloatBase FloatThms FloatMoreThms FloatLU FloatLUThms.

Set Implicit Arguments.
Unset Strict Implicit.
Unset Printing Implicit Defensive.
Local Open Scope R_scope.

(** ** NaN operands *)
Lemma nan_add (x y : b64) : is_nan x || is_nan y -> is_nan (Bplus mode_NE x y).
Proof. by case: x => [s|s||s m e B] //; case: y => [s'|s'||s' m' e' B'] //; case: s. Qed.
Lemma nan_sub (x y : b64) : is_nan x || is_nan y -> is_nan (Bminus mode_NE x y).
Proof. by case: x => [s|s||s m e B] //; case: y => [s'|s'||s' m' e' B'] //; case: s. Qed.
Lemma nan_mul (x y : b64) : is_nan x || is_nan y -> is_nan (Bmult mode_NE x y).
Proof. by case: x => [s|s||s m e B] //; case: y => [s'|s'||s' m' e' B']. Qed.
Lemma nan_div (x y : b64) : is_nan x || is_nan y -> is_nan (Bdiv mode_NE x y).
Proof. by case: x => [s|s||s m e B] //; case: y => [s'|s'||s' m' e' B']. Qed.
Lemma nan_abs (x : b64) : is_nan (Babs x) = is_nan x. Proof. by case: x. Qed.
Lemma nan_eq0 (x : b64) : is_nan x -> Beqb x b64_zero = false. Proof. by case: x. Qed.
Lemma nan_sqrt (x : b64) : is_nan x -> is_nan (Bsqrt mode_NE x). Proof. by case: x. Qed.

(** ** sums of numbers that are not negative *)
Definition nonneg (x : b64) : bool := ~~ is_nan x && ~~ Bsign x.
Definition pinf : b64 := B754_infinity false.

Lemma nn_sign (x : b64) : finite x -> 0 < rv x -> Bsign x = false.
Proof.
case: x => [s|s||s m e B] //= _; rewrite /rv /=; first by lra.
by case: s B => B //= h; have := F2R_lt_0 radix2 (Float radix2 (Zneg m) e) erefl; lra.
Qed.
Lemma nn_ge0 (x : b64) : nonneg x -> 0 <= rv x.
Proof.
rewrite /nonneg /rv; case: x => [s|s||s m e B] //=; try lra.
by case: s B => B //= _; have := F2R_gt_0 radix2 (Float radix2 (Zpos m) e) erefl; lra.
Qed.
Lemma nn_add (x y : b64) : nonneg x -> nonneg y -> nonneg (Bplus mode_NE x y).
Proof.
move=> hx hy; have [px py] := (nn_ge0 hx, nn_ge0 hy).
case fx : (is_finite x); last by case: x fx hx {px} => [s|[]||s m e B] //; case: y hy {py} => [s'|[]||s' m' e' B'].
case fy : (is_finite y); last by case: y fy hy {py} => [s|[]||s m e B] //; case: x fx hx {px} => [s'|[]||s' m' e' B'].
have := Bplus_correct b_prec b_emax b_prec_gt0 b_prec_lt mode_NE x y fx fy.
have [sx sy] : Bsign x = false /\ Bsign y = false by move: hx hy; rewrite /nonneg => /andP[_ /negbTE ->] /andP[_ /negbTE ->].
case: Rlt_bool => [[E [F G]]|[E _]].
  rewrite /nonneg G sx sy /=; move: F; case: (Bplus _ _ _) => [s|s||s m e B] // _ /=; case: Rcompare_spec => // h; rewrite /rv in px py; lra.
by move: E; rewrite sx; case: (Bplus _ _ _) => [s|s||s m e B] //= [] ->.
Qed.
Lemma nn_inf (x y : b64) : nonneg x -> nonneg y -> (x = pinf \/ y = pinf) -> Bplus mode_NE x y = pinf.
Proof. by move=> hx hy [e|e]; rewrite e in hx hy *; [case: y hy => [s|[]||s m e' B]|case: x hx => [s|[]||s m e' B]]. Qed.
Lemma nn_sq (x : b64) : ~~ is_nan x -> nonneg (Bmult mode_NE x x).
Proof.
case fx : (is_finite x); last by case: x fx => [s|[]||s m e B].
have := Bmult_correct b_prec b_emax b_prec_gt0 b_prec_lt mode_NE x x.
rewrite Bool.xorb_nilpotent fx; case: Rlt_bool => [[E [F G]] _|E _].
  by move: F G; rewrite /nonneg; case: (Bmult _ _ _) => [s|s||s m e B] //= _ -> //.
by move: E; rewrite /nonneg; case: (Bmult _ _ _) => [s|s||s m e B] //= [] ->.
Qed.
Lemma nn_abs (x : b64) : ~~ is_nan x -> nonneg (Babs x). Proof. by case: x. Qed.
Lemma nn_sqrt (x : b64) : nonneg x -> ~~ is_nan (Bsqrt mode_NE x).
Proof.
case: x => [[]|[]||s m e B] //; rewrite /nonneg => /andP[_ hs].
have [_ [h _]] := Bsqrt_correct b_prec b_emax b_prec_gt0 b_prec_lt mode_NE (B754_finite s m e B).
move: h hs; set X := Bsqrt _ _ => h hs; have {hs} es : s = false by case: s B X h hs.
by move: h; rewrite es; case: X.
Qed.

(** a sum from 0 of terms t(x): NaN when a term is, +infinity when one is *)
Section Sums.
Variable t : b64 -> b64.
Definition tsum (s : b64) (l : seq b64) : b64 := foldl (fun s x => Bplus mode_NE s (t x)) s l.
Hypothesis t1 : forall x, is_nan x -> is_nan (t x).
Hypothesis t2 : forall x, ~~ is_nan x -> nonneg (t x).
Hypothesis t3 : forall x, ~~ is_nan x -> ~~ is_finite x -> t x = pinf.
Lemma tsum_nan s l : is_nan s -> is_nan (tsum s l).
Proof. by rewrite /tsum; elim: l s => //= x l IH s h; apply: IH; apply: nan_add; rewrite h. Qed.
Lemma tsum_special s l : nonneg s ->
  if has (@is_nan _ _) l then is_true (is_nan (tsum s l))
  else nonneg (tsum s l) /\ (s = pinf \/ has (fun x => ~~ is_finite x) l -> tsum s l = pinf).
Proof.
elim: l s => [|x l IH] s hs /=; first by split=> // -[].
case: (boolP (is_nan x)) => nx /=; first by apply: tsum_nan; apply: nan_add; rewrite t1 ?orbT.
have := IH (Bplus mode_NE s (t x)) (nn_add hs (t2 nx)) => /=.
case: ifP => // _ [h1 h2]; split=> // h; apply: h2; case: h => [h|/orP[h|h]]; last by right.
  by left; apply: nn_inf => //; [apply: t2|left].
by left; apply: nn_inf => //; [apply: t2|right; apply: t3].
Qed.
Lemma sum_special (l : seq b64) : let r := foldl (fun s x : b64 => Bplus mode_NE s (t x)) b64_zero l in
  if has (@is_nan _ _) l then is_true (is_nan r) else nonneg r /\ (has (fun x => ~~ is_finite x) l -> r = pinf).
Proof.
have := @tsum_special b64_zero l erefl; rewrite /tsum; case: ifP => // _ [h1 h2]; split=> // h3; apply: h2; by right.
Qed.
End Sums.
Lemma sq_special : [/\ forall x : b64, is_nan x -> is_nan (Bmult mode_NE x x), forall x : b64, ~~ is_nan x -> nonneg (Bmult mode_NE x x) &
  forall x : b64, ~~ is_nan x -> ~~ is_finite x -> Bmult mode_NE x x = pinf].
Proof. by split=> [x h|x|x]; [apply: nan_mul; rewrite h|apply: nn_sq|case: x => [s|[]||s m e B]]. Qed.
Lemma abs_special : [/\ forall x : b64, is_nan x -> is_nan (Babs x), forall x : b64, ~~ is_nan x -> nonneg (Babs x) &
  forall x : b64, ~~ is_nan x -> ~~ is_finite x -> Babs x = pinf].
Proof. by split=> [x h|x|x]; [rewrite nan_abs|apply: nn_abs|case: x => [s|[]||s m e B]]. Qed.

Lemma has_mat m n (A : 'M[b64]_(m, n)) (P : b64 -> bool) : has P (data (mat_of A)) = [exists i, exists j, P (A i j)].
Proof.
have ap (T1 T2 : Type) (f : T1 -> T2 -> b64) (l1 : seq T1) (l2 : seq T2) :
    has P [seq f x y | x <- l1, y <- l2] = has (fun x => has (fun y => P (f x y)) l2) l1.
  by elim: l1 => //= x l1 IH; rewrite has_cat has_map IH.
rewrite /mat_of /= ap; apply/hasP/existsP => [[i _ /hasP [j _ h]]|[i /existsP[j h]]].
  by exists i; apply/existsP; exists j.
by exists i; rewrite ?mem_enum //; apply/hasP; exists j; rewrite ?mem_enum.
Qed.

(*@section C65 NaN and infinities in norms @*)

(*@doc C65: the Frobenius norm of an f64 matrix is NaN exactly when one of its elements is, and plus infinity when one is
  infinite and none is NaN. *)
Lemma frobenius_special_L : forall m n (A : 'M[b64]_(m, n)),
  exists r, [/\ frobenius_norm (S:=B64) (mat_of A) = Ok r,
    is_nan r = [exists i, exists j, is_nan (A i j)] &
    ~~ is_nan r -> (exists i j, ~~ is_finite (A i j)) -> r = B754_infinity false].
Proof.
move=> m n A; have [s1 s2 s3] := sq_special.
have E : frobenius_norm (S:=B64) (mat_of A) =
  Ok (Bsqrt mode_NE (foldl (fun s x : b64 => Bplus mode_NE s (Bmult mode_NE x x)) b64_zero (data (mat_of A)))).
  by rewrite /frobenius_norm (for_foldl _ (fun s x => n_add (n:=B64) s (n_mul (n:=B64) x x))).
eexists; split; first exact: E.
  have := @sum_special (fun x => Bmult mode_NE x x) s1 s2 s3 (data (mat_of A)); rewrite has_mat; cbv zeta.
  by case: ifP => _; [move=> h; exact: nan_sqrt h|move=> [h _]; apply/negbTE/nn_sqrt].
move=> nr [i [j h]]; have := @sum_special (fun x => Bmult mode_NE x x) s1 s2 s3 (data (mat_of A)); cbv zeta; case: ifP => _.
  by move=> h0; have hn := nan_sqrt h0; rewrite hn in nr.
move=> [_ ->] //.
by rewrite (has_mat A (fun x => ~~ is_finite x)); apply/existsP; exists i; apply/existsP; exists j.
Qed.

Lemma vec_has m (v : 'cV[b64]_m) (P : b64 -> bool) : [exists i, exists j, P (v i j)] = [exists i, P (v i ord0)].
Proof.
by apply/existsP/existsP => [[i /existsP[j h]]|[i h]]; exists i; [rewrite (ord1 j) in h|apply/existsP; exists ord0].
Qed.

Lemma foldl_enum_data m (v : 'cV[b64]_m.+1) (t : b64 -> b64) :
  foldl (fun s k => Bplus mode_NE s (t (v k ord0))) b64_zero (enum 'I_m.+1) =
  foldl (fun s x : b64 => Bplus mode_NE s (t x)) b64_zero (data (mat_of v)).
Proof.
rewrite /mat_of /=; move: b64_zero; elim: (enum 'I_m.+1) => // x l IH s.
have e1 : enum 'I_1 = [:: ord0] by apply: (inj_map val_inj); rewrite val_enum_ord.
by rewrite /= IH e1.
Qed.

(*@doc C65: the same for the vector norms: vector_1_norm and the euclidean norm. *)
Lemma vector_norms_special_L : forall m (v : 'cV[b64]_m.+1),
  exists r1 r2, [/\ vector_1_norm (S:=B64) (mat_of v) = Ok r1,
    [/\ vector_euclidean_norm (S:=B64) (mat_of v) = Ok r2, length_ (S:=B64) (mat_of v) = Ok r2 &
        vector_2_norm (S:=B64) (mat_of v) = Ok r2],
    is_nan r1 = [exists i, is_nan (v i ord0)], is_nan r2 = [exists i, is_nan (v i ord0)] &
    (forall i, ~~ is_nan (v i ord0)) -> (exists i, ~~ is_finite (v i ord0)) ->
      r1 = B754_infinity false /\ r2 = B754_infinity false].
Proof.
move=> m v; have [E1 E2 E3 E4 _] := @norms_eval_L B64 m m.+1 (\matrix_(i, j) b64_zero) v.
have [s1 s2 s3] := sq_special; have [a1 a2 a3] := abs_special.
have F2 : foldl (fun s k => n_add (n:=B64) s (n_mul (n:=B64) (v k ord0) (v k ord0))) (n_zero B64) (enum 'I_m.+1) = _ := foldl_enum_data v (fun x => Bmult mode_NE x x).
have F1 : foldl (fun s k => n_add (n:=B64) s (s_abs (s:=B64) (v k ord0))) (n_zero B64) (enum 'I_m.+1) = _ := foldl_enum_data v (@Babs _ _).
eexists; eexists; split; [exact: E4|split; [exact: E1|exact: E2|exact: E3]| | |].
- rewrite F1; have := @sum_special (@Babs _ _) a1 a2 a3 (data (mat_of v)); rewrite has_mat vec_has; cbv zeta.
  by case: ifP => _ => [//|[/andP[/negbTE h _] _]].
- rewrite F2; have := @sum_special (fun x => Bmult mode_NE x x) s1 s2 s3 (data (mat_of v)); rewrite has_mat vec_has; cbv zeta.
  by case: ifP => _; [move=> h; exact: nan_sqrt h|move=> [h _]; apply/negbTE/nn_sqrt].
move=> nn [i h].
have no : has (@is_nan b_prec b_emax) (data (mat_of v)) = false.
  by rewrite has_mat vec_has; apply/negbTE/existsPn => j; apply: nn.
have yes : has (fun x : b64 => ~~ is_finite x) (data (mat_of v)).
  by rewrite (has_mat v (fun x => ~~ is_finite x)) (vec_has v (fun x => ~~ is_finite x)); apply/existsP; exists i.
rewrite F1 F2; split.
  by have := @sum_special (@Babs _ _) a1 a2 a3 (data (mat_of v)); rewrite no; cbv zeta => -[_ ->].
have := @sum_special (fun x => Bmult mode_NE x x) s1 s2 s3 (data (mat_of v)); rewrite no; cbv zeta => -[_ h'].
by rewrite [foldl _ _ _]h'.
Qed.

(*@doc C65: vector_inf_norm does not propagate NaN.  Its result is NaN exactly when the first element is; otherwise it is the
  largest magnitude among the elements that are not NaN (infinities included). *)
Lemma inf_norm_special_L : forall m (v : 'cV[b64]_m.+1),
  exists r, [/\ vector_inf_norm (S:=B64) (mat_of v) = Ok r,
    is_nan r = is_nan (v ord0 ord0) &
    ~~ is_nan (v ord0 ord0) ->
      (exists i, ~~ is_nan (v i ord0) /\ r = Babs (v i ord0)) /\
      forall i, ~~ is_nan (v i ord0) -> ~~ Bltb r (Babs (v i ord0))].
Proof.
move=> m v.
have HA := mat_of_rep b64_zero v.
rewrite /vector_inf_norm (rep_cols HA) //; cbn [bind]; rewrite eqxx; cbn [require].
have v0 i : (i < m.+1)%N -> vget (data (mat_of v)) i = Ok (v (inord i) ord0).
  move=> hi; have := rep_vget HA hi (ltnSn 0); rewrite muln1 addn0 => ->.
  by rewrite -(fnE b64_zero) inordK.
have i0 : inord 0 = ord0 :> 'I_m.+1 by apply: val_inj; rewrite /= inordK.
rewrite v0 //; cbn [bind]; rewrite (rep_size HA) muln1 i0.
have irr (x : b64) : ~~ Bltb x x.
  by case fx : (is_finite x); [rewrite Bltb_correct //; case: Rlt_bool_spec => //; lra|case: x fx => [s|[]||s m' e B]].
have tr (x y z : b64) : ~~ is_nan y -> Bltb x y -> ~~ Bltb x z -> ~~ Bltb y z.
  move=> _; exact: FloatLU.b64_lt_tr.
suff /wp_ex [x e [H1 H2]] : wp (for_ 1 m.+1 (fun i (cm : b64) =>
      x <-- vget (data (mat_of v)) i ;; Ok (if Bltb cm (Babs x) then Babs x else cm)) (Babs (v ord0 ord0)))
   (fun x : b64 => is_nan x = is_nan (v ord0 ord0) /\ (~~ is_nan (v ord0 ord0) ->
     (exists i, ~~ is_nan (v i ord0) /\ x = Babs (v i ord0)) /\
     forall i, ~~ is_nan (v i ord0) -> ~~ Bltb x (Babs (v i ord0)))).
  by exists x; split=> //; exact: e.
apply: (wpe_for (fun k (x : b64) => is_nan x = is_nan (v ord0 ord0) /\ (~~ is_nan (v ord0 ord0) ->
     (exists i, ~~ is_nan (v i ord0) /\ x = Babs (v i ord0)) /\
     forall i : 'I_m.+1, (i < k)%N -> ~~ is_nan (v i ord0) -> ~~ Bltb x (Babs (v i ord0))))) => //.
- split; first by rewrite nan_abs.
  move=> n0; split; first by exists ord0.
  by move=> i; rewrite ltnS leqn0 => /eqP e _; have -> : i = ord0 by apply: val_inj.
- move=> k x /andP[k0 km] [nx H]; rewrite v0 //; cbn [bind wpe].
  set y := Babs _.
  case: (boolP (Bltb x y)) => lt.
    have [nnx nny] : ~~ is_nan x /\ ~~ is_nan y by move: lt; case: (x) => [s|s||s m' e B]; case: (y) => [s'|s'||s' m'' e' B'].
    split; first by rewrite -nx (negbTE nnx) (negbTE nny).
    move=> n0; have [[i [ni ei]] H2] := H n0.
    split; first by exists (inord k); split=> //; rewrite -nan_abs.
    move=> j; rewrite ltnS leq_eqVlt => /orP[/eqP e nj|hj nj].
      by rewrite /y -e inord_val; exact: irr.
    by apply: tr lt _ => //; apply: H2.
  split=> // n0; have [[i [ni ei]] H2] := H n0; split; first by exists i.
  move=> j; rewrite ltnS leq_eqVlt => /orP[/eqP e nj|hj nj]; last exact: H2.
  by move: lt; rewrite /y -e inord_val.
- by move=> x [H1 H2]; split=> // n0; have [h1 h2] := H2 n0; split=> // i; apply: h2.
Qed.

(*@section C65 NaN in products, determinants and solutions @*)

Lemma foldl_nan (T : Type) (t : T -> b64) (l : seq T) s : is_nan s || has (fun x => is_nan (t x)) l ->
  is_nan (foldl (fun s x => Bplus mode_NE s (t x)) s l).
Proof.
elim: l s => [|x l IH] s /=; first by rewrite orbF.
move=> h; apply: IH; case/or3P: h => h; last by rewrite h orbT.
  by rewrite nan_add ?h.
by rewrite nan_add ?h ?orbT.
Qed.
Lemma foldlm_nan (T : Type) (t : T -> b64) (l : seq T) s : is_nan s || has (fun x => is_nan (t x)) l ->
  is_nan (foldl (fun s x => Bminus mode_NE s (t x)) s l).
Proof.
elim: l s => [|x l IH] s /=; first by rewrite orbF.
move=> h; apply: IH; case/or3P: h => h; last by rewrite h orbT.
  by rewrite nan_sub ?h.
by rewrite nan_sub ?h ?orbT.
Qed.

(*@doc C65: an element of a product of f64 matrices is NaN when an element of the row or column it is formed from is, and the
  trace is NaN when an element of the diagonal is. *)
Lemma mul_nan_L : forall g m p n (A : 'M[b64]_(m.+1, p.+1)) (B : 'M[b64]_(p.+1, n.+1)),
  exists C : 'M[b64]_(m.+1, n.+1), mul (N:=B64) g (mat_of A) (mat_of B) = Ok (mat_of C) /\
  forall i j, (exists k, is_nan (A i k) || is_nan (B k j)) -> is_nan (C i j).
Proof.
move=> g m p n A B; eexists; split; first exact: mul_eval_L.
move=> i j [k h]; rewrite !mxE.
apply: (@foldl_nan _ (fun k => Bmult mode_NE (A i k) (B k j))); apply/orP; right.
by apply/hasP; exists k; rewrite ?mem_enum //; apply: nan_mul.
Qed.
Lemma trace_nan_L : forall n (A : 'M[b64]_n.+1),
  exists t, trace (S:=B64) (mat_of A) = Ok t /\ ((exists i, is_nan (A i i)) -> is_nan t).
Proof.
move=> n A; have [ds [sz H E]] := @trace_eval_L B64 n n A.
eexists; split; first exact: E.
move=> [i h]; apply: (@foldl_nan _ (fun x : b64 => x)); apply/orP; right; rewrite minnn in sz H.
have hk := ltn_ord i; have := H i hk; rewrite (rep_get _ _ (mat_of_rep (n_zero B64) A)) hk /= => -[e].
rewrite -(cat_take_drop i ds) has_cat (drop_nth (n_zero B64)) ?sz //= -e.
by rewrite -(fnE (n_zero B64)) in h; rewrite h orbT.
Qed.

(** NaN in the decomposition *)
Section LUnan.
Variables (m n : nat) (a f : nat -> nat -> b64) (q : nat -> nat).
Hypothesis Hf : forall i k, (i < m)%N -> (k < n)%N -> f i k = lu_entry (S:=B64) bdiv a f q i k.

Lemma sdot_nan l (u v : nat -> b64) k : (k < l)%N -> is_nan (u k) || is_nan (v k) -> is_nan (sdot (S:=B64) l u v).
Proof.
move=> kl h; apply: (@foldl_nan _ (fun k => Bmult mode_NE (u k) (v k))); apply/orP; right.
by apply/hasP; exists k; [rewrite mem_iota /=; lia|apply: nan_mul].
Qed.

Lemma lu_num_nan i k : (i < m)%N -> (k < n)%N -> is_nan (lu_num (S:=B64) a f q i k) -> is_nan (f i k).
Proof.
move=> hi hk h; rewrite Hf // /lu_entry; case: ifP => // _; case: ifP => // _.
by apply: nan_div; rewrite h.
Qed.

Lemma f_nan i k : (i < m)%N -> (k < n)%N -> is_nan (a (q i) k) -> is_nan (f i k).
Proof. by move=> hi hk h; apply: lu_num_nan => //; apply: nan_sub; rewrite h. Qed.

Lemma diag_nan i k : (i < m)%N -> (k < n)%N -> m = n -> is_nan (f i k) -> exists2 d, (d < n)%N & is_nan (f d d).
Proof.
move=> hi hk mn h; case: (ltngtP i k) => ik.
- exists k => //; apply: lu_num_nan => //; first lia.
  apply: nan_sub; apply/orP; right; apply: (@sdot_nan _ _ _ i); first lia.
  by rewrite h orbT.
- exists i; first lia.
  apply: lu_num_nan => //; first lia.
  apply: nan_sub; apply/orP; right; apply: (@sdot_nan _ _ _ k); first lia.
  by rewrite h.
- by exists i; [lia|rewrite {2}ik].
Qed.
End LUnan.

(*@doc C65: when an f64 matrix has a NaN element, its determinant is NaN. *)
Lemma det_nan_L : forall gp n (A : 'M[b64]_n.+1),
  exists x, det (S:=B64) gp (mat_of A) = Ok x /\ ((exists i j, is_nan (A i j)) -> is_nan x).
Proof.
move=> gp n A; have [d [s [f [q [e Hd Hp Hq [Hf Hpv sg]]]]]] := lu_new64 gp A.
have ed := lu_det_ev Hd (ltn0Sn n) erefl.
eexists; split.
  have c := rep_cols (mat_of_rep b64_zero A) (ltn0Sn n); rewrite /det c; cbn [bind]; rewrite (rep_no_rows (mat_of_rep b64_zero A)) eqxx; cbn [bind].
  by rewrite e; exact: ed.
move=> [i [j h]].
have hf : is_nan (f (s^-1 i)%g j).
  apply: (f_nan Hf (ltn_ord _) (ltn_ord _)); by rewrite Hq permKV fnE.
have [k hk hd] := diag_nan Hf (ltn_ord _) (ltn_ord _) erefl hf.
have : has (fun j => is_nan (f j j)) (iota 0 n.+1) by apply/hasP; exists k; rewrite ?mem_iota.
elim: (iota 0 n.+1) (X in foldl _ X _) => [|x l IH] s0 //= /orP[] hx; last exact: IH.
have : is_nan (Bmult mode_NE s0 (f x x)) by apply: nan_mul; rewrite hx orbT.
elim: l {IH} (Bmult _ _ _) => [|y l IH] s1 //= h1; apply: IH; apply: nan_mul; by rewrite h1.
Qed.

Lemma solve_nan0 gp g n k (A : 'M[b64]_n.+1) (b : nat -> nat -> b64) M : rep n.+1 k.+1 M b ->
  exists d, lu_new (S:=B64) gp (mat_of A) = Ok d /\
  (lu_solve (S:=B64) g d M = Ok None \/
   exists X : 'M[b64]_(n.+1, k.+1), [/\ lu_solve (S:=B64) g d M = Ok (Some (mat_of X)),
     (exists i j, is_nan (A i j)) -> exists i, forall j, is_nan (X i j) &
     forall j : 'I_k.+1, (exists i : 'I_n.+1, is_nan (b i j)) -> exists i, is_nan (X i j)]).
Proof.
move=> HB; have [d [s [f [q [e Hd Hp Hq [Hf Hpv _]]]]]] := lu_new64 gp A.
exists d; split=> //.
have := lu_solve_ev (S:=B64) bdivE g erefl (ltn0Sn n) (ltn0Sn k) Hd Hp Hq HB.
case: ifP => [_ [X [y [z [E HX Hy Hz]]]]|_ ->]; [right|by left].
exists (\matrix_(i, j) z i j)%R; split; first by rewrite -(rep_matrix HX).
- move=> [i [j h]].
  have hf : is_nan (f (s^-1 i)%g j) by apply: (f_nan Hf (ltn_ord _) (ltn_ord _)); rewrite Hq permKV fnE.
  have [l hl hd] := diag_nan Hf (ltn_ord _) (ltn_ord _) erefl hf.
  exists (Ordinal hl) => c; rewrite mxE Hz //; apply: nan_div; by rewrite hd orbT.
- move=> j [i h]; exists (s^-1 i)%g; rewrite mxE Hz //; apply: nan_div; apply/orP; left.
  apply: (@foldlm_nan _ (fun l => Bmult mode_NE (z l j) (f (s^-1 i)%g l))); apply/orP; left.
  rewrite Hy //; apply: (@foldlm_nan _ (fun l => Bmult mode_NE (y l j) (f (s^-1 i)%g l))); apply/orP; left.
  by rewrite Hq permKV.
Qed.

(*@doc C65: when A or B has a NaN element, solve A X = B does not hide it: it gives up, or X has a NaN in every column for
  a NaN of A and in column j for a NaN in column j of B; likewise for inverse. *)
Lemma solve_nan_L : forall gp g n k (A : 'M[b64]_n.+1) (B : 'M[b64]_(n.+1, k.+1)),
  solve (S:=B64) gp g (mat_of A) (mat_of B) = Ok None \/
  exists X : 'M[b64]_(n.+1, k.+1), [/\ solve (S:=B64) gp g (mat_of A) (mat_of B) = Ok (Some (mat_of X)),
    (exists i j, is_nan (A i j)) -> exists i, forall j, is_nan (X i j) &
    forall j, (exists i, is_nan (B i j)) -> exists i, is_nan (X i j)].
Proof.
move=> gp g n k A B; have [d [e H]] := solve_nan0 gp g A (mat_of_rep b64_zero B).
rewrite /solve e; cbn [bind]; case: H => [H|[X [H1 H2 H3]]]; [by left|right].
by exists X; split=> // j [i h]; apply: H3; exists i; rewrite fnE.
Qed.
Lemma inverse_nan_L : forall gp g1 g2 n (A : 'M[b64]_n.+1),
  inverse (S:=B64) gp g1 g2 (mat_of A) = Ok None \/
  exists X : 'M[b64]_n.+1, inverse (S:=B64) gp g1 g2 (mat_of A) = Ok (Some (mat_of X)) /\
    ((exists i j, is_nan (A i j)) -> exists i, forall j, is_nan (X i j)).
Proof.
move=> gp g1 g2 n A.
have /wp_ex [I eI HI] := rep_id (N:=B64) g1 n.+1 n.+1.
have [d [e H]] := solve_nan0 gp g2 A HI.
have -> : inverse (S:=B64) gp g1 g2 (mat_of A) = lu_solve (S:=B64) g2 d I.
  rewrite /inverse (rep_cols (mat_of_rep b64_zero A)) //; cbn [bind]; rewrite (rep_no_rows (mat_of_rep b64_zero A)) eqxx.
  by cbn [require]; rewrite e; cbn [bind]; rewrite eI.
by case: H => [H|[X [H1 H2 H3]]]; [left|right; exists X].
Qed.

(*@example
(** a 2x2 system with a NaN off the diagonal: the NaN reaches the determinant and a row of the solution *)
Example nan_example :
  let g : nat -> B64 := fun=> b64_zero in
  let A : mat B64 := Mat 2 [:: b64_int 1; B754_nan; b64_int 3; b64_int 4] in
  let B : mat B64 := Mat 2 [:: b64_int 1; b64_int 2] in
  match det (S:=B64) (fun=> 7%N) A, solve (S:=B64) (fun=> 7%N) g A B with
  | Ok x, Ok (Some X) => is_nan x && has (@is_nan b_prec b_emax) (data X)
  | _, _ => false
  end.
Proof. vm_cast_no_check (erefl true). Qed.
(** the largest element in absolute value does not see a NaN that is not first *)
Example inf_norm_nan_example :
  match vector_inf_norm (S:=B64) (Mat 3 [:: b64_int 1; B754_nan; b64_int (-3)]) with
  | Ok x => Beqb x (b64_int 3)
  | _ => false
  end.
Proof. vm_cast_no_check (erefl true). Qed.
@*)
