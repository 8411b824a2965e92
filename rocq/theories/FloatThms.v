(** * FloatThms: f64 values in matrix operations (C49, C50) *)
From Coq Require Import ZArith Reals Lra Psatz.
From Flocq Require Import Core BinarySingleNaN.
From mathcomp Require Import all_ssreflect all_algebra zify.
From Verif Require Import Base Scalar Hoare ModelMatrix Spec MatrixThms MiscThms B64 SpecFloat64 FloatBase.

Set Implicit Arguments.
Unset Strict Implicit.
Unset Printing Implicit Defensive.
Local Open Scope R_scope.

(** ** differences *)
Lemma approx_finite : finite (s_approx B64). Proof. by vm_compute. Qed.
Lemma zero_approx s : Bltb (B754_zero s : b64) (s_approx B64) = true. Proof. by case: s; vm_compute. Qed.

Lemma sub_self (x : b64) : Bltb (Babs (Bminus mode_NE x x)) (s_approx B64) = is_finite x.
Proof.
case: (boolP (is_finite x)) => [fx|]; last by case: x => [s|[]||s m e B].
have := Bminus_correct b_prec b_emax b_prec_gt0 b_prec_lt mode_NE x x fx fx.
rewrite Rminus_diag_eq // round_0 Rabs_R0 Rlt_bool_true; last exact: bpow_gt_0.
move=> [E [F _]]; move: E F; set y := Bminus _ _ _.
case: y => [s|s||s m e B] // E _.

rewrite /= in E.
case: s B E => B /= E; [have := F2R_lt_0 radix2 (Float radix2 (Zneg m) e) erefl | have := F2R_gt_0 radix2 (Float radix2 (Zpos m) e) erefl]; lra.
Qed.

Lemma abs_sub_sym (x y : b64) : Babs (Bminus mode_NE x y) = Babs (Bminus mode_NE y x).
Proof.
case: (boolP (is_finite x)) => fx; last by case: x fx => [s|[]||s m e B] //; case: y => [s'|[]||s' m' e' B'].
case: (boolP (is_finite y)) => fy; last by case: y fy => [s|[]||s m e B] //; case: x fx => [s'|[]||s' m' e' B'].
have := Bminus_correct b_prec b_emax b_prec_gt0 b_prec_lt mode_NE x y fx fy.
have := Bminus_correct b_prec b_emax b_prec_gt0 b_prec_lt mode_NE y x fy fx.
have -> : B2R x - B2R y = - (B2R y - B2R x) by ring.
rewrite [round_mode _]/= round_NE_opp Rabs_Ropp.
move: (Bminus mode_NE x y) (Bminus mode_NE y x) => p q.
case: Rlt_bool => [[E1 [F1 _]] [E2 [F2 _]]|[E1 _] [E2 _]].
  apply: B2R_Bsign_inj; rewrite ?is_finite_Babs //; first by rewrite !B2R_Babs E1 E2 Rabs_Ropp.
  by case: p F2 {E2} => [s|s||s m e B] // _; case: q F1 {E1}.
by move: E1 E2; case: q => [s|s||s m e B] //; case: p.
Qed.

Lemma sub_selfS (x : B64) : s_ltb (s_abs (n_sub x x)) (s_approx B64) = is_finite (x : b64).
Proof. exact: sub_self. Qed.
Lemma abs_sub_symS (x y : B64) : s_abs (n_sub x y) = s_abs (n_sub y x).
Proof. exact: abs_sub_sym. Qed.

(*@section C49 special values in comparisons @*)

Lemma forall2P m n (P : 'I_m -> 'I_n -> bool) : reflect (forall i j, P i j) [forall i, forall j, P i j].
Proof. by apply: (iffP forallP) => h i; [move=> j; apply: (forallP (h i))|apply/forallP]. Qed.

(*@doc C49, f64: a matrix is approximately equal to itself exactly when it contains no NaN and no infinity. *)
Lemma approx_eq_refl_f64_L : forall m n (A : 'M[b64]_(m.+1, n.+1)),
  approx_eq (S:=B64) (mat_of A) (mat_of A) = Ok [forall i, forall j, is_finite (A i j)].
Proof.
move=> m n A; have [-> _] := @approx_eq_eval_L B64 m n m n A A A.
congr Ok; apply/forall2P/forall2P => h i j; have := h i j; by rewrite sub_selfS.
Qed.

(*@doc C49, f64: approx_eq is symmetric for all values, NaN and infinities included. *)
Lemma approx_eq_sym_f64_L : forall m n (A B : 'M[b64]_(m.+1, n.+1)),
  approx_eq (S:=B64) (mat_of A) (mat_of B) = approx_eq (S:=B64) (mat_of B) (mat_of A).
Proof.
move=> m n A B; have [-> _] := @approx_eq_eval_L B64 m n m n A B A.
have [-> _] := @approx_eq_eval_L B64 m n m n B A A.
congr Ok; apply/forall2P/forall2P => h i j; have := h i j; by rewrite abs_sub_symS.
Qed.

(*@doc C49, f64: a matrix with A(i,j) = A(j,i) is reported symmetric exactly when its off-diagonal elements are finite;
  the diagonal is not looked at. *)
Lemma is_symmetric_f64_L : forall n (A : 'M[b64]_n.+1),
  (forall i j, A i j = A j i) ->
  is_symmetric (S:=B64) (mat_of A) = Ok [forall i : 'I_n.+1, forall j : 'I_n.+1, (i != j) ==> is_finite (A i j)].
Proof.
move=> n A sym; have [_ _ -> _] := @is_symmetric_eval_L B64 n n A A.
congr Ok; apply/forall2P/forall2P => h i j; apply/implyP => ne.
  have := h i j; have := h j i; rewrite (sym j i) !sub_selfS.
  by case: (ltngtP i j) => // e; rewrite ?implyTb //; move: ne; rewrite (ord_inj e) eqxx.
by rewrite (sym j i) sub_selfS; have /implyP -> // := h i j; apply/eqP => e; rewrite e ltnn in ne.
Qed.

(*@doc C49, f64: == on matrices of the same shape compares element by element; A == A unless A contains a NaN. *)
Lemma mat_eq_refl_f64_L : forall m n (A : 'M[b64]_(m.+1, n.+1)),
  mat_eq (s_eqb (s:=B64)) (mat_of A) (mat_of A) = [forall i, forall j, ~~ is_nan (A i j)].
Proof.
move=> m n A; have [-> _] := @mat_eq_ok_L _ (s_eqb (s:=B64)) m n m n A A A.
by apply/forall2P/forall2P => h i j; have := h i j; rewrite [s_eqb _ _]Beqb_refl.
Qed.

(*@example
(** a matrix with one NaN off the diagonal: neither approximately equal nor equal to itself, and not symmetric *)
Definition nan_mat : 'M[b64]_2 := (\matrix_(i, j) (if (i == j)%N then b64_int 1 else B754_nan))%R.
Example nan_mat_example :
  [/\ approx_eq (S:=B64) (mat_of nan_mat) (mat_of nan_mat) = Ok false,
      is_symmetric (S:=B64) (mat_of nan_mat) = Ok false & mat_eq (s_eqb (s:=B64)) (mat_of nan_mat) (mat_of nan_mat) = false].
Proof.
split.
- rewrite approx_eq_refl_f64; congr Ok; apply/negbTE/negP => /forallP /(_ ord0) /forallP /(_ ord_max).
  by rewrite mxE.
- rewrite is_symmetric_f64; last by move=> i j; rewrite !mxE eq_sym.
  congr Ok; apply/negbTE/negP => /forallP /(_ ord0) /forallP /(_ ord_max).
  by rewrite mxE.
- rewrite mat_eq_refl_f64; apply/negbTE/negP => /forallP /(_ ord0) /forallP /(_ ord_max).
  by rewrite mxE.
Qed.
@*)

(*@section C50 rounding errors of products, sums and norms @*)

Lemma foldl_enum_iota (T : Type) n (f : T -> nat -> T) s :
  foldl (fun s (k : 'I_n) => f s k) s (enum 'I_n) = foldl f s (iota 0 n).
Proof. by rewrite -val_enum_ord; elim: (enum _) s => //= x l IH s; apply: IH. Qed.

Lemma foldl_ext (T U : Type) (f g : T -> U -> T) s l : (forall s k, f s k = g s k) -> foldl f s l = foldl g s l.
Proof. by move=> h; elim: l s => //= x l IH s; rewrite h; apply: IH. Qed.

Lemma foldl_ext_in (T : Type) (U : eqType) (f g : T -> U -> T) s l :
  (forall s k, k \in l -> f s k = g s k) -> foldl f s l = foldl g s l.
Proof.
elim: l s => //= x l IH s h; rewrite h ?inE ?eqxx //; apply: IH => t k hk.
by apply: h; rewrite inE hk orbT.
Qed.

Lemma rsum_inord n (f : 'I_n.+1 -> R) : rsumn n.+1 (fun k => f (inord k)) = \rsum_(k < n.+1) f k.
Proof. by apply: eq_bigr => k _; rewrite inord_val. Qed.

Lemma dot64_ord p (a b : 'I_p.+1 -> b64) :
  foldl (fun s k => Bplus mode_NE s (Bmult mode_NE (a k) (b k))) b64_zero (enum 'I_p.+1) =
  dot64 b64_zero p.+1 (fun k => a (inord k)) (fun k => b (inord k)).
Proof.
rewrite /dot64 -(@foldl_enum_iota _ p.+1 (fun s k => Bplus mode_NE s (Bmult mode_NE (a (inord k)) (b (inord k))))).
by apply: foldl_ext => s k; rewrite inord_val.
Qed.
Lemma sum64_ord p (a : 'I_p.+1 -> b64) :
  foldl (fun s k => Bplus mode_NE s (a k)) b64_zero (enum 'I_p.+1) = sum64 p.+1 (fun k => a (inord k)).
Proof.
rewrite /sum64 -(@foldl_enum_iota _ p.+1 (fun s k => Bplus mode_NE s (a (inord k)))).
by apply: foldl_ext => s k; rewrite inord_val.
Qed.

Lemma foldl_nth (T U : Type) d (f : T -> U -> T) s (l : seq U) :
  foldl f s l = foldl (fun s k => f s (nth d l k)) s (iota 0 (size l)).
Proof.
rewrite -{1}[l](mkseq_nth d) /mkseq; elim: (iota _ _) s => //= k r IH s; exact: IH.
Qed.

(*@doc C50, f64 matrix product: whenever an element of the computed product is finite, the factors it was formed from are
  finite and it differs from the exact sum of products by at most ((1+u)^p - 1) times the sum of the absolute values
  of the products, plus p (1+u)^p eta for underflow; p is the inner dimension, u = 2^-53, eta = 2^-1075.  The element
  is finite whenever its factors are and the sum of the absolute values is not close to the overflow threshold. *)
Lemma mul_rounding_L : forall g m p n (A : 'M[b64]_(m.+1, p.+1)) (B : 'M[b64]_(p.+1, n.+1)),
  exists C : 'M[b64]_(m.+1, n.+1), mul (N:=B64) g (mat_of A) (mat_of B) = Ok (mat_of C) /\
  forall i j,
    let exact := \rsum_(k < p.+1) (rv (A i k) * rv (B k j)) in
    let magnitude := \rsum_(k < p.+1) (Rabs (rv (A i k)) * Rabs (rv (B k j))) in
    (finite (C i j) ->
       (forall k, finite (A i k) /\ finite (B k j)) /\
       Rabs (rv (C i j) - exact) <= err p.+1 * magnitude + INR p.+1 * (grow p.+1 * eta64)) /\
    ((forall k, finite (A i k) /\ finite (B k j)) ->
       grow p.+1 * (magnitude + INR p.+1 * eta64) <= 2 ^ 1023 -> finite (C i j)).
Proof.
move=> g m p n A B; eexists; split; first exact: mul_eval_L.
move=> i j exact magnitude; rewrite !mxE.
rewrite (_ : foldl _ _ _ = dot64 b64_zero p.+1 (fun k => A i (inord k)) (fun k => B (inord k) j)); last exact: dot64_ord.
have e1 : rsumn p.+1 (fun k => rv (A i (inord k)) * rv (B (inord k) j)) = exact.
  exact: (rsum_inord (fun k => rv (A i k) * rv (B k j))).
have e2 : rsumn p.+1 (fun k => Rabs (rv (A i (inord k))) * Rabs (rv (B (inord k) j))) = magnitude.
  exact: (rsum_inord (fun k => Rabs (rv (A i k)) * Rabs (rv (B k j)))).
split=> [/dot64_err [fk h]|fk h].
  rewrite e1 e2 in h; split=> // k.
  by have := fk k (ltn_ord k); rewrite inord_val.
by apply: dot64_ok; rewrite ?e2.
Qed.

(*@doc C50, f64 trace: error at most ((1+u)^(n-1) - 1) times the sum of the absolute values of the diagonal. *)
Lemma trace_rounding_L : forall n (A : 'M[b64]_n.+1),
  exists t, trace (S:=B64) (mat_of A) = Ok t /\
  (finite t -> (forall i, finite (A i i)) /\
     Rabs (rv t - (\rsum_(i < n.+1) rv (A i i))) <= err n * (\rsum_(i < n.+1) Rabs (rv (A i i)))).
Proof.
move=> n A; have [ds [sz H E]] := @trace_eval_L B64 n n A.
eexists; split; first exact: E.
rewrite (_ : foldl _ _ _ = sum64 n.+1 (fun k => A (inord k) (inord k))); last first.
  rewrite (foldl_nth (n_zero B64)) /sum64 sz minnn.
  apply: (@foldl_ext_in _ _ (fun s k => Bplus mode_NE s (nth (n_zero B64) ds k)) (fun s k => Bplus mode_NE s (A (inord k) (inord k)))) => s k.
  rewrite mem_iota add0n => /= hk; have := H k; rewrite minnn => /(_ hk).
  rewrite (rep_get _ _ (mat_of_rep (n_zero B64) A)) hk /= => -[<-].
  by rewrite -(fnE (n_zero B64)) inordK.
move=> /sum64_err [fk h]; split.
  by move=> i; have := fk i (ltn_ord i); rewrite inord_val.
rewrite (rsum_inord (fun k => rv (A k k))) in h.
by rewrite (rsum_inord (fun k => Rabs (rv (A k k)))) in h.
Qed.

(*@doc C50, f64 vector_1_norm: relative error at most (1+u)^(m-1) - 1 for m elements. *)
Lemma norm1_rounding_L : forall m (v : 'cV[b64]_m.+1),
  exists r, vector_1_norm (S:=B64) (mat_of v) = Ok r /\
  (finite r -> (forall i, finite (v i ord0)) /\
     Rabs (rv r - (\rsum_(i < m.+1) Rabs (rv (v i ord0)))) <= err m * (\rsum_(i < m.+1) Rabs (rv (v i ord0)))).
Proof.
move=> m v; have [_ _ _ E _] := @norms_eval_L B64 m m.+1 (\matrix_(i, j) b64_zero) v.
eexists; split; first exact: E.
rewrite (_ : foldl _ _ _ = sum64 m.+1 (fun k => Babs (v (inord k) ord0))); last exact: (sum64_ord (fun k => Babs (v k ord0))).
move=> /sum64_err [fk h]; split.
  by move=> i; have := fk i (ltn_ord i); rewrite inord_val /finite is_finite_Babs.
have e1 : rsumn m.+1 (fun k => rv (Babs (v (inord k) ord0))) = \rsum_(i < m.+1) Rabs (rv (v i ord0)).
  by rewrite (rsum_inord (fun k => rv (Babs (v k ord0)))); apply: eq_bigr => i _; apply: B2R_Babs.
have e2 : rsumn m.+1 (fun k => Rabs (rv (Babs (v (inord k) ord0)))) = \rsum_(i < m.+1) Rabs (rv (v i ord0)).
  by rewrite (rsum_inord (fun k => Rabs (rv (Babs (v k ord0))))); apply: eq_bigr => i _; rewrite /rv B2R_Babs Rabs_Rabsolu.
by rewrite e1 e2 in h.
Qed.

(*@doc C50, f64 euclidean norm (length, vector_2_norm): the square of the result has relative error at most
  (1+u)^(m+2) - 1, plus an underflow term. *)
Lemma norm2_rounding_L : forall m (v : 'cV[b64]_m.+1),
  exists r, [/\ vector_euclidean_norm (S:=B64) (mat_of v) = Ok r, length_ (S:=B64) (mat_of v) = Ok r,
    vector_2_norm (S:=B64) (mat_of v) = Ok r &
    finite r -> let sq := \rsum_(i < m.+1) (rv (v i ord0) * rv (v i ord0)) in
     [/\ forall i, finite (v i ord0), 0 <= rv r &
      Rabs (rv r * rv r - sq) <= err m.+3 * sq + INR m.+1 * (grow m.+3 * eta64)]].
Proof.
move=> m v; have [E1 E2 E3 _ _] := @norms_eval_L B64 m m.+1 (\matrix_(i, j) b64_zero) v.
eexists; split; [exact: E1|exact: E2|exact: E3|].
rewrite (_ : foldl _ _ _ = dot64 b64_zero m.+1 (fun k => v (inord k) ord0) (fun k => v (inord k) ord0)); last exact: dot64_ord.
move=> fr sq; have [fk r0 h] := norm64_err fr; split=> //.
  by move=> i; have := fk i (ltn_ord i); rewrite inord_val.
by rewrite (rsum_inord (fun k => rv (v k ord0) * rv (v k ord0))) in h.
Qed.

(*@doc C50, f64 frobenius_norm: the same with the number of elements mn. *)
Lemma frobenius_rounding_L : forall m n (A : 'M[b64]_(m, n)),
  exists r, frobenius_norm (S:=B64) (mat_of A) = Ok r /\
    (finite r -> let sq := \rsum_(i < m) (\rsum_(j < n) (rv (A i j) * rv (A i j))) in
     [/\ forall i j, finite (A i j), 0 <= rv r &
      Rabs (rv r * rv r - sq) <= err (m * n).+2 * sq + INR (m * n) * (grow (m * n).+2 * eta64)]).
Proof.
move=> m n A.
have E : frobenius_norm (S:=B64) (mat_of A) =
  Ok (Bsqrt mode_NE (foldl (fun s x : b64 => Bplus mode_NE s (Bmult mode_NE x x)) b64_zero (data (mat_of A)))).
  by rewrite /frobenius_norm (for_foldl _ (fun s x => n_add (n:=B64) s (n_mul (n:=B64) x x))).
have sz : size (data (mat_of A)) = (m * n)%N by rewrite (rep_size (mat_of_rep (n_zero B64) A)).
have al f : rsumn (m * n) (fun k => f (nth b64_zero (data (mat_of A)) k)) = \rsum_(i < m) (\rsum_(j < n) f (A i j)).
  rewrite /rsumn -sz -(big_mkord xpredT (fun k => f (nth b64_zero (data (mat_of A)) k))).
  rewrite -(big_nth b64_zero xpredT) /= big_allpairs_dep big_enum /=.
  by apply: eq_bigr => i _; rewrite big_enum.
eexists; split; first exact: E.
rewrite (foldl_nth b64_zero) sz -/(dot64 b64_zero (m * n) (nth b64_zero (data (mat_of A))) (nth b64_zero (data (mat_of A)))).
move=> fr sq; have [fk r0 h] := norm64_err fr; split=> //.
  move=> i j; have hk : (i * n + j < m * n)%N by have := ltn_ord i; have := ltn_ord j; nia.
  have := fk _ hk; have := rep_vget (mat_of_rep b64_zero A) (ltn_ord i) (ltn_ord j).
  by rewrite fnE (vgetE b64_zero) ?sz // => -[->].
by rewrite (al (fun x => rv x * rv x)) in h.
Qed.

(*@doc C50, f64 vector_inf_norm: exact for finite elements. *)
Lemma inf_norm_f64_L : forall m (v : 'cV[b64]_m.+1), (forall i, finite (v i ord0)) ->
  exists x, [/\ vector_inf_norm (S:=B64) (mat_of v) = Ok x,
    (exists i, x = Babs (v i ord0)) & forall i, Rabs (rv (v i ord0)) <= rv x].
Proof.
move=> m v fv.
have HA := mat_of_rep b64_zero v.
rewrite /vector_inf_norm (rep_cols HA) //; cbn [bind]; rewrite eqxx; cbn [require].
have v0 i : (i < m.+1)%N -> vget (data (mat_of v)) i = Ok (v (inord i) ord0).
  move=> hi; have := rep_vget HA hi (ltnSn 0); rewrite muln1 addn0 => ->.
  by rewrite -(fnE b64_zero) inordK.
rewrite v0 //; cbn [bind]; rewrite (rep_size HA) muln1.
suff /wp_ex [x e [H1 H2]] : wp (for_ 1 m.+1 (fun i (cm : b64) =>
      x <-- vget (data (mat_of v)) i ;; Ok (if Bltb cm (Babs x) then Babs x else cm)) (Babs (v (inord 0) ord0)))
   (fun x : b64 => (exists i, x = Babs (v i ord0)) /\ forall i, Rabs (rv (v i ord0)) <= rv x) by exists x; split=> //; exact: e.
apply: (wpe_for (fun k (x : b64) => (exists i, x = Babs (v i ord0)) /\ forall i : 'I_m.+1, (i < k)%N -> Rabs (rv (v i ord0)) <= rv x)) => //.
- split; first by exists (inord 0).
  move=> i; rewrite ltnS leqn0 => /eqP e; have -> : inord 0 = i by apply: val_inj; rewrite /= inordK.
  by rewrite /rv B2R_Babs; exact: Rle_refl.
- move=> k x /andP[k0 km] [[i ei] H]; rewrite v0 //; cbn [bind wpe].
  have fx : finite x by rewrite ei /finite is_finite_Babs; apply: fv.
  have fy : finite (Babs (v (inord k) ord0)) by rewrite /finite is_finite_Babs; apply: fv.
  have := Bltb_correct b_prec b_emax x (Babs (v (inord k) ord0)) fx fy; set y := Babs _ in fy * => ->.
  have ry : rv y = Rabs (rv (v (inord k) ord0)) by apply: B2R_Babs.
  case: Rlt_bool_spec; rewrite -![B2R _]/(rv _) => h.
    split; first by exists (inord k).
    move=> j; rewrite ltnS leq_eqVlt => /orP[/eqP e|/H hj]; last lra.
    by rewrite ry -e inord_val; apply: Rle_refl.
  split; first by exists i.
  move=> j; rewrite ltnS leq_eqVlt => /orP[/eqP e|/H //].
  by rewrite ry -e inord_val in h.
- by move=> x [H1 H2]; split=> // i; apply: H2.
Qed.

(*@example
(** the hypotheses are met: the product of the 2 x 2 matrices of ones is finite, and so are all its factors *)
Example mul_rounding_example :
  let A : 'M[b64]_2 := (\matrix_(i, j) b64_int 1)%R in
  (forall i k, finite (A i k)) /\
  forall i j, grow 2 * ((\rsum_(k < 2) (Rabs (rv (A i k)) * Rabs (rv (A k j)))) + INR 2 * eta64) <= 2 ^ 1023.
Proof.
split=> [i k|i j]; first by rewrite mxE.
rewrite !big_ord_recl big_ord0 !mxE rv_int1 Rabs_R1 /grow /=.
have u1 := u64_lt1; have e1 : eta64 <= 1 by rewrite /eta64 -Rinv_1; apply: Rinv_le_contravar; [lra|apply: pow_R1_Rle; lra].
have u0 := u64_gt0; have e0 := eta64_gt0.
apply: (@Rle_trans _ (2 ^ 4)); last by apply: (@Rle_pow 2 4 1023); [lra|apply/leP].
rewrite /=; nra.
Qed.
@*)
