(** * FloatSingThms: is_singular and is_non_singular in f64 (C75) *)
From Coq Require Import ZArith Reals Lra Psatz.
From Flocq Require Import Core BinarySingleNaN.
From mathcomp Require Import all_ssreflect all_algebra zify.
From mathcomp Require Import fingroup perm.
From Verif Require Import Base Scalar Hoare ModelMatrix ModelLU Spec MatrixProofs MatrixProofs2 LUProofs LUEval B64 SpecFloat64 FloatBase FloatLU SpecFloatPrio FloatLUThms FloatPrio FloatPrioThms.

Set Implicit Arguments.
Unset Strict Implicit.
Unset Printing Implicit Defensive.
Local Open Scope R_scope.

(** an upper triangular matrix with a zero on its diagonal annihilates a vector that is not zero *)
Lemma null_vec n (U : nat -> nat -> R) k : (forall i j, (j < i)%N -> U i j = 0) -> (k < n)%N -> U k k = 0 ->
  exists (y : nat -> R) p, [/\ (p < n)%N, y p = 1 & forall i, (i < n)%N -> rsumn n (fun j => U i j * y j) = 0].
Proof.
move=> Z; elim/ltn_ind: k => k IH kn zk.
case: (boolP (has (fun l => Req_bool (U l l) 0) (iota 0 k))) => [/hasP[l]|/hasPn nz].
  by rewrite mem_iota => hl; case: Req_bool_spec => // e _; apply: (IH l); [lia|lia|].
have D l : (l < k)%N -> U l l <> 0.
  by move=> hl e; have := nz l; rewrite mem_iota e Req_bool_true //; move/(_ ltac:(lia)).
have [x [x0 hx]] := @upper_solve n U (fun i => - U i k) k (ltnW kn) Z D.
exists (fun l => if l == k then 1 else x l), k; split=> //; first by rewrite eqxx.
move=> i hi; rewrite (rsumn_ext (g := fun j => U i j * x j + (if j == k then U i k else 0))); last first.
  by move=> j _; case: eqP => [->|_]; [rewrite x0 //|]; ring.
have one : rsumn n (fun j => if j == k then U i k else 0) = U i k.
  elim: n kn {hx IH hi} => [//|n IHn]; rewrite ltnS leq_eqVlt rsumnS => /orP[/eqP <-|kn].
    rewrite eqxx (rsumn_ext (g := fun=> 0)); last by move=> j hj; have -> : (j == k) = false by [lia].
    have -> : rsumn k (fun=> 0) = 0 by elim: (k) => [|p IHp]; rewrite ?rsumn0 ?rsumnS ?IHp; ring.
    ring.
  by rewrite IHn //; have -> : (n == k) = false by [lia]; ring.
rewrite rsumn_add one; case: (ltnP i k) => ik; first by rewrite hx //; ring.
rewrite (rsumn_ext (g := fun=> 0)); last first.
  move=> j _; case: (ltnP j k) => jk; first by rewrite Z; [ring|lia].
  by rewrite x0 //; ring.
have -> : rsumn n (fun=> 0) = 0 by elim: (n) => [|p IHp]; rewrite ?rsumn0 ?rsumnS ?IHp; ring.
by case: (ltngtP i k) ik => // [ik _|-> _]; [rewrite Z //|rewrite zk]; ring.
Qed.

Lemma sing_neg gp (M : mat B64) : is_singular gp M = match is_non_singular gp M with Ok b => Ok (~~ b) | Err e => Err e end.
Proof. by rewrite /is_singular; case: (is_non_singular gp M). Qed.

(*@section C75 is_singular in f64 @*)

(*@doc C75: for every square f64 matrix (NaN and infinities included) is_singular and is_non_singular return, with opposite
  answers: A is called singular exactly if U of its LU decomposition has a zero on the diagonal. *)
Lemma is_singular_f64_L : forall gp n (A : 'M[b64]_n.+1),
  exists (d : lu_decomp B64) (U : 'M[b64]_n.+1),
  [/\ lu_new (S:=B64) gp (mat_of A) = Ok d, forall g, lu_get_u g d = Ok (mat_of U),
      is_singular (S:=B64) gp (mat_of A) = Ok [exists i, Beqb (U i i) b64_zero] &
      is_non_singular (S:=B64) gp (mat_of A) = Ok [forall i, ~~ Beqb (U i i) b64_zero]].
Proof.
move=> gp n A; have [d [s [f [q [e Hd _ _ _]]]]] := lu_new64 gp A.
exists d, (umx n.+1 n.+1 f).
have E : is_non_singular (S:=B64) gp (mat_of A) = Ok [forall i, ~~ Beqb (umx n.+1 n.+1 f i i) b64_zero].
  rewrite /is_non_singular (rep_cols (mat_of_rep b64_zero A)) // [bind _ _]/= eqxx /= e [bind _ _]/=.
  rewrite (lu_is_non_singular_ev Hd) //; congr Ok; apply/allP/forallP => h i.
    by have := h i; rewrite mem_iota ltn_ord => /(_ isT); rewrite mxE /ufnS leqnn.
  by rewrite mem_iota => hi; have := h (Ordinal hi); rewrite mxE /ufnS leqnn.
split=> //; last by rewrite sing_neg E negb_forall; congr Ok; apply: eq_existsb => i; rewrite negbK.
by move=> g; have := lu_get_u_ev Hd (ltn0Sn n) (ltn0Sn n) g; rewrite minnn => h; apply: wp_mat_of h _ => // i j; rewrite mxE.
Qed.

(*@doc C75: a square f64 matrix with elements at most M, without overflow by the bound of C63, that is called singular is
  close to a singular matrix: some E with all elements at most lu_error in magnitude makes (A + E) w = 0 for a w that is
  not zero. *)
Lemma is_singular_nearby_L : forall gp n (A : 'M[b64]_n.+1) M, let W := lu_bound n.+1 M n in
  (forall i j, finite (A i j) /\ Rabs (rv (A i j)) <= M) -> W <= 2 ^ 1023 ->
  is_singular (S:=B64) gp (mat_of A) = Ok true ->
  exists (E : 'I_n.+1 -> 'I_n.+1 -> R) (w : 'I_n.+1 -> R),
  [/\ forall i j, Rabs (E i j) <= lu_error n.+1 W, exists j, w j <> 0 &
      forall i, \rsum_(j < n.+1) ((rv (A i j) + E i j) * w j) = 0].
Proof.
move=> gp n A M W hA hB hs; pose N := n.+1.
have [d [s [f [q [e Hd Hp Hq [Hf Hpv FB]]]]]] := @lu_prio64 gp n n A M hA ltac:(by rewrite minnn).
rewrite minnn in FB; have M0 := bound_ge0 hA; have W0 : 0 <= W by apply: lu_bound_ge0.
have FW i k : (i < N)%N -> (k < N)%N -> finite (f i k) /\ (if (i <= k)%N then Rabs (rv (f i k)) <= W else Rabs (rv (f i k)) <= 1).
  move=> hi hk; have [h1 h2] := FB i k hi hk; split=> //; case: ifP h2 => // _ h2.
  by apply: Rle_trans h2 (lu_bound_le _ M0 _).
have FF i k : (i < N)%N -> (k < N)%N -> finite (f i k) by move=> hi hk; have [] := FW i k hi hk.
pose L i l := rv (lfnS (S:=B64) f i l); pose U l k := rv (ufnS (S:=B64) f l k).
have hL i l : (i < N)%N -> (l < N)%N -> Rabs (L i l) <= 1.
  move=> hi hl; rewrite /L /lfnS; case: (ltnP l i) => li.
    by have [_] := FW i l hi hl; have -> : (i <= l)%N = false by [lia].
  case: eqP => _; first by rewrite [n_one _]/(b64_int 1) rv_int1 Rabs_R1; lra.
  by rewrite Rabs_R0; lra.
have hU l k : (l < N)%N -> (k < N)%N -> Rabs (U l k) <= W.
  move=> hl hk; rewrite /U /ufnS; case: (leqP l k) => lk; last by rewrite Rabs_R0.
  by have [_] := FW l k hl hk; rewrite lk.
have nW : rsumn N (fun=> W) = INR N * W by elim: (N) => [|c IH]; rewrite ?rsumn0 ?rsumnS ?IH ?S_INR /=; ring.
have [k [hk zk]] : exists k, (k < N)%N /\ U k k = 0.
  move: hs; rewrite sing_neg /is_non_singular (rep_cols (mat_of_rep b64_zero A)) // [bind _ _]/= eqxx /= e [bind _ _]/=.
  rewrite (lu_is_non_singular_ev Hd) // => -[h]; have {h} /allPn[k] : ~~ all (fun j => ~~ Beqb (f j j) b64_zero) (iota 0 N) by exact: h.
  rewrite mem_iota => hk; rewrite negbK => z.
  have {}hk : (k < N)%N by lia.
  exists k; split=> //; rewrite /U /ufnS leqnn; move: z; rewrite eqb0; last exact: FF.
  by case: Req_bool_spec.
have [y [p [pn yp hy]]] := @null_vec N U k ltac:(by move=> i j ji; rewrite /U /ufnS leqNgt ji) hk zk.
pose Ep i j := rsumn N (fun l => L i l * U l j) - rv (fn b64_zero A (q i) j).
exists (fun i j => Ep (s^-1 i)%g j), (fun j => y j); split.
- move=> i0 j0; set i : nat := (s^-1 i0)%g; set j : nat := j0; have hi : (i < N)%N by exact: ltn_ord.
  have hj : (j < N)%N by exact: ltn_ord.
  have := lu_back Hf Hpv FF hi hj; rewrite minnn -/N => h.
  have {}h : Rabs (rv (fn b64_zero A (q i) j) - rsumn N (fun l => L i l * U l j)) <=
     err N * rsumn N (fun l => Rabs (L i l) * Rabs (U l j)) + grow N * eta64 * (INR N + rsumn N (fun l => Rabs (U l j))) by exact: h.
  rewrite /Ep Rabs_minus_sym; apply: Rle_trans h _; rewrite /lu_error -/N.
  have s1 : rsumn N (fun l => Rabs (L i l) * Rabs (U l j)) <= INR N * W.
    rewrite -nW; apply: rsumn_le => l hl; rewrite -[X in _ <= X]Rmult_1_l.
    by apply: Rmult_le_compat; [exact: Rabs_pos|exact: Rabs_pos|apply: hL|apply: hU].
  have s2 : rsumn N (fun l => Rabs (U l j)) <= INR N * W by rewrite -nW; apply: rsumn_le => l hl; apply: hU.
  have e1 := Rmult_le_compat_l _ _ _ (err_ge0 N) s1.
  have ge : 0 <= grow N * eta64 by have := grow_ge1 N; have := eta64_gt0; nra.
  have e2 := Rmult_le_compat_l _ _ _ ge s2.
  lra.
- by exists (Ordinal pn); rewrite [nat_of_ord _]/= yp; lra.
move=> i0; set i := (s^-1 i0)%g.
have qi : q i = i0 by rewrite Hq permKV.
rewrite (rsum_rsumn (G := fun j => rsumn N (fun l => L i l * (U l j * y j)))); last first.
  move=> j; rewrite /Ep qi fnE (rsumn_ext (f := fun l => L i l * (U l j * y j)) (g := fun l => y j * (L i l * U l j))); last by move=> l _; ring.
  by rewrite rsumn_scal; ring.
rewrite rsumn_swap (rsumn_ext (g := fun=> 0)); last by move=> l hl; rewrite rsumn_scal hy //; ring.
by elim: (N) => [|c IHc]; rewrite ?rsumn0 ?rsumnS ?IHc; ring.
Qed.

(*@doc C75: a matrix that is well-conditioned in the sense of C63 is called non-singular. *)
Lemma is_singular_well_conditioned_L : forall gp n (A : 'M[b64]_n.+1) M V K, let W := lu_bound n.+1 M n in
  (forall i j, finite (A i j) /\ Rabs (rv (A i j)) <= M) -> W <= 2 ^ 1023 ->
  left_inverse V A -> (forall i, \rsum_(l < n.+1) Rabs (V i l) <= K) -> K * (INR n.+1 * lu_error n.+1 W) < 1 ->
  is_singular (S:=B64) gp (mat_of A) = Ok false /\ is_non_singular (S:=B64) gp (mat_of A) = Ok true.
Proof.
move=> gp n A M V K W hA hW hV hK hC.
have [[d [e ens]] _] := @solve_well_conditioned_L gp (fun=> b64_zero) n 0 A (\matrix_(i, j) b64_zero)%R M V K hA hW hV hK hC.
have E : is_non_singular (S:=B64) gp (mat_of A) = Ok true.
  by rewrite /is_non_singular (rep_cols (mat_of_rep b64_zero A)) // [bind _ _]/= eqxx /= e [bind _ _]/=.
by split=> //; rewrite sing_neg E.
Qed.

(*@doc C75: a matrix that is not square makes both panic. *)
Lemma is_singular_panics_f64_L : forall m n (A : 'M[b64]_(m.+1, n.+1)) gp, m != n ->
  is_singular (S:=B64) gp (mat_of A) = Err Panic /\ is_non_singular (S:=B64) gp (mat_of A) = Err Panic.
Proof.
move=> m n A gp ne; rewrite sing_neg /is_non_singular (rep_cols (mat_of_rep b64_zero A)) //=.
by rewrite eqSS (negPf ne).
Qed.

(** ** two small matrices *)
Definition third : b64 := Bdiv mode_NE (b64_int 1) (b64_int 3).
Definition two_mx (a b c d : b64) : 'M[b64]_2 := (\matrix_(i < 2, j < 2) nth b64_zero [:: a; b; c; d] (i * 2 + j))%R.
Lemma two_mxE a b c d : mat_of (two_mx a b c d) = Mat 2 [:: a; b; c; d].
Proof.
apply/esym/(@rep_mat_of _ 2 2 _ (fun i j => nth b64_zero [:: a; b; c; d] (i * 2 + j))).
  by split=> //; split=> // -[|[|i]] // [|[|j]].
by move=> i j; rewrite mxE.
Qed.
Lemma ts_49 gp : is_singular (S:=B64) gp (Mat 2 [:: b64_int 49; b64_int 49; b64_int 1; b64_int 1]) = Ok false.
Proof. by vm_compute. Qed.
Lemma ts_3 gp : is_singular (S:=B64) gp (Mat 2 [:: b64_int 3; b64_int 1; b64_int 1; third]) = Ok true.
Proof. by vm_compute. Qed.
Lemma rv_third : rv (b64_int 3) = 3 /\ rv third = 6004799503160661 * bpow radix2 (-54).
Proof.
split; rewrite /rv -SF2R_B2SF.
  have -> : B2SF (b64_int 3) = SpecFloat.S754_finite false 6755399441055744 (-51) by vm_compute.
  by rewrite /SF2R /F2R /=; lra.
by have -> : B2SF third = SpecFloat.S754_finite false 6004799503160661 (-54) by vm_compute.
Qed.

(*@doc C75, finding: the test is exact, so that rounding decides: the singular f64 matrix [49 49; 1 1] is called non-singular,
  and the invertible [3 1; 1 t] with t the double nearest to 1/3, whose determinant 3 t - 1 is not 0, is called singular. *)
Lemma is_singular_f64_refuted_L : exists A B : 'M[b64]_2,
  [/\ (forall i j, finite (A i j) /\ finite (B i j)),
      (forall i, rv (A i ord0) = rv (A i ord_max)) /\ (forall gp, is_singular (S:=B64) gp (mat_of A) = Ok false) &
      rv (B ord0 ord0) * rv (B ord_max ord_max) - rv (B ord0 ord_max) * rv (B ord_max ord0) <> 0 /\
      (forall gp, is_singular (S:=B64) gp (mat_of B) = Ok true)].
Proof.
exists (two_mx (b64_int 49) (b64_int 49) (b64_int 1) (b64_int 1)), (two_mx (b64_int 3) (b64_int 1) (b64_int 1) third); split.
- by move=> [[|[|i]] hi] [[|[|j]] hj] //; rewrite !mxE.
- by split=> [[[|[|i]] hi]|gp] //; [rewrite !mxE|rewrite !mxE|rewrite two_mxE; exact: ts_49].
split=> [|gp]; last by rewrite two_mxE; exact: ts_3.
have [r3 rt] := rv_third.
set B := two_mx _ _ _ _.
have -> : B ord0 ord0 = b64_int 3 by rewrite mxE.
have -> : B ord0 ord_max = b64_int 1 by rewrite mxE.
have -> : B ord_max ord0 = b64_int 1 by rewrite mxE.
have -> : B ord_max ord_max = third by rewrite mxE.
rewrite rv_int1 r3 rt /=; lra.
Qed.

(*@example
(** the hypotheses of is_singular_nearby are met by the zero matrix of order 1 with M = 0; those of
    is_singular_well_conditioned by the matrix of solve_well_conditioned_example (PropFloatPrio.v) *)
Example is_singular_nearby_hyps (A : 'M[b64]_1 := (const_mx b64_zero)%R) : let W := lu_bound 1 1 0 in
  [/\ forall i j, finite (A i j) /\ Rabs (rv (A i j)) <= 1, W <= 2 ^ 1023 &
      forall gp, is_singular (S:=B64) gp (mat_of A) = Ok true].
Proof.
split.
- by move=> i j; rewrite mxE; split=> //; rewrite Rabs_R0; lra.
- have h : 2 ^ 3 <= 2 ^ 1023 by apply: Rle_pow; [lra|lia].
  apply: Rle_trans h; rewrite /lu_bound /grow /=; have := u64_lt1; have := u64_gt0.
  have := u64_lt1; have ue : eta64 <= / 1024 by apply: Rle_trans (Rlt_le _ _ u64_lt1); apply: Rinv_le_contravar; [apply: pow_lt; lra|apply: Rle_pow; [lra|lia]].
  have := eta64_gt0; move: (eta64) (u64) ue => y x; nra.
move=> gp; have -> : mat_of A = Mat 1 [:: b64_zero].
  by apply/esym/(@rep_mat_of _ 1 1 _ (fun _ _ => b64_zero)); [split=> //; split=> // -[|i] // [|j]|move=> i j; rewrite mxE].
by vm_compute.
Qed.
@*)
