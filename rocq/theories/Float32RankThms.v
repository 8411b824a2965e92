(** * (generated by tools/gen32.py from FloatRankThms.v) Float32RankThms: SVD::rank in f32 (C74) *)
From Coq Require Import ZArith Reals Lra Psatz.
From Flocq Require Import Core BinarySingleNaN.
From mathcomp Require Import all_ssreflect all_algebra zify.
From Verif Require Import Base Scalar Hoare ModelMatrix ModelSVD Spec MatrixProofs MatrixProofs2 B32 SpecFloat32 Float32Base Float32LU Float32QR.

Set Implicit Arguments.
Unset Strict Implicit.
Unset Printing Implicit Defensive.
Local Open Scope R_scope.


(** small integers are f32 numbers *)
Lemma rv_nat k : INR k < 2 ^ 24 -> finite (b32_int (Z.of_nat k)) /\ rv (b32_int (Z.of_nat k)) = INR k.
Proof.
move=> h; have := binary_normalize_correct b_prec b_emax b_prec_gt0 b_prec_lt mode_NE (Z.of_nat k) 0 false.
have fE : F2R (Float radix2 (Z.of_nat k) 0) = INR k by rewrite /F2R /= Rmult_1_r INR_IZR_INZ.
have k0 := pos_INR k.
have fm : generic_format radix2 (FLT_exp (SpecFloat.emin b_prec b_emax) b_prec) (INR k).
  apply: generic_format_FLT; exists (Float radix2 (Z.of_nat k) 0); [by rewrite fE|rewrite [Fnum _]/=|by []].
  apply: lt_IZR; rewrite abs_IZR -INR_IZR_INZ Rabs_pos_eq //.
  by apply: Rlt_le_trans h _; rewrite pow_bpow; right.
cbv zeta; rewrite fE round_generic // Rlt_bool_true.
  by case=> h1 [h2 _]; rewrite /finite h2; split=> //; exact: h1.
rewrite Rabs_pos_eq //; apply: Rlt_trans h _; rewrite pow_bpow; exact: bpow_lt.
Qed.

Lemma rv_eps : rv (b32_of 1 (-52)) = / 2 ^ 52.
Proof.
rewrite /rv -SF2R_B2SF; have -> : B2SF (b32_of 1 (-52)) = SpecFloat.S754_finite false 8388608 (-75) by vm_compute.
by rewrite /SF2R /F2R /=; lra.
Qed.

Definition rank_tol (D s : b32) : b32 := Bmult mode_NE (Bmult mode_NE D s) (b32_of 1 (-52)).

(** the loop of rank: what it counts *)
Lemma rank_count m n (Sm : 'M[b32]_(m.+1, n.+1)) (U : 'M[b32]_m.+1) (V : 'M[b32]_n.+1) : (m <= n)%N ->
  let tol := Bmult mode_NE (Bmult mode_NE (b32_int (Z.of_nat n.+1)) (Sm ord0 ord0)) (b32_of 1 (-52)) in
  svd_rank (SVDec (S:=B32) (mat_of U) (mat_of Sm) (mat_of V)) =
  Ok (count (fun i => Bltb tol (fn b32_zero Sm i i)) (iota 0 m.+1)).
Proof.
move=> mn tol; rewrite /svd_rank; cbn [svd_u svd_s svd_v].
have -> : rows (mat_of U) = m.+1 by [].
have -> : rows (mat_of V) = n.+1 by [].
have -> : rows (mat_of Sm) = m.+1 by [].
have -> : maxn m.+1 n.+1 = n.+1 by apply/maxn_idPr.
have G i : (i < m.+1)%N -> get (mat_of Sm) i i = Ok (fn b32_zero Sm i i).
  move=> hi; have hn : (i < n.+1)%N by lia.
  by rewrite (rep_get _ _ (mat_of_rep b32_zero Sm)) // hi hn.
rewrite G //; cbn [bind].
set tl := n_mul _ _; have -> : tl = tol by rewrite /tl /tol -(fnE b32_zero Sm ord0 ord0).
suff : wp (for_ 0 m.+1 (fun i r => x <-- get (mat_of Sm) i i ;; Ok (if s_ltb (s:=B32) tol x then r + 1 else r)%N) 0%N)
  (fun r => r = count (fun i => Bltb tol (fn b32_zero Sm i i)) (iota 0 m.+1)) by case/wp_ex => r E1 <-; exact: E1.
apply: (wpe_for (fun i r => r = count (fun i => Bltb tol (fn b32_zero Sm i i)) (iota 0 i))) => //.
move=> i r hi ->; rewrite G; last by lia.
cbn [bind]; apply: wpe_ok; rewrite -(addn1 i) iotaD count_cat add0n /= addn0.
by case: (Bltb tol _); rewrite ?addn0 ?addn1.
Qed.

(*@section C62 (C74 in f32) SVD::rank in f32 @*)

(*@doc C62 (C74 in f32): for f32 matrices U, S, V of the shapes of a decomposition with at least as many columns as rows, n + 1 < 2^24
  columns, rank succeeds and counts the selected elements of the diagonal of S.  If s = S_00 is finite and (n + 1) |s| is at
  most 2^127, an element is selected if it exceeds t = (n + 1) s 2^-52 by more than the error of two roundings, and not if
  it is below t by as much; between the two limits the rounding decides.  An element that is NaN is never selected.  If s is
  NaN or plus infinity, or (n + 1) s overflows, nothing is selected and the rank is 0. *)
Lemma svd_rank_rounding_f32_L : forall m n (Sm : 'M[b32]_(m.+1, n.+1)) (U : 'M[b32]_m.+1) (V : 'M[b32]_n.+1), (m <= n)%N -> INR n.+1 < 2 ^ 24 ->
  exists sel : 'I_m.+1 -> bool,
  [/\ svd_rank (SVDec (S:=B32) (mat_of U) (mat_of Sm) (mat_of V)) = Ok #|[set i | sel i]|,
      forall (i : 'I_m.+1) (j : 'I_n.+1), i = j :> nat -> is_nan (Sm i j) -> sel i = false,
      let s := Sm ord0 ord0 in
      let t := INR n.+1 * rv s / 2 ^ 52 in
      let e := err 2 * Rabs t + 2 * eta32 in
      finite s -> INR n.+1 * Rabs (rv s) <= 2 ^ 127 ->
      forall (i : 'I_m.+1) (j : 'I_n.+1), i = j :> nat -> finite (Sm i j) ->
        (t + e < rv (Sm i j) -> sel i = true) /\ (rv (Sm i j) <= t - e -> sel i = false) &
      is_nan (Sm ord0 ord0) \/ Sm ord0 ord0 = B754_infinity false \/
        (finite (Sm ord0 ord0) /\ 2 ^ 128 <= INR n.+1 * rv (Sm ord0 ord0)) -> forall i, sel i = false].
Proof.
move=> m n Sm U V mn n53; set D := b32_int (Z.of_nat n.+1); set s := Sm ord0 ord0.
pose tol := rank_tol D s.
exists (fun i => Bltb tol (fn b32_zero Sm i i)); split.
- rewrite rank_count // -/s -/D -/(rank_tol D s) -/tol; congr Ok; rewrite cardsE cardE /enum_mem size_filter -enumT -(count_map (fun i : 'I_m.+1 => i : nat) (fun i => Bltb tol (fn b32_zero Sm i i))).
  by rewrite val_enum_ord.
- move=> i j ij; rewrite -(fnE b32_zero Sm i j) -ij => hn.
  by move: hn; case: (fn _ _ _ _) => //; case: tol.
- move=> s' t e; rewrite -/s in s' t e *; rewrite /s' => fs hs i j ij fij.
  have [fD rD] := rv_nat n53; have e0 := eta32_gt0; have u0 := u32_gt0; have u1 := u32_lt1.
  have fP : finite (Bmult mode_NE D s).
    by apply: mul_ok32 => //; rewrite rD Rabs_mult Rabs_pos_eq; [exact: hs|exact: pos_INR].
  have [_ _ rP] := mul_finite fP; rewrite rD in rP.
  have [d1 [e1 [hd1 he1 EP]]] := rnd_mul (INR n.+1 * rv s); rewrite -rP in EP.
  have re := rv_eps; have p52 : 0 < / 2 ^ 52 <= / 2 by split; [apply: Rinv_0_lt_compat; apply: p2_gt0|apply: Rinv_le_contravar; [lra|apply: Rle_trans (_ : 2 ^ 1 <= _); [lra|apply: Rle_pow; [lra|lia]]]].
  have ft : finite tol.
    rewrite /tol /rank_tol; apply: mul_ok32 => //; rewrite re Rabs_mult (Rabs_pos_eq (/ _)); last lra.
    have h : Rabs (rv (Bmult mode_NE D s)) < bpow radix2 b_emax by exact: abs_B2R_lt_emax.
    have b1 : bpow radix2 b_emax = 2 * big32 by rewrite /big32 pow_bpow -(bpow_plus_1 radix2 127).
    rewrite b1 in h; have h0 : 0 <= Rabs (rv (Bmult mode_NE D s)) by exact: Rabs_pos.
    have : Rabs (rv (Bmult mode_NE D s)) * / 2 ^ 52 <= (2 * big32) * / 2 by apply: Rmult_le_compat; lra.
    by lra.
  have [_ _ rt] := mul_finite ft; rewrite re in rt.
  have [d2 [e2 [hd2 he2 ET]]] := rnd_mul (rv (Bmult mode_NE D s) * / 2 ^ 52); rewrite -rt in ET.
  have RT : rv tol = (INR n.+1 * rv s * (1 + d1) + e1) * / 2 ^ 52 * (1 + d2) + e2 by rewrite -EP; exact: ET.
  have key : Rabs (rv tol - t) <= e.
    have -> : rv tol - t = t * (d1 + d2 + d1 * d2) + (e1 * / 2 ^ 52 * (1 + d2) + e2).
      rewrite RT /t /s' /Rdiv; move: (INR n.+1) (rv s) (/ 2 ^ 52) => x1 x2 x3; ring.
    apply: Rle_trans (Rabs_triang _ _) _; rewrite /e; apply: Rplus_le_compat.
      rewrite Rabs_mult Rmult_comm; apply: Rmult_le_compat_r; first exact: Rabs_pos.
      have h3 := abs_mul_le hd1 hd2.
      have := Rabs_triang (d1 + d2) (d1 * d2); have := Rabs_triang d1 d2.
      by rewrite /err /grow /=; lra.
    apply: Rle_trans (Rabs_triang _ _) _; rewrite !Rabs_mult (Rabs_pos_eq (/ _)); last lra.
    have := Rabs_triang 1 d2; rewrite Rabs_R1 => h4.
    have h5 : Rabs e1 * / 2 ^ 52 <= eta32 * / 2 by apply: Rmult_le_compat; [exact: Rabs_pos|lra|lra|lra].
    have : Rabs e1 * / 2 ^ 52 * Rabs (1 + d2) <= eta32 * / 2 * 2.
      apply: Rmult_le_compat; [apply: Rmult_le_pos; [exact: Rabs_pos|lra]|exact: Rabs_pos|exact: h5|lra].
    by lra.
  have [k1 k2] := Rabs_le_inv _ _ key.
  have fE : fn b32_zero Sm i i = Sm i j by rewrite -(fnE b32_zero Sm i j) -ij.
  rewrite fE.
  rewrite Bltb_correct // -![B2R _]/(rv _); split=> h; [apply: Rlt_bool_true|apply: Rlt_bool_false]; lra.
have [fD rD] := rv_nat n53; have Dp : exists mm ee h, D = B754_finite false mm ee h.
  have : 0 < rv D by rewrite rD; apply: lt_0_INR; lia.
  case: (D) fD => [b|b||[] mm ee h] //= _; rewrite /rv /=; try lra; last by move=> _; exists mm, ee, h.
  by have := F2R_lt_0 radix2 (Float radix2 (Zneg mm) ee) erefl; rewrite /=; lra.
have [mm [ee [hm DE]]] := Dp.
have inf_tol (P : b32) : P = B754_infinity false \/ is_nan P -> forall x, Bltb (Bmult mode_NE P (b32_of 1 (-52))) x = false.
  have [m1 [x1 [h1 ->]]] : exists m1 x1 h1, b32_of 1 (-52) = B754_finite false m1 x1 h1 by eexists; eexists; eexists; reflexivity.
  by case=> [->|]; [case=> [?|[]||[] ? ? ?]|case: P].
move=> hs i; rewrite /tol /rank_tol; apply: inf_tol; rewrite DE; case: hs => [|[->|[fs hs]]]; [|by left|].
  by case: (s) => // _; right.
left; apply: B2SF_inj; rewrite -DE.
have := Bmult_correct b_prec b_emax b_prec_gt0 b_prec_lt mode_NE D s; rewrite -![B2R _]/(rv _) rD Rlt_bool_false.
  move=> ->; rewrite DE /=; have : 0 < rv s.
    have := p2_gt0 128; have := pos_INR n.+1; case: (Rle_lt_dec (rv s) 0) => // h k1 k2.
    by have := Rmult_le_compat_l _ _ _ k1 h; rewrite -/s in hs; lra.
  case: (s) fs => [b|b||[] m2 e2 h2] //= _; rewrite /rv /=; try lra.
  by have := F2R_lt_0 radix2 (Float radix2 (Zneg m2) e2) erefl; rewrite /=; lra.
apply: Rle_trans (Rle_abs _); rewrite pow_bpow in hs.
by apply: round_ge_generic hs; apply: generic_format_bpow.
Qed.

(*@doc C62 (C74 in f32), finding: with more rows than columns rank panics, whatever the elements are. *)
Lemma svd_rank_tall_panics_f32_L : forall m n (Sm : 'M[b32]_(m.+1, n.+1)) (U : 'M[b32]_m.+1) (V : 'M[b32]_n.+1), (n < m)%N ->
  svd_rank (SVDec (S:=B32) (mat_of U) (mat_of Sm) (mat_of V)) = Err Panic.
Proof.
move=> m n Sm U V mn.
rewrite /svd_rank; cbn [svd_u svd_s svd_v].
have -> : rows (mat_of U) = m.+1 by [].
have -> : rows (mat_of V) = n.+1 by [].
have -> : rows (mat_of Sm) = m.+1 by [].
have G i : get (mat_of Sm) i i = if (i < n.+1)%N then Ok (fn b32_zero Sm i i) else Err Panic.
  rewrite (rep_get _ _ (mat_of_rep b32_zero _)); case: (ltnP i n.+1) => h; rewrite ?andbT ?andbF //.
  by have -> : (i < m.+1)%N by lia.
rewrite G ltn0Sn; cbn [bind].
match goal with |- ?c0 = _ => set c := c0 end; suff : wpe (eq Panic) c (fun _ => False) by case: c => //= e <-.
apply: (@wpe_for_err _ _ (fun _ _ => True) _ _ n.+1); [by lia|by []| |].
- by move=> i r hi _; rewrite G; case: ifP.
by move=> r _; rewrite G ltnn.
Qed.

(** ** a well-conditioned matrix whose rank is reported as 0 *)
Definition big_l (x : b32) : seq b32 := [:: x; b32_zero; b32_zero; x].
Definition big_mx (x : b32) : 'M[b32]_2 := (\matrix_(i < 2, j < 2) nth b32_zero (big_l x) (i * 2 + j))%R.
Lemma big_mxE x : mat_of (big_mx x) = Mat 2 (big_l x).
Proof.
apply/esym/(@rep_mat_of _ 2 2 _ (fun i j => nth b32_zero (big_l x) (i * 2 + j))).
  by split=> //; split=> // -[|[|i]] // [|[|j]].
by move=> i j; rewrite mxE.
Qed.
Definition big_rank (x : b32) k gs gu gv ge gw gb gt1 gt2 : res nat :=
  match svd_new (S:=B32) (60 + k) gs gu gv ge gw gb gt1 gt2 (Mat 2 (big_l x)) with Ok d => svd_rank d | Err e => Err e end.
Lemma big_rank_0 k gs gu gv ge gw gb gt1 gt2 : big_rank (b32_of 1 127) k gs gu gv ge gw gb gt1 gt2 = Ok 0%N.
Proof. by vm_compute. Qed.
Lemma big_rank_2 k gs gu gv ge gw gb gt1 gt2 : big_rank (b32_of 1 126) k gs gu gv ge gw gb gt1 gt2 = Ok 2%N.
Proof. by vm_compute. Qed.

Lemma big_rankE x r k gs gu gv ge gw gb gt1 gt2 : big_rank x k gs gu gv ge gw gb gt1 gt2 = Ok r ->
  exists d, svd_new (S:=B32) (60 + k) gs gu gv ge gw gb gt1 gt2 (mat_of (big_mx x)) = Ok d /\ svd_rank d = Ok r.
Proof.
rewrite /big_rank (big_mxE x); move: (svd_new _ _ _ _ _ _ _ _ _ _) => [d|e] h; last by discriminate h.
by exists d; split; [reflexivity|exact: h].
Qed.
Lemma rv_big : rv (b32_of 1 127) = 2 ^ 127 /\ rv (b32_of 1 126) = 2 ^ 126.
Proof.
have p52 : IZR 8388608 = bpow radix2 23 by rewrite /=.
split; rewrite /rv -SF2R_B2SF.
  have -> : B2SF (b32_of 1 127) = SpecFloat.S754_finite false 8388608 104 by vm_compute.
  by rewrite /SF2R /F2R [Fnum _]/= [Fexp _]/= p52 -bpow_plus pow_bpow.
have -> : B2SF (b32_of 1 126) = SpecFloat.S754_finite false 8388608 103 by vm_compute.
by rewrite /SF2R /F2R [Fnum _]/= [Fexp _]/= p52 -bpow_plus pow_bpow.
Qed.

(*@doc C62 (C74 in f32), finding: SVD::new returns for the finite matrix 2^127 * I of order 2, and rank() of the decomposition is 0; for
  2^126 * I the rank is 2. *)
Lemma svd_rank_overflow_refuted_f32_L : exists A B : 'M[b32]_2,
  [/\ forall i j, finite (A i j) /\ rv (A i j) = if i == j then 2 ^ 127 else 0,
      forall i j, finite (B i j) /\ rv (B i j) = if i == j then 2 ^ 126 else 0 &
  forall fuel gs gu gv ge gw gb gt1 gt2, (60 <= fuel)%N ->
    (exists d, svd_new (S:=B32) fuel gs gu gv ge gw gb gt1 gt2 (mat_of A) = Ok d /\ svd_rank d = Ok 0%N) /\
    (exists d, svd_new (S:=B32) fuel gs gu gv ge gw gb gt1 gt2 (mat_of B) = Ok d /\ svd_rank d = Ok 2%N)].
Proof.
have [r1 r2] := rv_big; exists (big_mx (b32_of 1 127)), (big_mx (b32_of 1 126)); split.
- by move=> [[|[|i]] hi] [[|[|j]] hj] //; rewrite mxE; split=> //; exact: r1.
- by move=> [[|[|i]] hi] [[|[|j]] hj] //; rewrite mxE; split=> //; exact: r2.
move=> fuel gs gu gv ge gw gb gt1 gt2 hf; rewrite -(subnKC hf); set k := (fuel - 60)%N.
split; [exact: (big_rankE (big_rank_0 k gs gu gv ge gw gb gt1 gt2))|exact: (big_rankE (big_rank_2 k gs gu gv ge gw gb gt1 gt2))].
Qed.

(*@example
(** the hypotheses of svd_rank_rounding are met by the decomposition with S = I of order 2, and its rank is 2; with NaN or
    plus infinity as the first element it is 0, and the 2 x 1 decomposition panics *)
Example svd_rank_rounding_hyps : [/\ (1 <= 1)%N, INR 2 < 2 ^ 24, finite (b32_int 1) & INR 2 * Rabs (rv (b32_int 1)) <= 2 ^ 127].
Proof.
have h k : 1 <= 2 ^ k by apply: pow_R1_Rle; lra.
have -> : INR 2 = 2 by rewrite /=; lra.
rewrite rv_int1 Rabs_R1; split=> //; first by have := h 23%N; rewrite (_ : 2 ^ 24 = 2 * 2 ^ 23) //; lra.
by have := h 126%N; rewrite (_ : 2 ^ 127 = 2 * 2 ^ 126) //; lra.
Qed.
Definition rank_of (l : seq b32) : res nat :=
  svd_rank (SVDec (S:=B32) (Mat 2 l) (Mat 2 l) (Mat 2 l)).
Example rank_one : rank_of [:: b32_int 1; b32_zero; b32_zero; b32_int 1] = Ok 2%N. Proof. by vm_compute. Qed.
Example rank_nan : rank_of [:: B754_nan; b32_zero; b32_zero; b32_int 1] = Ok 0%N. Proof. by vm_compute. Qed.
Example rank_inf : rank_of [:: B754_infinity false; b32_zero; b32_zero; b32_int 1] = Ok 0%N. Proof. by vm_compute. Qed.
Example rank_tall : svd_rank (SVDec (S:=B32) (Mat 2 [:: b32_int 1; b32_zero; b32_zero; b32_int 1]) (Mat 2 [:: b32_int 1; b32_zero]) (Mat 1 [:: b32_int 1])) = Err Panic.
Proof. by vm_compute. Qed.
@*)
