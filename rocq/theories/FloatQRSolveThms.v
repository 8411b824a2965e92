(** * FloatQRSolveThms: is_full_rank and solve of the QR decomposition in f64 (C73) *)
From Coq Require Import ZArith Reals Lra Psatz.
From Flocq Require Import Core BinarySingleNaN.
From mathcomp Require Import all_ssreflect all_algebra zify.
From Verif Require Import Base Scalar Hoare ModelMatrix ModelQR Spec MatrixProofs MatrixProofs2 LUProofs LUEval QREval B64 SpecFloat64 SpecFloatPinvPrio FloatBase FloatLU FloatChol FloatCholThms FloatCholFull RealVec QRReal FloatQR FloatQRThms FloatQRPrio FloatQRPrioThms.

Set Implicit Arguments.
Unset Strict Implicit.
Unset Printing Implicit Defensive.
Local Open Scope R_scope.

(** the loops of solve keep the shape of the data, whatever the numbers *)
Section Shape.
Variables (m n nx : nat) (d : qr_decomp B64) (f : nat -> nat -> b64) (r : nat -> b64).
Hypothesis Hd : rep m n (qr d) f.
Hypothesis Hr : repr1 (minn m n) (rdiag d) r.

Lemma qt_shape x b : (n <= m)%N -> repr m nx x b -> wp (qr_solve_qt (S:=B64) d m n nx x) (fun x' => exists y, repr m nx x' y).
Proof.
move=> nm Hx; rewrite /qr_solve_qt.
apply: (wpe_for (fun _ x => exists y, repr m nx x y)) => //; first by exists b.
move=> k x1 hk H1; have kn : (k < n)%N by lia.
have km : (k < m)%N by lia.
apply: (wpe_for (fun _ x => exists y, repr m nx x y)) => // c x2 hc [y2 H2].
apply: wpe_bind; apply: (wpe_for (fun _ _ => True)) => //; first exact: ltnW.
  move=> i s hi _; rewrite (rep_vget Hd) //; [|by lia]; cbn [bind].
  by rewrite (repr_get H2) //; lia.
move=> s _; rewrite (rep_vget Hd) //; cbn [bind]; rewrite bdiv_tot; cbn [bind].
apply: (wpe_for (fun _ x => exists y, repr m nx x y)); [exact: ltnW|by exists y2| |by []].
move=> i x3 hi [y3 H3]; rewrite (repr_get H3) //; [|by lia]; cbn [bind].
rewrite (rep_vget Hd) //; [|by lia]; cbn [bind].
apply: (wpe_repr_set H3); [by lia|by lia|move=> v Hv]; by eexists; exact: Hv.
Qed.

Lemma r_shape x b : (n <= m)%N -> repr m nx x b -> wp (qr_solve_r (S:=B64) d n nx x) (fun x' => exists y, repr m nx x' y).
Proof.
move=> nm Hx; rewrite /qr_solve_r; have en : minn m n = n by apply/minn_idPr.
apply: (wpe_for_rev (fun _ x => exists y, repr m nx x y)) => //; first by exists b.
move=> k x1 hk [y1 H1]; have kn : (k < n)%N by lia.
have km : (k < m)%N by lia.
apply: wpe_bind; apply: (wpe_for (fun _ x => exists y, repr m nx x y)) => //; first by exists y1.
  move=> c x2 hc [y2 H2]; rewrite (repr_get H2) //; cbn [bind].
  rewrite (repr1_get Hr) ?en //; cbn [bind]; rewrite bdiv_tot; cbn [bind].
  by apply: (wpe_repr_set H2) => // v Hv; eexists; exact: Hv.
move=> x2 H2; apply: (wpe_for (fun _ x => exists y, repr m nx x y)) => // i x3 hi H3.
apply: (wpe_for (fun _ x => exists y, repr m nx x y)) => // c x4 hc [y4 H4].
rewrite (repr_get H4) //; [|by lia]; cbn [bind]; rewrite (repr_get H4) //; cbn [bind].
rewrite (rep_vget Hd) //; [|by lia]; cbn [bind].
apply: (wpe_repr_set H4); [by lia|by lia|move=> v Hv]; by eexists; exact: Hv.
Qed.

Lemma full_rank64 : (0 < m)%N ->
  qr_is_full_rank d = if has (fun j => Beqb (r j) b64_zero) (iota 0 (minn m n)) then Ok false
                      else if (n <= m)%N then Ok true else Err Panic.
Proof.
move=> m0; rewrite /qr_is_full_rank (rep_cols Hd) //; cbn [bind].
set body := (fun j (_ : unit) => _).
have step j : (j < minn m n)%N -> body j tt = Ok (if Beqb (r j) b64_zero then Stop false else Next tt).
  by move=> hj; rewrite /body (repr1_get Hr) //=; case: (Beqb _ _).
rewrite /forc subn0.
suff gen k lo : (lo + k)%N = minn m n -> forc_n (n - lo) lo body tt =
   if has (fun j => Beqb (r j) b64_zero) (iota lo k) then Ok (Stop false) else if (n <= m)%N then Ok (Next tt) else Err Panic.
  by have := gen (minn m n) 0%N (add0n _); rewrite subn0 => ->; case: ifP => // _; case: ifP.
elim: k lo => [|k IH] lo elo.
  rewrite [iota _ _]/= [has _ _]/=; case: (leqP n m) => nm.
    by have -> : (n - lo = 0)%N by lia.
  have -> : (n - lo)%N = (n - lo).-1.+1 by lia.
  have h : body lo tt = Err Panic by rewrite /body vget_oob // (repr1_size Hr); lia.
  by rewrite /= h.
have -> : (n - lo)%N = (n - lo.+1).+1 by lia.
rewrite /= step; last by lia.
by case: (Beqb (r lo) b64_zero) => //=; rewrite IH //; lia.
Qed.
End Shape.

(*@section C73 is_full_rank and solve of the QR decomposition of an f64 matrix @*)
(*@doc C73: for every f64 matrix A (NaN and infinities included) and every right-hand side B.  is_full_rank is false exactly
  if the computed R has a zero on its diagonal, true otherwise for a matrix that is not wide, and a panic for a wide one.
  solve panics if the numbers of rows differ; otherwise the result is None if R has a zero on its diagonal, and if it has
  none, solve panics for every matrix that is not square and returns some matrix of the right shape for a square one. *)
Lemma qr_solve_outcome_L : forall g m n m' k (A : 'M[b64]_(m.+1, n.+1)) (B : 'M[b64]_(m', k.+1)),
  exists (d : qr_decomp B64) (Rm : 'M[b64]_(m.+1, n.+1)),
  [/\ qr_new (S:=B64) g (mat_of A) = Ok d, forall g, qr_get_r g d = Ok (mat_of Rm),
      qr_is_full_rank d = (if diag_zero Rm then Ok false else if (n <= m)%N then Ok true else Err Panic) &
      if m' != m.+1 then qr_solve (S:=B64) d (mat_of B) = Err Panic
      else if diag_zero Rm then qr_solve (S:=B64) d (mat_of B) = Ok None
      else if m == n then exists X : 'M[b64]_(n.+1, k.+1), qr_solve (S:=B64) d (mat_of B) = Ok (Some (mat_of X))
      else qr_solve (S:=B64) d (mat_of B) = Err Panic].
Proof.
move=> g m n m' k A B; have [d [e Hd Hr eR _]] := qr_new64 g A.
set F := q_seq _ _ _ _ _ in Hd eR; set rd := q_rd _ _ _ _ in Hr eR; set mn := minn _ _ in Hd Hr eR.
set Rm := mxn _ _ _ in eR; exists d, Rm.
have fr : qr_is_full_rank d = (if diag_zero Rm then Ok false else if (n <= m)%N then Ok true else Err Panic).
  rewrite (full_rank64 Hd Hr) //; congr (if _ then _ else _); apply/hasP/existsP => [[j]|[i /existsP[j /andP[/eqP ij z]]]].
    rewrite mem_iota add0n => /= hj z; have h1 : (j < m.+1)%N by lia.
    have h2 : (j < n.+1)%N by lia.
    exists (Ordinal h1); apply/existsP; exists (Ordinal h2); rewrite /= eqxx /= mxE /wfnS /= ltnn eqxx.
    by rewrite -/mn /mn hj.
  exists (i : nat); first by rewrite mem_iota /=; have := ltn_ord i; have := ltn_ord j; lia.
  have im : (i < mn)%N by rewrite /mn; have := ltn_ord i; have := ltn_ord j; lia.
  by move: z; rewrite mxE /wfnS ij ltnn eqxx -ij im.
split=> //; case: (altP (m' =P m.+1)) => [em|ne] /=; last first.
  rewrite /qr_solve /rows (rep_no_rows Hd).
  have -> : no_rows (mat_of B) = m' by [].
  by rewrite (negbTE ne).
subst m'; have HB := mat_of_rep b64_zero B.
have eS0 : qr_solve (S:=B64) d (mat_of B) = bind (qr_is_full_rank d) (fun fr => if ~~ fr then Ok None else
    xd <-- qr_solve_qt d m.+1 n.+1 k.+1 (get_data (mat_of B)) ;; xd <-- qr_solve_r d n.+1 k.+1 xd ;;
    x <-- new n.+1 k.+1 xd ;; Ok (Some x)).
  rewrite /qr_solve /rows (rep_no_rows Hd) (rep_no_rows HB) eqxx; cbn [require].
  case: (qr_is_full_rank d) => // b; cbn [bind]; case: b => //; cbn [negb].
  by rewrite (rep_cols HB) //; cbn [bind]; rewrite (rep_cols Hd).
rewrite eS0 fr; case: (diag_zero Rm) => //.
case: (leqP n m) => nm; cbn [bind negb]; last by have -> : (m == n) = false by lia.
have /wp_ex [x1 e1 [y1 H1]] := qt_shape Hd nm (proj2 HB).
have /wp_ex [x2 e2 [y2 H2]] := r_shape Hd Hr nm H1.
rewrite e1; cbn [bind]; rewrite e2; cbn [bind].
case: (altP (m =P n)) => [en|ne].
  subst n; exists (mxn m.+1 k.+1 y2); have := new_rep (ltn0Sn m) (ltn0Sn k) H2.
  move=> /(wp_mat_of (A := mxn m.+1 k.+1 y2)) h; rewrite h // => i j; by rewrite mxE.
rewrite /new (repr_size H2).
by have -> // : (n.+1 * k.+1 == m.+1 * k.+1)%N = false by rewrite eqn_pmul2r //; lia.
Qed.

(*@doc C73, finding: for an f64 matrix with more rows than columns that satisfies the conditions of C68 (columns of norm at
  most M, singular values at least sg), the least squares problem that solve is for, solve always panics. *)
Lemma qr_solve_least_squares_refuted_L : forall g m n k (A : 'M[b64]_(m.+1, n.+1)) (B : 'M[b64]_(m.+1, k.+1)) M sg, (n < m)%N ->
  (forall i j, finite (A i j)) -> 64 * err (m.+1 + 3) <= 1 ->
  (forall j, sqrt (\rsum_(i < m.+1) (rv (A i j) ^ 2)) <= M) -> M <= 2 ^ 198 ->
  (forall x : 'I_n.+1 -> R,
     sg * sqrt (\rsum_(j < n.+1) (x j ^ 2)) <= sqrt (\rsum_(i < m.+1) ((\rsum_(j < n.+1) (rv (A i j) * x j)) ^ 2))) ->
  / 2 ^ 169 <= sg -> 2 * INR n.+1 * qr_err m.+1 n.+1 M <= sg ->
  exists d, [/\ qr_new (S:=B64) g (mat_of A) = Ok d, qr_is_full_rank d = Ok true & qr_solve (S:=B64) d (mat_of B) = Err Panic].
Proof.
move=> g m n k A B M sg nm FA E1 hM M2 hS S2 hq.
have [d [Rm [eN _ fr hs]]] := qr_solve_outcome_L g A B.
have [d1 [Rm1 [H1 [Q1 [[e1 _ _ _ f1] _]]]]] := qr_no_overflow_L g (ltnW nm) FA E1 hM M2 hS S2 hq.
move: e1; rewrite eN => -[dd]; subst d1; exists d; split=> //; move: fr hs; rewrite f1 eqxx; cbn [negb].
by case: (diag_zero Rm) => // _; have -> : (m == n) = false by lia.
Qed.

(** ** three small systems *)
Definition sing_l : seq b64 := [seq b64_int (Z.of_nat k) | k <- [:: 1; 3; 2; 6]%N].
Definition sing_b : seq b64 := [seq b64_int (Z.of_nat k) | k <- [:: 1; 2]%N].
Definition sing_mx : 'M[b64]_2 := mxn 2 2 (fun i j => nth b64_zero sing_l (i * 2 + j)).
Definition sing_rhs : 'M[b64]_(2, 1) := mxn 2 1 (fun i j => nth b64_zero sing_b i).
Lemma sing_matE : mat_of sing_mx = Mat 2 sing_l.
Proof.
apply/esym/(@rep_mat_of _ 2 2 _ (fun i j => nth b64_zero sing_l (i * 2 + j))).
  by split=> //; split=> // -[|[|i]] // [|[|j]].
by move=> i j; rewrite mxE.
Qed.
Lemma sing_rhsE : mat_of sing_rhs = Mat 2 sing_b.
Proof.
apply/esym/(@rep_mat_of _ 2 1 _ (fun i j => nth b64_zero sing_b i)).
  by split=> //; split=> // -[|[|i]] // [|j].
by move=> i j; rewrite mxE.
Qed.
Definition sing_check (g : nat -> B64) : bool :=
  match qr_new (S:=B64) g (Mat 2 sing_l) with
  | Ok d => match qr_is_full_rank d, qr_solve d (Mat 2 sing_b) with
            | Ok true, Ok (Some X) => match data X with [:: x; y] => [&& is_finite x, is_finite y & Bleb (b64_of 1 52) (Babs x)] | _ => false end
            | _, _ => false
            end
  | _ => false
  end.
Lemma sing_ok g : sing_check g.
Proof. by vm_cast_no_check (erefl true). Qed.
Definition one_mx (x : b64) : 'M[b64]_1 := mxn 1 1 (fun _ _ => x).
Definition one_check (a b : b64) (p : res (option (mat B64)) -> bool) (g : nat -> B64) : bool :=
  match qr_new (S:=B64) g (Mat 1 [:: a]) with
  | Ok d => p (qr_solve d (Mat 1 [:: b]))
  | _ => false
  end.
Definition is_three (r : res (option (mat B64))) : bool :=
  if r is Ok (Some X) then if data X is [:: x] then Beqb x (b64_int 3) else false else false.
Definition is_none (r : res (option (mat B64))) : bool := if r is Ok None then true else false.
Lemma three_ok g : one_check (b64_int 2) (b64_int 2) is_three g. Proof. by vm_cast_no_check (erefl true). Qed.
Lemma none_ok g : one_check (b64_of 1 (-600)) (b64_int 1) is_none g. Proof. by vm_cast_no_check (erefl true). Qed.

Lemma rv_int6 : [/\ rv (b64_int 2) = 2, rv (b64_int 3) = 3 & rv (b64_int 6) = 6].
Proof.
split; rewrite /rv -SF2R_B2SF.
- have -> : B2SF (b64_int 2) = SpecFloat.S754_finite false 4503599627370496 (-51) by vm_compute.
  by rewrite /SF2R /F2R /=; lra.
- have -> : B2SF (b64_int 3) = SpecFloat.S754_finite false 6755399441055744 (-51) by vm_compute.
  by rewrite /SF2R /F2R /=; lra.
have -> : B2SF (b64_int 6) = SpecFloat.S754_finite false 6755399441055744 (-50) by vm_compute.
by rewrite /SF2R /F2R /=; lra.
Qed.

(*@doc C73, finding: rounding makes is_full_rank call the singular matrix [1 3; 2 6] regular, and solve returns a finite
  matrix whose first element is at least 2^52 in magnitude for the right-hand side [1; 2], the first column. *)
Lemma qr_full_rank_f64_refuted_L : exists (A : 'M[b64]_2) (B : 'M[b64]_(2, 1)),
  [/\ rv (A ord0 ord0) = 1 /\ rv (A ord_max ord0) = 2, rv (A ord0 ord_max) = 3 /\ rv (A ord_max ord_max) = 6,
      rv (B ord0 ord0) = 1 /\ rv (B ord_max ord0) = 2 &
  forall g, exists d (X : 'M[b64]_(2, 1)),
  [/\ qr_new (S:=B64) g (mat_of A) = Ok d, qr_is_full_rank d = Ok true, qr_solve (S:=B64) d (mat_of B) = Ok (Some (mat_of X)),
      forall i j, finite (X i j) & 2 ^ 52 <= Rabs (rv (X ord0 ord0))]].
Proof.
have [r2 r3 r6] := rv_int6; exists sing_mx, sing_rhs; split; rewrite ?mxE //.
- by split; [exact: rv_int1|exact: r2].
- by split; [exact: rv_int1|exact: r2].
move=> g; have [d [Rm [e _ fr hs]]] := qr_solve_outcome_L g sing_mx sing_rhs.
have := sing_ok g; rewrite /sing_check -sing_matE -sing_rhsE e.
case ef : (qr_is_full_rank d) => [[|]|] //; move: hs; rewrite eqxx; cbn [negb].
case: (diag_zero Rm); first by move=> ->.
rewrite ?eqxx => -[X eX]; rewrite eX.
have -> : data (mat_of X) = [:: X ord0 ord0; X ord_max ord0].
  have -> // : mat_of X = Mat 2 [:: X ord0 ord0; X ord_max ord0].
  apply/esym/(@rep_mat_of _ 2 1 _ (fun i j => nth b64_zero [:: X ord0 ord0; X ord_max ord0] i)).
    by split=> //; split=> // -[|[|i]] // [|j].
  by move=> [[|[|i]] hi] j //=; rewrite (ord1 j); congr (X _ _); apply: val_inj.
move=> /and3P[f0 f1 le]; exists d, X; split=> //.
  by move=> [[|[|i]] hi] j //; rewrite (ord1 j); [have -> : Ordinal hi = ord0 by exact: val_inj|have -> : Ordinal hi = ord_max by exact: val_inj].
move: le; rewrite Bleb_correct //; last by rewrite is_finite_Babs.
rewrite B2R_Babs -[B2R (X _ _)]/(rv _) => h; have {h} : B2R (b64_of 1 52) <= Rabs (rv (X ord0 ord0)) by case: Rle_bool_spec h.
rewrite -SF2R_B2SF; have -> : B2SF (b64_of 1 52) = SpecFloat.S754_finite false 4503599627370496 0 by vm_compute.
by rewrite /SF2R /F2R /=; lra.
Qed.

(*@doc C73, finding: the f64 solution of 2 x = 2 is 3, and for the invertible matrix [2^-600] the answer is None. *)
Lemma qr_solve_f64_refuted_L :
  (exists A B : 'M[b64]_1, rv (A ord0 ord0) = 2 /\ rv (B ord0 ord0) = 2 /\ forall g, exists d (X : 'M[b64]_1),
     [/\ qr_new (S:=B64) g (mat_of A) = Ok d, qr_solve (S:=B64) d (mat_of B) = Ok (Some (mat_of X)) & rv (X ord0 ord0) = 3]) /\
  (exists A B : 'M[b64]_1, [/\ finite (A ord0 ord0), rv (A ord0 ord0) <> 0, rv (B ord0 ord0) = 1 &
     forall g, exists d, qr_new (S:=B64) g (mat_of A) = Ok d /\ qr_solve (S:=B64) d (mat_of B) = Ok None]).
Proof.
have [r2 r3 _] := rv_int6.
have mE x : mat_of (one_mx x) = Mat 1 [:: x] by rewrite mat1E mxE.
split.
  exists (one_mx (b64_int 2)), (one_mx (b64_int 2)); rewrite !mxE; split=> //; split=> // g.
  have [d [Rm [e _ _ hs]]] := qr_solve_outcome_L g (one_mx (b64_int 2)) (one_mx (b64_int 2)).
  have := three_ok g; rewrite /one_check -mE e; move: hs; rewrite eqxx; cbn [negb].
  case: (diag_zero Rm); first by move=> ->.
  rewrite ?eqxx => -[X eX]; rewrite eX /is_three mat1E => h; exists d, X; split=> //.
  move: h; rewrite [data _]/=; case fx : (is_finite (X ord0 ord0)).
    by rewrite Beqb_correct //; case: Req_bool_spec => // h _; rewrite /rv h -[B2R _]/(rv _).
  by move: fx; case: (X ord0 ord0) => // -[].
exists (one_mx (b64_of 1 (-600))), (one_mx (b64_int 1)); rewrite !mxE; split=> //; [|exact: rv_int1|].
  have : Bltb b64_zero (b64_of 1 (-600)) by [].
  by rewrite Bltb_correct //; case: Rlt_bool_spec => // h _ z; move: h; rewrite -![B2R _]/(rv _) z /= => /Rlt_irrefl.
move=> g; have [d [Rm [e _ _ hs]]] := qr_solve_outcome_L g (one_mx (b64_of 1 (-600))) (one_mx (b64_int 1)).
have := none_ok g; rewrite /one_check -!mE e => h; exists d; split=> //.
by move: h; case: (qr_solve _ _) => // -[].
Qed.

(*@example
(** all the outcomes occur: a wide matrix panics in is_full_rank or has no full rank; the hypotheses of
    qr_solve_least_squares_refuted are met by the 3 x 2 matrix of qr_no_overflow_hyps (PropFloatQRPrio.v) *)
Definition wide_rank (l : seq nat) (g : nat -> B64) : res bool :=
  match qr_new (S:=B64) g (Mat 1 [seq b64_int (Z.of_nat k) | k <- l]) with Ok d => qr_is_full_rank d | Err e => Err e end.
Example wide_rank_panics : wide_rank [:: 1; 2]%N (fun=> B754_nan) = Err Panic. Proof. by vm_cast_no_check (erefl (@Err bool Panic)). Qed.
Example wide_rank_false : wide_rank [:: 0; 2]%N (fun=> B754_nan) = Ok false. Proof. by vm_cast_no_check (erefl (Ok false)). Qed.
@*)
