(** * MatrixThms: proofs of the property theorems about matrix.rs that need no
    decomposition (restated in PropMatrix.v). *)
From mathcomp Require Import all_ssreflect all_algebra zify.
From mathcomp Require Import fingroup perm.
From Verif Require Import Base Scalar Hoare ModelMatrix Spec MatrixProofs MatrixProofs2 MtProofs.

Set Implicit Arguments.
Unset Strict Implicit.
Unset Printing Implicit Defensive.
Import GRing.Theory.

(** Relational helpers for the proofs *)
Lemma exists_fn T m n (A : 'M[T]_(m, n)) : 0 < m -> 0 < n ->
  exists x0 : T, rep m n (mat_of A) (fn x0 A).
Proof.
by move=> m0 n0; exists (A (Ordinal m0) (Ordinal n0)); apply: mat_of_rep.
Qed.

Lemma map_val_filter m (p : nat -> bool) :
  filter p (iota 0 m) = map val (filter (fun i : 'I_m => p i) (enum 'I_m)).
Proof. by rewrite -val_enum_ord filter_map. Qed.

Lemma all_val m (s : seq 'I_m) : all (fun k => k < m) (map val s).
Proof. by apply/allP => k /mapP[i _ ->]; apply: ltn_ord. Qed.

(*@section C01 construction @*)
(*@doc C01: [new r c d] succeeds on consistent shapes, row-major. *)
Lemma new_ok_L : forall T r c (d : seq T), r * c = size d -> 0 < r -> 0 < c ->
  exists2 A : 'M[T]_(r, c), new r c d = Ok (mat_of A) &
    forall (i : 'I_r) (j : 'I_c) x0, A i j = nth x0 d (i * c + j).
Proof.
move=> T r c d e r0 c0; case: d e => [|x1 d] e; first by rewrite /= in e; nia.
exists (\matrix_(i < r, j < c) nth x1 (x1 :: d) (i * c + j)%N)%R; last first.
  by move=> i j x0; rewrite mxE (set_nth_default x0) // -e idx_lt.
apply: (@wp_mat_of _ _ _ _ (fun i j => nth x1 (x1 :: d) (i * c + j))) => [|i j]; last by rewrite mxE.
by apply: new_rep => //; apply: repr_nth.
Qed.

(*@doc C01: every other argument panics. *)
Lemma new_panics_L : forall T r c (d : seq T),
  ~~ [&& r * c == size d, 0 < r & 0 < c] -> new r c d = Err Panic.
Proof. by move=> T r c d; rewrite /new; case: eqP => //= _ /negPf ->. Qed.

(*@doc C01: vector gives a column with the data in order; empty data panics. *)
Lemma vector_ok_L : forall T (d : seq T), 0 < size d ->
  exists2 A : 'cV[T]_(size d), vector d = Ok (mat_of A) &
    forall (i : 'I_(size d)) j x0, A i j = nth x0 d i.
Proof.
move=> T [//|x1 d] _; set n := size _.
exists (\matrix_(i < n, j < 1) nth x1 (x1 :: d) i)%R; last first.
  by move=> i j x0; rewrite mxE (set_nth_default x0).
apply: (@wp_mat_of _ _ _ _ (fun i j => nth x1 (x1 :: d) i)) => [|i j]; last by rewrite mxE.
by rewrite /vector /=; apply: rep_Mat; apply/repr1_col; apply: repr1_nth.
Qed.

Lemma vector_panics_L : forall T, vector (T:=T) [::] = Err Panic.
Proof. by []. Qed.

(*@doc C01: row_vector gives a row with the data in order; empty data panics. *)
Lemma row_vector_ok_L : forall T (d : seq T), 0 < size d ->
  exists2 A : 'rV[T]_(size d), row_vector d = Ok (mat_of A) &
    forall i (j : 'I_(size d)) x0, A i j = nth x0 d j.
Proof.
move=> T [//|x1 d] _; set n := size _.
exists (\matrix_(i < 1, j < n) nth x1 (x1 :: d) j)%R; last first.
  by move=> i j x0; rewrite mxE (set_nth_default x0).
apply: (@wp_mat_of _ _ _ _ (fun i j => nth x1 (x1 :: d) (i * n + j))) => [|i j]; last first.
  by rewrite mxE; have -> : i = ord0 by apply: val_inj; case: i => -[]; rewrite //= mul0n.
by rewrite /row_vector /=; apply: rep_Mat; apply: repr_nth; rewrite mul1n.
Qed.

Lemma row_vector_panics_L : forall T, row_vector (T:=T) [::] = Err Panic.
Proof. by []. Qed.

(*@doc C01: the observers report the shape and the row-major data. *)
Lemma observers_L : forall T m n (A : 'M[T]_(m, n)), 0 < m ->
  [/\ rows (mat_of A) = m, cols (mat_of A) = Ok n, size (get_data (mat_of A)) = m * n &
      forall (i : 'I_m) (j : 'I_n) x0, nth x0 (get_data (mat_of A)) (i * n + j) = A i j].
Proof.
move=> T m n A m0; split=> //.
- by rewrite /cols /udiv size_mat_of /= -[m == 0]negbK -lt0n m0 /= mulKn.
- exact: size_mat_of.
- move=> i j x0; have := mat_of_vget A i j.
  by rewrite (vgetE x0) ?size_mat_of ?idx_lt // => -[].
Qed.

(*@doc C01: every value the constructors can return represents a mathematical
    matrix, so theorems about [mat_of A] cover all of them. *)
Lemma constructed_wf_L : forall T (M : mat T),
  ((exists r c d, new r c d = Ok M) \/ (exists d, vector d = Ok M) \/ (exists d, row_vector d = Ok M)) ->
  exists m n (A : 'M[T]_(m.+1, n.+1)), M = mat_of A.
Proof.
move=> T M H; apply: mat_of_surj; rewrite /wf.
case: H => [[r [c [d]]]|[[d]|[d]]].
- rewrite /new; case: eqP => //= e; case: ltnP => //= r0; case: ltnP => //= c0 [<-] /=.
  by rewrite r0 -e muln_gt0 r0 c0 dvdn_mulr.
- by rewrite /vector; case: ltnP => //= d0 [<-] /=; rewrite d0 dvdnn.
- by rewrite /row_vector; case: ltnP => //= d0 [<-] /=; rewrite d0 dvd1n.
Qed.

(*@example
(** C01 on concrete values: a 2 x 3 matrix is accepted, 2 x 2 from three
    elements and a 0 x 5 matrix are rejected. *)
Example new_accepts : exists A : 'M[nat]_(2, 3),
  new 2 3 [:: 1; 2; 3; 4; 5; 6] = Ok (mat_of A) /\ A (inord 1) (inord 2) = 6.
Proof.
have [//|//|//|A eA hA] := @new_ok nat 2 3 [:: 1; 2; 3; 4; 5; 6].
by exists A; split=> //; rewrite (hA _ _ 0) !inordK.
Qed.
Example new_rejects : new 2 2 [:: 1; 2; 3] = Err Panic /\ new (T:=nat) 0 5 [::] = Err Panic.
Proof. by []. Qed.
@*)

(*@section C02 element access @*)
(*@doc C02: reading inside the bounds. *)
Lemma get_ok_L : forall T m n (A : 'M[T]_(m, n)) (i : 'I_m) (j : 'I_n),
  get (mat_of A) i j = Ok (A i j) /\ get_ref (mat_of A) i j = Ok (A i j).
Proof.
move=> T m n A i j.
by rewrite (rep_get_ref _ _ (mat_of_rep (A i j) A)) (rep_get _ _ (mat_of_rep (A i j) A)) !ltn_ord /= fnE.
Qed.

(*@doc C02: reading or writing outside the bounds panics. *)
Lemma access_panics_L : forall T m n (A : 'M[T]_(m, n)) i j x,
  0 < m -> ~~ ((i < m) && (j < n)) ->
  [/\ get (mat_of A) i j = Err Panic, get_ref (mat_of A) i j = Err Panic,
      set (mat_of A) i j x = Err Panic & write_mref (mat_of A) i j x = Err Panic].
Proof.
move=> T m n A i j x m0 h; have H := mat_of_rep x A.
by rewrite (rep_get_ref _ _ H) (rep_get _ _ H) (negPf h) /write_mref -/(set _ _ _ _) !(rep_set_oob _ H).
Qed.

(*@doc C02: a write changes exactly one element; get_mref is the same write. *)
Lemma set_ok_L : forall T m n (A : 'M[T]_(m, n)) (i : 'I_m) (j : 'I_n) x,
  let B := (\matrix_(i', j') if (i' == i) && (j' == j) then x else A i' j')%R in
  set (mat_of A) i j x = Ok (mat_of B) /\ write_mref (mat_of A) i j x = Ok (mat_of B).
Proof.
move=> T m n A i j x B; rewrite /write_mref -/(set _ _ _ _).
suff -> : set (mat_of A) i j x = Ok (mat_of B) by [].
have [M' -> H'] := rep_set x (mat_of_rep x A) (ltn_ord i) (ltn_ord j).
by congr Ok; apply: rep_mat_of H' _ => i' j'; rewrite mxE fnE !val_eqE.
Qed.

(*@doc C02: read-over-write. *)
Lemma get_set_L : forall T m n (A : 'M[T]_(m, n)) (i i' : 'I_m) (j j' : 'I_n) x,
  exists2 M, set (mat_of A) i j x = Ok M &
    get M i' j' = if (i' == i) && (j' == j) then Ok x else get (mat_of A) i' j'.
Proof.
move=> T m n A i i' j j' x; have [-> _] := set_ok_L A i j x; eexists; first by [].
by rewrite !(proj1 (get_ok_L _ _ _)) mxE; case: ifP.
Qed.

(*@section C03 transpose @*)
(*@doc C03 *)
Lemma t_ok_L : forall T g m n (A : 'M[T]_(m, n)), 0 < m ->
  t g (mat_of A) = Ok (mat_of A^T).
Proof.
move=> T g m n A m0; apply: wp_mat_of (rep_t g (mat_of_rep (g 0) A) m0) _ => i j.
by rewrite mxE fnE.
Qed.

(*@doc C03: transposing twice gives the matrix back. *)
Lemma t_t_L : forall T g1 g2 m n (A : 'M[T]_(m, n)), 0 < m -> 0 < n ->
  bind (t g1 (mat_of A)) (t g2) = Ok (mat_of A).
Proof. by move=> T g1 g2 m n A m0 n0; rewrite t_ok_L //= t_ok_L // trmxK. Qed.

(*@section C04 in-place transpose @*)
(*@doc C04: the cycle-following in-place transpose computes the transpose, for
    every shape; in particular the fuel given to its loop always suffices. *)
Lemma mt_ok_L : forall T m n (A : 'M[T]_(m, n)), 0 < m -> 0 < n ->
  mt (mat_of A) = Ok (mat_of A^T).
Proof.
move=> T m n A m0 n0; have [x0 H] := exists_fn A m0 n0.
apply: wp_mat_of (rep_mt H m0 n0) _ => i j; by rewrite mxE fnE.
Qed.

Lemma mt_is_t_L : forall T g m n (A : 'M[T]_(m, n)), 0 < m -> 0 < n ->
  mt (mat_of A) = t g (mat_of A).
Proof. by move=> T g m n A m0 n0; rewrite mt_ok_L ?t_ok_L. Qed.

(*@doc C04: the boundary: on a matrix without elements (which the constructors
    reject, but zero(0, n) produces) mt panics. *)
Lemma mt_empty_panics_L : forall T r, mt (T:=T) (Mat r [::]) = Err Panic.
Proof. by []. Qed.

(*@section C05 concatenation @*)
(*@doc C05 *)
Lemma cr_ok_L : forall T g m n1 n2 (A : 'M[T]_(m, n1)) (B : 'M[T]_(m, n2)), 0 < m ->
  cr g (mat_of A) (mat_of B) = Ok (mat_of (row_mx A B)) /\
  bitor g (mat_of A) (mat_of B) = Ok (mat_of (row_mx A B)).
Proof.
move=> T g m n1 n2 A B m0.
suff E : cr g (mat_of A) (mat_of B) = Ok (mat_of (row_mx A B)) by [].
apply: wp_mat_of (rep_cr g (mat_of_rep (g 0) A) (mat_of_rep (g 0) B) m0) _ => i j.
rewrite mxE; case: splitP => k ->; first by rewrite ?ltn_ord fnE.
by rewrite ?[in X in if X then _ else _]ltnNge ?leq_addr /= addKn fnE.
Qed.

Lemma cr_panics_L : forall T g m1 m2 n1 n2 (A : 'M[T]_(m1, n1)) (B : 'M[T]_(m2, n2)),
  m1 != m2 -> cr g (mat_of A) (mat_of B) = Err Panic.
Proof. by move=> T g m1 m2 n1 n2 A B ne; rewrite /cr /= (negPf ne). Qed.

(*@doc C05 *)
Lemma cb_ok_L : forall T g m1 m2 n (A : 'M[T]_(m1, n)) (B : 'M[T]_(m2, n)), 0 < m1 -> 0 < m2 ->
  cb g (mat_of A) (mat_of B) = Ok (mat_of (col_mx A B)).
Proof.
move=> T g m1 m2 n A B m10 m20.
apply: wp_mat_of (rep_cb g (mat_of_rep (g 0) A) (mat_of_rep (g 0) B) m10 m20) _ => i j.
rewrite mxE; case: splitP => k ->; first by rewrite ?ltn_ord fnE.
by rewrite ?[in X in if X then _ else _]ltnNge ?leq_addr /= addKn fnE.
Qed.

Lemma cb_panics_L : forall T g m1 m2 n1 n2 (A : 'M[T]_(m1, n1)) (B : 'M[T]_(m2, n2)),
  0 < m1 -> 0 < m2 -> n1 != n2 -> cb g (mat_of A) (mat_of B) = Err Panic.
Proof.
move=> T g m1 m2 n1 n2 A B m10 m20 ne.
exact: (cb_panic g (mat_of_rep (g 0) A) (mat_of_rep (g 0) B)).
Qed.

(*@section C06 minor @*)
(*@doc C06: [row'] / [col'] delete a row / column. *)
Lemma minor_ok_L : forall T g m n (A : 'M[T]_(m, n)) (r : 'I_m) (c : 'I_n), 1 < m -> 1 < n ->
  minor g (mat_of A) r c = Ok (mat_of (row' r (col' c A))).
Proof.
move=> T g m n A r c m1 n1.
have H := rep_minor g (mat_of_rep (g 0) A) (ltn_ord r) (ltn_ord c) m1 n1.
by apply: wp_mat_of H _ => i j; rewrite !mxE -(fnE (g 0)).
Qed.

Lemma minor_panics_L : forall T g m n (A : 'M[T]_(m, n)) r c, 0 < m ->
  ~~ [&& r < m, c < n, 1 < m & 1 < n] -> minor g (mat_of A) r c = Err Panic.
Proof. by move=> T g m n A r c m0; apply: minor_panic (mat_of_rep (g 0) A) m0. Qed.

(*@section C07 sub_matrix @*)
(*@doc C07, the part that holds: a block that lies inside the matrix and is
    strictly smaller than it in both directions is returned correctly. *)
Lemma sub_matrix_block_partial_L : forall T g m n (A : 'M[T]_(m, n)) r0 c0 r1 c1,
  r0 < r1 -> r1 <= m -> c0 < c1 -> c1 <= n -> r1 - r0 < m -> c1 - c0 < n ->
  exists2 B : 'M[T]_(r1 - r0, c1 - c0), sub_matrix g (mat_of A) r0 c0 r1 c1 = Ok (mat_of B) &
    forall (i : 'I_(r1 - r0)) (j : 'I_(c1 - c0)) (i' : 'I_m) (j' : 'I_n),
      i' = r0 + i :> nat -> j' = c0 + j :> nat -> B i j = A i' j'.
Proof.
move=> T g m n A r0 c0 r1 c1 r01 r1m c01 c1n rm cn.
have ok : sub_ok m n r0 c0 r1 c1.
  have h : r1.-1 * n + c1 <= m * n.
    have h1 : r1.-1 * n + n <= m * n by rewrite -mulSnr leq_mul2r; lia.
    lia.
  by rewrite /sub_ok r01 c01 rm cn.
have H := rep_sub_matrix g (mat_of_rep (g 0) A) ok.
have /wp_ex[M -> HM] := H.
eexists; first by rewrite (rep_matrix HM).
move=> i j i' j' ei ej; rewrite mxE /= -ei -ej.
have hj := ltn_ord j'.
rewrite divnMDl ?modnMDl ?(divn_small hj) ?(modn_small hj) ?addn0 ?fnE //; lia.
Qed.

(*@doc C07 is violated (1): the whole height (or width) of a matrix cannot be
    extracted, although the range is legal. *)
Lemma sub_matrix_full_height_refuted_L : forall T g m n (A : 'M[T]_(m, n)) r0 c0 r1 c1, 0 < m ->
  ((r0 == 0) && (r1 == m)) || ((c0 == 0) && (c1 == n)) ->
  sub_matrix g (mat_of A) r0 c0 r1 c1 = Err Panic.
Proof.
move=> T g m n A r0 c0 r1 c1 m0 h.
apply: (sub_matrix_panic g (mat_of_rep (g 0) A) m0).
rewrite /sub_ok; move: h => /orP[/andP[/eqP -> /eqP ->]|/andP[/eqP -> /eqP ->]];
  by rewrite !subn0 ltnn !andbF.
Qed.

(*@doc C07 is violated (2): a column range that leaves the matrix is accepted
    and the block silently wraps around into the next row. *)
Lemma sub_matrix_wraps_refuted_L : forall g : nat -> nat,
  sub_matrix g (Mat 3 [:: 1; 2; 3; 4; 5; 6; 7; 8; 9]) 0 2 1 4 = Ok (Mat 1 [:: 3; 4]).
Proof. by []. Qed.

(*@doc C07, complete description: the exact set of accepted arguments, and the
    value returned on all of them (element k of the flat data, not (i,j)). *)
Lemma sub_matrix_exact_L : forall T g m n (A : 'M[T]_(m, n)) r0 c0 r1 c1, 0 < m ->
  let accepted := [&& r0 < r1, c0 < c1, r1 - r0 < m, c1 - c0 < n & (r1.-1 * n + c1 <= m * n)] in
  if accepted then
    exists2 B : 'M[T]_(r1 - r0, c1 - c0), sub_matrix g (mat_of A) r0 c0 r1 c1 = Ok (mat_of B) &
      forall (i : 'I_(r1 - r0)) (j : 'I_(c1 - c0)) x0,
        B i j = nth x0 (get_data (mat_of A)) ((r0 + i) * n + (c0 + j))
  else sub_matrix g (mat_of A) r0 c0 r1 c1 = Err Panic.
Proof.
move=> T g m n A r0 c0 r1 c1 m0 /=; case: ifP => ok; last first.
  apply: (sub_matrix_panic g (mat_of_rep (g 0) A) m0).
  by rewrite /sub_ok ok.
have H := rep_sub_matrix g (mat_of_rep (g 0) A) ok.
have /wp_ex[M -> HM] := H.
eexists; first by rewrite (rep_matrix HM).
move=> i j x0; rewrite mxE /=.
set k := (r0 + i) * n + (c0 + j).
have hk : k < m * n.
  move: ok => /and5P[r01 c01 rm cn bnd].
  have hi := ltn_ord i; have hj := ltn_ord j.
  have h1 : (r0 + i) * n <= r1.-1 * n by rewrite leq_mul2r; lia.
  rewrite /k; lia.
have := repr1_get (repr_flat (proj2 (mat_of_rep (g 0) A))) hk.
by rewrite (vgetE x0) ?size_mat_of // => -[->].
Qed.

(*@section C08 get_column @*)
(*@doc C08 *)
Lemma get_column_ok_L : forall T g m n (A : 'M[T]_(m, n)) (c : 'I_n), 0 < m ->
  get_column g (mat_of A) c = Ok (mat_of (col c A)).
Proof.
move=> T g m n A c m0.
have H := rep_get_column g (mat_of_rep (g 0) A) m0 (ltn_ord c).
by apply: wp_mat_of H _ => i j; rewrite mxE fnE.
Qed.

Lemma get_column_panics_L : forall T g m n (A : 'M[T]_(m, n)) c, 0 < m -> n <= c ->
  get_column g (mat_of A) c = Err Panic.
Proof. by move=> T g m n A c m0; apply: get_column_panic (mat_of_rep (g 0) A) m0. Qed.

(*@section C09 permute @*)
(*@doc C09: row i of the result is row rs[i] of the input (any list of valid
    row numbers, repetitions allowed). *)
Lemma permute_rows_ok_L : forall T g m n (A : 'M[T]_(m, n)) (rs : seq 'I_m), 0 < m ->
  permute_rows g (mat_of A) (map val rs) =
    Ok (mat_of (\matrix_(i < size rs, j < n) A (tnth (in_tuple rs) i) j)%R).
Proof.
move=> T g m n A rs m0.
have := rep_permute_rows g (mat_of_rep (g 0) A) m0 (all_val rs); rewrite size_map => H.
apply: wp_mat_of H _ => i j.
rewrite mxE (tnth_nth (tnth (in_tuple rs) i)) (nth_map (tnth (in_tuple rs) i)) //.
by rewrite fnE.
Qed.

Lemma permute_rows_panics_L : forall T g m n (A : 'M[T]_(m, n)) (rs : seq nat), 0 < m ->
  ~~ all (fun k => k < m) rs -> permute_rows g (mat_of A) rs = Err Panic.
Proof. by move=> T g m n A rs m0; apply: permute_rows_panic (mat_of_rep (g 0) A) m0. Qed.

(*@doc C09 *)
Lemma permute_columns_ok_L : forall T g m n (A : 'M[T]_(m, n)) (cs : seq 'I_n), 0 < m ->
  permute_columns g (mat_of A) (map val cs) =
    Ok (mat_of (\matrix_(i < m, j < size cs) A i (tnth (in_tuple cs) j))%R).
Proof.
move=> T g m n A cs m0.
have := rep_permute_columns g (mat_of_rep (g 0) A) m0 (all_val cs); rewrite size_map => H.
apply: wp_mat_of H _ => i j.
rewrite mxE (tnth_nth (tnth (in_tuple cs) j)) (nth_map (tnth (in_tuple cs) j)) //.
by rewrite fnE.
Qed.

Lemma permute_columns_panics_L : forall T g m n (A : 'M[T]_(m, n)) (cs : seq nat), 0 < m ->
  ~~ all (fun k => k < n) cs -> permute_columns g (mat_of A) cs = Err Panic.
Proof. by move=> T g m n A rs m0; apply: permute_columns_panic (mat_of_rep (g 0) A) m0. Qed.

(*@doc C09: for a permutation s, given as the list s(0), s(1), ..., the result
    is mathcomp's row_perm / col_perm. *)
Lemma permute_perm_L : forall T g m n (A : 'M[T]_(m, n)) (s : 'S_m) (u : 'S_n), 0 < m ->
  permute_rows g (mat_of A) (perm_list s) = Ok (mat_of (row_perm s A)) /\
  permute_columns g (mat_of A) (perm_list u) = Ok (mat_of (col_perm u A)).
Proof.
move=> T g m n A s u m0; split.
  have a : all (fun k => k < m) (perm_list s) by apply/allP => k /mapP[i _ ->]; apply: ltn_ord.
  have := rep_permute_rows g (mat_of_rep (g 0) A) m0 a; rewrite size_map size_enum_ord => H.
  apply: wp_mat_of H _ => i j.
  by rewrite (nth_map i) ?size_enum_ord // nth_ord_enum fnE mxE.
have a : all (fun k => k < n) (perm_list u) by apply/allP => k /mapP[i _ ->]; apply: ltn_ord.
have := rep_permute_columns g (mat_of_rep (g 0) A) m0 a; rewrite size_map size_enum_ord => H.
apply: wp_mat_of H _ => i j.
by rewrite (nth_map j) ?size_enum_ord // nth_ord_enum fnE mxE.
Qed.

(*@doc C09: permuting with s and then with its inverse restores the matrix. *)
Lemma permute_inverse_L : forall T g1 g2 m n (A : 'M[T]_(m, n)) (s : 'S_m), 0 < m ->
  bind (permute_rows g1 (mat_of A) (perm_list s)) (fun M => permute_rows g2 M (perm_list s^-1%g))
  = Ok (mat_of A).
Proof.
move=> T g1 g2 m n A s m0.
have [-> _] := permute_perm_L g1 A s 1%g m0; rewrite /=.
have [-> _] := permute_perm_L g2 (row_perm s A) s^-1%g 1%g m0.
by congr (Ok (mat_of _)); apply/matrixP => i j; rewrite !mxE permKV.
Qed.

(*@section C10 filter and select @*)
(*@doc C10 *)
Lemma filter_rows_ok_L : forall T g p m n (A : 'M[T]_(m, n)), 0 < m ->
  let keep := [seq i <- enum 'I_m | p (mat_of A) (val i)] in
  filter_rows g p (mat_of A) =
    Ok (mat_of (\matrix_(i < size keep, j < n) A (tnth (in_tuple keep) i) j)%R).
Proof.
move=> T g p m n A m0 keep.
have := permute_rows_ok_L g A keep m0; rewrite /keep -map_val_filter => <-.
by rewrite /filter_rows /rows /= (for_filter (p := p (mat_of A))).
Qed.

(*@doc C10 *)
Lemma filter_columns_ok_L : forall T g p m n (A : 'M[T]_(m, n)), 0 < m ->
  let keep := [seq i <- enum 'I_n | p (mat_of A) (val i)] in
  filter_columns g p (mat_of A) =
    Ok (mat_of (\matrix_(i < m, j < size keep) A i (tnth (in_tuple keep) j))%R).
Proof.
move=> T g p m n A m0 keep.
have := permute_columns_ok_L g A keep m0; rewrite /keep -map_val_filter => <-.
by rewrite /filter_columns (rep_cols (mat_of_rep (g 0) A)) //= (for_filter (p := p (mat_of A))).
Qed.

(*@doc C10: the selector must have exactly one flag per row. *)
Lemma select_rows_ok_L : forall T g m n (A : 'M[T]_(m, n)) (sel : seq bool), 0 < m -> size sel = m ->
  let keep := [seq i <- enum 'I_m | nth false sel (val i)] in
  select_rows g (mat_of A) sel =
    Ok (mat_of (\matrix_(i < size keep, j < n) A (tnth (in_tuple keep) i) j)%R).
Proof.
move=> T g m n A sel m0 sz keep.
have := permute_rows_ok_L g A keep m0; rewrite /keep -map_val_filter => <-.
rewrite /select_rows /= sz eqxx /= (for_filter (p := nth false sel)) //.
by move=> i rs hi; rewrite (vgetE false) ?sz.
Qed.

(*@doc C10 *)
Lemma select_columns_ok_L : forall T g m n (A : 'M[T]_(m, n)) (sel : seq bool), 0 < m -> size sel = n ->
  let keep := [seq i <- enum 'I_n | nth false sel (val i)] in
  select_columns g (mat_of A) sel =
    Ok (mat_of (\matrix_(i < m, j < size keep) A i (tnth (in_tuple keep) j))%R).
Proof.
move=> T g m n A sel m0 sz keep.
have := permute_columns_ok_L g A keep m0; rewrite /keep -map_val_filter => <-.
rewrite /select_columns (rep_cols (mat_of_rep (g 0) A)) //= sz eqxx /=.
by rewrite (for_filter (p := nth false sel)) // => i rs hi; rewrite (vgetE false) ?sz.
Qed.

Lemma select_panics_L : forall T g m n (A : 'M[T]_(m, n)) (sel : seq bool), 0 < m ->
  (size sel != m -> select_rows g (mat_of A) sel = Err Panic) /\
  (size sel != n -> select_columns g (mat_of A) sel = Err Panic).
Proof.
move=> T g m n A sel m0; split=> h.
  exact: select_rows_panic (mat_of_rep (g 0) A) h.
exact: select_columns_panic (mat_of_rep (g 0) A) m0 h.
Qed.

(*@doc C10, boundary: when nothing is kept the result has no rows, and the next
    call of cols() on it panics (division by zero). *)
Lemma filter_nothing_L : forall T g m n (A : 'M[T]_(m, n)), 0 < m ->
  exists2 M, filter_rows g (fun _ _ => false) (mat_of A) = Ok M & cols M = Err Panic.
Proof.
move=> T g m n A m0; rewrite filter_rows_ok_L //; eexists; first by [].
rewrite /cols /udiv /=; case: ifP => //.
by have -> : [seq _ <- enum 'I_m | false] = [::] by elim: (enum _).
Qed.

(*@section C11 map and reduce @*)
(*@doc C11 *)
Lemma map_ok_L : forall T S (g : nat -> S) (h : T -> S) m n (A : 'M[T]_(m, n)), 0 < m -> 0 < n ->
  map_ g h (mat_of A) = Ok (mat_of (map_mx h A)).
Proof.
move=> T S g h m n A m0 n0; have [x0 H] := exists_fn A m0 n0.
by apply: wp_mat_of (rep_map g h H) _ => i j; rewrite mxE fnE.
Qed.

(*@doc C11 *)
Lemma mmap_ok_L : forall T (h : T -> T) m n (A : 'M[T]_(m, n)), 0 < m -> 0 < n ->
  mmap h (mat_of A) = Ok (mat_of (map_mx h A)).
Proof.
move=> T h m n A m0 n0; have [x0 H] := exists_fn A m0 n0.
by apply: wp_mat_of (rep_mmap h H) _ => i j; rewrite mxE fnE.
Qed.

(*@doc C11: column j is folded from top to bottom starting at init[j]. *)
Lemma reduce_ok_L : forall T S (h : S -> T -> S) m n (A : 'M[T]_(m, n)) (init : n.-tuple S),
  0 < m -> 0 < n ->
  reduce init h (mat_of A) =
    Ok (mat_of (\row_(j < n) foldl h (tnth init j) [seq A i j | i <- enum 'I_m])%R).
Proof.
move=> T S h m n A init m0 n0; have [x0 H] := exists_fn A m0 n0.
have s0 := tnth init (Ordinal n0).
have H' := rep_reduce h s0 H m0 n0 (size_tuple init).
apply: wp_mat_of H' _ => i j; rewrite mxE -tnth_nth; congr foldl.
by rewrite -val_enum_ord -map_comp; apply: eq_map => k /=; rewrite fnE.
Qed.

Lemma reduce_panics_L : forall T S (h : S -> T -> S) (init : seq S) m n (A : 'M[T]_(m, n)),
  0 < m -> 0 < n -> size init != n -> reduce init h (mat_of A) = Err Panic.
Proof.
move=> T S h init m n A m0 n0; have [x0 H] := exists_fn A m0 n0.
exact: reduce_panic H m0.
Qed.

(*@section C12 constructors @*)
(*@doc C12: for any element type. *)
Lemma id_ok_L : forall (N : numops) g m n,
  id g m n = Ok (mat_of (\matrix_(i < m, j < n) if i == j :> nat then n_one N else n_zero N)%R).
Proof. by move=> N g m n; apply: wp_mat_of (rep_id g m n) _ => i j; rewrite mxE. Qed.

(*@doc C12: over a ring and for a square shape, [id] is the identity matrix. *)
Lemma id_square_L : forall (R : ringType) g n, id (N := ring_num R) g n n = Ok (mat_of (1%:M : 'M[R]_n)%R).
Proof.
move=> R g n; rewrite id_ok_L; congr (Ok (mat_of _)); apply/matrixP => i j.
by rewrite !mxE val_eqE; case: eqP.
Qed.

(*@doc C12 *)
Lemma constants_ok_L : forall (N : numops) g m n,
  [/\ zero g m n = Ok (mat_of (const_mx (n_zero N) : 'M_(m, n))),
      zero_vector g m = Ok (mat_of (const_mx (n_zero N) : 'cV_m)) &
      one_vector g m = Ok (mat_of (const_mx (n_one N) : 'cV_m))].
Proof.
move=> N g m n; split.
- by apply: wp_mat_of (rep_zero g m n) _ => i j; rewrite mxE.
- by apply: wp_mat_of (rep_zero_vector g m) _ => i j; rewrite mxE.
- by apply: wp_mat_of (rep_one_vector g m) _ => i j; rewrite mxE.
Qed.

(*@doc C12 *)
Lemma diag_ok_L : forall (N : numops) g (ds : seq N), 0 < size ds ->
  diag g ds = Ok (mat_of (\matrix_(i < size ds, j < size ds)
                            if i == j then nth (n_zero N) ds i else n_zero N)%R).
Proof.
move=> N g ds s0; apply: wp_mat_of (rep_diag g s0) _ => i j.
by rewrite mxE val_eqE.
Qed.

(*@doc C12: block_diag wants exactly min(m, n) diagonal entries. *)
Lemma block_diag_ok_L : forall (N : numops) g m n (ds : seq N), 0 < m -> 0 < n ->
  block_diag g m n ds =
    if size ds == minn m n then
      Ok (mat_of (\matrix_(i < m, j < n) if i == j :> nat then nth (n_zero N) ds i else n_zero N)%R)
    else Err Panic.
Proof.
move=> N g m n ds m0 n0; case: eqP => e; last by rewrite block_diag_panic //; apply/eqP.
by apply: wp_mat_of (rep_block_diag g m0 n0 e) _ => i j; rewrite mxE.
Qed.

(*@doc C12: random has the requested shape; element (i,j) is the (i*n+j)-th draw. *)
Lemma random_ok_L : forall T g rnd m n,
  random (T:=T) g rnd m n = Ok (mat_of (\matrix_(i < m, j < n) rnd (i * n + j)%N)%R).
Proof. by move=> T g rnd m n; apply: wp_mat_of (rep_random g rnd m n) _ => i j; rewrite mxE. Qed.

(*@section C13 element-wise operators @*)
(*@doc C13: unary operators, any element type; the in-place twins agree. *)
Lemma unary_ok_L : forall (N : numops) g m n (A : 'M[N]_(m, n)) k,
  [/\ neg g (mat_of A) = Ok (mat_of (map_mx (n_neg (n:=N)) A)),
      mneg (mat_of A) = neg g (mat_of A),
      scale g (mat_of A) k = Ok (mat_of (map_mx (n_mul k) A)) &
      mscale (mat_of A) k = scale g (mat_of A) k].
Proof.
move=> N g m n A k; have H := mat_of_rep (n_zero N) A.
have pw h : pointwise1 g h (mat_of A) = Ok (mat_of (map_mx h A)).
  by apply: wp_mat_of (rep_pointwise1 g h H) _ => i j; rewrite mxE fnE.
have mpw h : mpointwise1 h (mat_of A) = Ok (mat_of (map_mx h A)).
  by apply: wp_mat_of (rep_mpointwise1 h H) _ => i j; rewrite mxE fnE.
by rewrite /neg /mneg /scale /mscale !pw !mpw.
Qed.

(*@doc C13: binary operators that cannot fail on elements, any element type. *)
Lemma binary_ok_L : forall (N : numops) g m n (A B : 'M[N]_(m, n)), 0 < m ->
  [/\ add g (mat_of A) (mat_of B) = Ok (mat_of (\matrix_(i, j) n_add (A i j) (B i j))%R),
      sub g (mat_of A) (mat_of B) = Ok (mat_of (\matrix_(i, j) n_sub (A i j) (B i j))%R) &
      elem_mul g (mat_of A) (mat_of B) = Ok (mat_of (\matrix_(i, j) n_mul (A i j) (B i j))%R)].
Proof.
move=> N g m n A B m0; have H := mat_of_rep (n_zero N) A; have H2 := mat_of_rep (n_zero N) B.
have pw h : pointwise2 g (fun x y => Ok (h x y)) (mat_of A) (mat_of B)
            = Ok (mat_of (\matrix_(i, j) h (A i j) (B i j))%R).
  apply: wp_mat_of (rep_pointwise2 g (k := h) H H2 m0 _) _ => // i j.
  by rewrite mxE !fnE.
by rewrite /add /sub /elem_mul !pw.
Qed.

(*@doc C13: element-wise division succeeds iff every element division does. *)
Lemma elem_div_ok_L : forall (N : numops) g m n (A B Q : 'M[N]_(m, n)), 0 < m ->
  (forall i j, n_div (A i j) (B i j) = Ok (Q i j)) ->
  elem_div g (mat_of A) (mat_of B) = Ok (mat_of Q).
Proof.
move=> N g m n A B Q m0 hq.
have H := mat_of_rep (n_zero N) A; have H2 := mat_of_rep (n_zero N) B.
pose q x y := if n_div x y is Ok z then z else n_zero N.
apply: wp_mat_of (rep_pointwise2 g (k := q) H H2 m0 _) _ => i j.
  by move=> hi hj; rewrite !(fn_lt _ _ hi hj) hq /q hq.
by rewrite !fnE /q hq.
Qed.

Lemma elem_div_panics_L : forall (N : numops) g m n (A B : 'M[N]_(m, n)) i j,
  (forall i j e, n_div (A i j) (B i j) = Err e -> e = Panic) ->
  n_div (A i j) (B i j) = Err Panic ->
  elem_div g (mat_of A) (mat_of B) = Err Panic.
Proof.
move=> N g m n A B i j uniq hp.
have H := mat_of_rep (n_zero N) A; have H2 := mat_of_rep (n_zero N) B.
apply: (pointwise2_err g (i0 := i) (j0 := j) H H2); rewrite ?fnE //.
by move=> i' j' e hi hj; rewrite !(fn_lt _ _ hi hj); apply: uniq.
Qed.

(*@doc C13: shape mismatch panics. *)
Lemma binary_panics_L : forall (N : numops) g m n m' n' (A : 'M[N]_(m, n)) (B : 'M[N]_(m', n')),
  0 < m -> ~~ ((m == m') && (n == n')) ->
  [/\ add g (mat_of A) (mat_of B) = Err Panic, sub g (mat_of A) (mat_of B) = Err Panic,
      elem_mul g (mat_of A) (mat_of B) = Err Panic & elem_div g (mat_of A) (mat_of B) = Err Panic].
Proof.
move=> N g m n m' n' A B m0 ne.
have H := mat_of_rep (n_zero N) A; have H2 := mat_of_rep (n_zero N) B.
by split; apply: pointwise2_panic H H2 m0 ne.
Qed.

(*@doc C13: every in-place operator leaves exactly what the pure one returns,
    for every element arithmetic, all shapes, success and failure alike. *)
Lemma inplace_agrees_L : forall (N : numops) g m n m' n' (A : 'M[N]_(m, n)) (B : 'M[N]_(m', n')),
  [/\ madd (mat_of A) (mat_of B) = add g (mat_of A) (mat_of B),
      msub (mat_of A) (mat_of B) = sub g (mat_of A) (mat_of B),
      melem_mul (mat_of A) (mat_of B) = elem_mul g (mat_of A) (mat_of B),
      melem_div (mat_of A) (mat_of B) = elem_div g (mat_of A) (mat_of B) &
      mmul g (mat_of A) (mat_of B) = mul g (mat_of A) (mat_of B)].
Proof.
move=> N g m n m' n' A B.
have H := mat_of_rep (n_zero N) A; have H2 := mat_of_rep (n_zero N) B.
by split=> //; apply: pointwise2_inplace H H2.
Qed.

(*@doc C13 over a ring: the operators are the matrix operations. *)
Lemma ring_ops_ok_L : forall (R : ringType) g m n (A B : 'M[R]_(m, n)) k, 0 < m ->
  let N := ring_num R in
  [/\ neg (N:=N) g (mat_of A) = Ok (mat_of (- A)%R),
      add (N:=N) g (mat_of A) (mat_of B) = Ok (mat_of (A + B)%R),
      sub (N:=N) g (mat_of A) (mat_of B) = Ok (mat_of (A - B)%R) &
      scale (N:=N) g (mat_of A) k = Ok (mat_of (k *: A)%R)].
Proof.
move=> R g m n A B k m0 N.
have [-> _ -> _] := @unary_ok_L N g m n A k.
have [-> -> _] := @binary_ok_L N g m n A B m0.
by split; congr (Ok (mat_of _)); apply/matrixP => i j; rewrite !mxE.
Qed.

(*@section C14 multiplication @*)
(*@doc C14: the exact order of evaluation, for every element type. *)
Lemma mul_eval_L : forall (N : numops) g m n p (A : 'M[N]_(m, n)) (B : 'M[N]_(n, p)), 0 < m -> 0 < n ->
  mul g (mat_of A) (mat_of B) = Ok (mat_of (\matrix_(i, j)
    foldl (fun s k => n_add s (n_mul (A i k) (B k j))) (n_zero N) (enum 'I_n))%R).
Proof.
move=> N g m n p A B m0 n0; have H := mat_of_rep (g 0) A; have H2 := mat_of_rep (g 0) B.
apply: wp_mat_of (rep_mul g H H2 m0 n0) _ => i j; rewrite mxE /dot -val_enum_ord.
by elim: (enum _) (n_zero N) => //= k s IH x; rewrite !fnE IH.
Qed.

Lemma mul_panics_L : forall (N : numops) g m n n' p (A : 'M[N]_(m, n)) (B : 'M[N]_(n', p)), 0 < m ->
  n != n' -> mul g (mat_of A) (mat_of B) = Err Panic.
Proof.
move=> N g m n n' p A B m0 ne.
exact: (mul_panic g (mat_of_rep (n_zero N) A) (mat_of_rep (n_zero N) B)).
Qed.

Lemma foldl_sum (R : ringType) n (F : 'I_n -> R) :
  foldl (fun s k => (s + F k)%R) 0%R (enum 'I_n) = (\sum_k F k)%R.
Proof.
rewrite -[RHS]big_enum /=.
elim/last_ind: (enum _) => [|s x IH]; first by rewrite big_nil.
by rewrite foldl_rcons IH -cats1 big_cat big_seq1.
Qed.

(*@doc C14: over a ring, [*] is the matrix product. *)
Lemma mul_ok_L : forall (R : ringType) g m n p (A : 'M[R]_(m, n)) (B : 'M[R]_(n, p)), 0 < m -> 0 < n ->
  mul (N := ring_num R) g (mat_of A) (mat_of B) = Ok (mat_of (A *m B)%R).
Proof.
move=> R g m n p A B m0 n0; rewrite mul_eval_L //; congr (Ok (mat_of _)).
by apply/matrixP => i j; rewrite !mxE foldl_sum.
Qed.
