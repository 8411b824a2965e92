(** * PropMatrix: properties of matrix.rs

    Only property theorems, each closed by a lemma of MatrixThms.v, and the
    Examples showing that their hypotheses are met.  Generated from MatrixThms.v by
    tools/genprops.py. *)
From mathcomp Require Import all_ssreflect all_algebra zify.
From mathcomp Require Import fingroup perm.
From Verif Require Import Base Scalar Hoare ModelMatrix Spec MatrixProofs MatrixProofs2 MtProofs.
From Verif Require Import MatrixThms.

Set Implicit Arguments.
Unset Strict Implicit.
Unset Printing Implicit Defensive.
Import GRing.Theory.


(** ** C01 construction *)

(** C01: [new r c d] succeeds on consistent shapes, row-major. *)
Theorem new_ok : forall T r c (d : seq T), r * c = size d -> 0 < r -> 0 < c ->
  exists2 A : 'M[T]_(r, c), new r c d = Ok (mat_of A) &
    forall (i : 'I_r) (j : 'I_c) x0, A i j = nth x0 d (i * c + j).
Proof. exact: new_ok_L. Qed.
Print Assumptions new_ok.

(** C01: every other argument panics. *)
Theorem new_panics : forall T r c (d : seq T),
  ~~ [&& r * c == size d, 0 < r & 0 < c] -> new r c d = Err Panic.
Proof. exact: new_panics_L. Qed.
Print Assumptions new_panics.

(** C01: vector gives a column with the data in order; empty data panics. *)
Theorem vector_ok : forall T (d : seq T), 0 < size d ->
  exists2 A : 'cV[T]_(size d), vector d = Ok (mat_of A) &
    forall (i : 'I_(size d)) j x0, A i j = nth x0 d i.
Proof. exact: vector_ok_L. Qed.
Print Assumptions vector_ok.

Theorem vector_panics : forall T, vector (T:=T) [::] = Err Panic.
Proof. exact: vector_panics_L. Qed.
Print Assumptions vector_panics.

(** C01: row_vector gives a row with the data in order; empty data panics. *)
Theorem row_vector_ok : forall T (d : seq T), 0 < size d ->
  exists2 A : 'rV[T]_(size d), row_vector d = Ok (mat_of A) &
    forall i (j : 'I_(size d)) x0, A i j = nth x0 d j.
Proof. exact: row_vector_ok_L. Qed.
Print Assumptions row_vector_ok.

Theorem row_vector_panics : forall T, row_vector (T:=T) [::] = Err Panic.
Proof. exact: row_vector_panics_L. Qed.
Print Assumptions row_vector_panics.

(** C01: the observers report the shape and the row-major data. *)
Theorem observers : forall T m n (A : 'M[T]_(m, n)), 0 < m ->
  [/\ rows (mat_of A) = m, cols (mat_of A) = Ok n, size (get_data (mat_of A)) = m * n &
      forall (i : 'I_m) (j : 'I_n) x0, nth x0 (get_data (mat_of A)) (i * n + j) = A i j].
Proof. exact: observers_L. Qed.
Print Assumptions observers.

(** C01: every value the constructors can return represents a mathematical
    matrix, so theorems about [mat_of A] cover all of them. *)
Theorem constructed_wf : forall T (M : mat T),
  ((exists r c d, new r c d = Ok M) \/ (exists d, vector d = Ok M) \/ (exists d, row_vector d = Ok M)) ->
  exists m n (A : 'M[T]_(m.+1, n.+1)), M = mat_of A.
Proof. exact: constructed_wf_L. Qed.
Print Assumptions constructed_wf.

(** C01 on concrete values: a 2 x 3 matrix is accepted, 2 x 2 from three
    elements and a 0 x 5 matrix are rejected. *)
Example new_accepts : exists A : 'M[nat]_(2, 3),
  new 2 3 [:: 1; 2; 3; 4; 5; 6] = Ok (mat_of A) /\ A (inord 1) (inord 2) = 6.
Proof.
have [//|//|//|A eA hA] := @new_ok nat 2 3 [:: 1; 2; 3; 4; 5; 6].
by exists A; split=> //; rewrite (hA _ _ 0) !inordK.
Qed.
Example new_rejects : new 2 2 [:: 1; 2; 3] = Err Panic /\ new (T:=nat) 0 5 [::] = Err Panic.
Proof. by []. Qed.

(** ** C02 element access *)

(** C02: reading inside the bounds. *)
Theorem get_ok : forall T m n (A : 'M[T]_(m, n)) (i : 'I_m) (j : 'I_n),
  get (mat_of A) i j = Ok (A i j) /\ get_ref (mat_of A) i j = Ok (A i j).
Proof. exact: get_ok_L. Qed.
Print Assumptions get_ok.

(** C02: reading or writing outside the bounds panics. *)
Theorem access_panics : forall T m n (A : 'M[T]_(m, n)) i j x,
  0 < m -> ~~ ((i < m) && (j < n)) ->
  [/\ get (mat_of A) i j = Err Panic, get_ref (mat_of A) i j = Err Panic,
      set (mat_of A) i j x = Err Panic & write_mref (mat_of A) i j x = Err Panic].
Proof. exact: access_panics_L. Qed.
Print Assumptions access_panics.

(** C02: a write changes exactly one element; get_mref is the same write. *)
Theorem set_ok : forall T m n (A : 'M[T]_(m, n)) (i : 'I_m) (j : 'I_n) x,
  let B := (\matrix_(i', j') if (i' == i) && (j' == j) then x else A i' j')%R in
  set (mat_of A) i j x = Ok (mat_of B) /\ write_mref (mat_of A) i j x = Ok (mat_of B).
Proof. exact: set_ok_L. Qed.
Print Assumptions set_ok.

(** C02: read-over-write. *)
Theorem get_set : forall T m n (A : 'M[T]_(m, n)) (i i' : 'I_m) (j j' : 'I_n) x,
  exists2 M, set (mat_of A) i j x = Ok M &
    get M i' j' = if (i' == i) && (j' == j) then Ok x else get (mat_of A) i' j'.
Proof. exact: get_set_L. Qed.
Print Assumptions get_set.

(** ** C03 transpose *)

(** C03 *)
Theorem t_ok : forall T g m n (A : 'M[T]_(m, n)), 0 < m ->
  t g (mat_of A) = Ok (mat_of A^T).
Proof. exact: t_ok_L. Qed.
Print Assumptions t_ok.

(** C03: transposing twice gives the matrix back. *)
Theorem t_t : forall T g1 g2 m n (A : 'M[T]_(m, n)), 0 < m -> 0 < n ->
  bind (t g1 (mat_of A)) (t g2) = Ok (mat_of A).
Proof. exact: t_t_L. Qed.
Print Assumptions t_t.

(** ** C04 in-place transpose *)

(** C04: the cycle-following in-place transpose computes the transpose, for
    every shape; in particular the fuel given to its loop always suffices. *)
Theorem mt_ok : forall T m n (A : 'M[T]_(m, n)), 0 < m -> 0 < n ->
  mt (mat_of A) = Ok (mat_of A^T).
Proof. exact: mt_ok_L. Qed.
Print Assumptions mt_ok.

Theorem mt_is_t : forall T g m n (A : 'M[T]_(m, n)), 0 < m -> 0 < n ->
  mt (mat_of A) = t g (mat_of A).
Proof. exact: mt_is_t_L. Qed.
Print Assumptions mt_is_t.

(** C04: the boundary: on a matrix without elements (which the constructors
    reject, but zero(0, n) produces) mt panics. *)
Theorem mt_empty_panics : forall T r, mt (T:=T) (Mat r [::]) = Err Panic.
Proof. exact: mt_empty_panics_L. Qed.
Print Assumptions mt_empty_panics.

(** ** C05 concatenation *)

(** C05 *)
Theorem cr_ok : forall T g m n1 n2 (A : 'M[T]_(m, n1)) (B : 'M[T]_(m, n2)), 0 < m ->
  cr g (mat_of A) (mat_of B) = Ok (mat_of (row_mx A B)) /\
  bitor g (mat_of A) (mat_of B) = Ok (mat_of (row_mx A B)).
Proof. exact: cr_ok_L. Qed.
Print Assumptions cr_ok.

Theorem cr_panics : forall T g m1 m2 n1 n2 (A : 'M[T]_(m1, n1)) (B : 'M[T]_(m2, n2)),
  m1 != m2 -> cr g (mat_of A) (mat_of B) = Err Panic.
Proof. exact: cr_panics_L. Qed.
Print Assumptions cr_panics.

(** C05 *)
Theorem cb_ok : forall T g m1 m2 n (A : 'M[T]_(m1, n)) (B : 'M[T]_(m2, n)), 0 < m1 -> 0 < m2 ->
  cb g (mat_of A) (mat_of B) = Ok (mat_of (col_mx A B)).
Proof. exact: cb_ok_L. Qed.
Print Assumptions cb_ok.

Theorem cb_panics : forall T g m1 m2 n1 n2 (A : 'M[T]_(m1, n1)) (B : 'M[T]_(m2, n2)),
  0 < m1 -> 0 < m2 -> n1 != n2 -> cb g (mat_of A) (mat_of B) = Err Panic.
Proof. exact: cb_panics_L. Qed.
Print Assumptions cb_panics.

(** ** C06 minor *)

(** C06: [row'] / [col'] delete a row / column. *)
Theorem minor_ok : forall T g m n (A : 'M[T]_(m, n)) (r : 'I_m) (c : 'I_n), 1 < m -> 1 < n ->
  minor g (mat_of A) r c = Ok (mat_of (row' r (col' c A))).
Proof. exact: minor_ok_L. Qed.
Print Assumptions minor_ok.

Theorem minor_panics : forall T g m n (A : 'M[T]_(m, n)) r c, 0 < m ->
  ~~ [&& r < m, c < n, 1 < m & 1 < n] -> minor g (mat_of A) r c = Err Panic.
Proof. exact: minor_panics_L. Qed.
Print Assumptions minor_panics.

(** ** C07 sub_matrix *)

(** C07, the part that holds: a block that lies inside the matrix and is
    strictly smaller than it in both directions is returned correctly. *)
Theorem sub_matrix_block_partial : forall T g m n (A : 'M[T]_(m, n)) r0 c0 r1 c1,
  r0 < r1 -> r1 <= m -> c0 < c1 -> c1 <= n -> r1 - r0 < m -> c1 - c0 < n ->
  exists2 B : 'M[T]_(r1 - r0, c1 - c0), sub_matrix g (mat_of A) r0 c0 r1 c1 = Ok (mat_of B) &
    forall (i : 'I_(r1 - r0)) (j : 'I_(c1 - c0)) (i' : 'I_m) (j' : 'I_n),
      i' = r0 + i :> nat -> j' = c0 + j :> nat -> B i j = A i' j'.
Proof. exact: sub_matrix_block_partial_L. Qed.
Print Assumptions sub_matrix_block_partial.

(** C07 is violated (1): the whole height (or width) of a matrix cannot be
    extracted, although the range is legal. *)
Theorem sub_matrix_full_height_refuted : forall T g m n (A : 'M[T]_(m, n)) r0 c0 r1 c1, 0 < m ->
  ((r0 == 0) && (r1 == m)) || ((c0 == 0) && (c1 == n)) ->
  sub_matrix g (mat_of A) r0 c0 r1 c1 = Err Panic.
Proof. exact: sub_matrix_full_height_refuted_L. Qed.
Print Assumptions sub_matrix_full_height_refuted.

(** C07 is violated (2): a column range that leaves the matrix is accepted
    and the block silently wraps around into the next row. *)
Theorem sub_matrix_wraps_refuted : forall g : nat -> nat,
  sub_matrix g (Mat 3 [:: 1; 2; 3; 4; 5; 6; 7; 8; 9]) 0 2 1 4 = Ok (Mat 1 [:: 3; 4]).
Proof. exact: sub_matrix_wraps_refuted_L. Qed.
Print Assumptions sub_matrix_wraps_refuted.

(** C07, complete description: the exact set of accepted arguments, and the
    value returned on all of them (element k of the flat data, not (i,j)). *)
Theorem sub_matrix_exact : forall T g m n (A : 'M[T]_(m, n)) r0 c0 r1 c1, 0 < m ->
  let accepted := [&& r0 < r1, c0 < c1, r1 - r0 < m, c1 - c0 < n & (r1.-1 * n + c1 <= m * n)] in
  if accepted then
    exists2 B : 'M[T]_(r1 - r0, c1 - c0), sub_matrix g (mat_of A) r0 c0 r1 c1 = Ok (mat_of B) &
      forall (i : 'I_(r1 - r0)) (j : 'I_(c1 - c0)) x0,
        B i j = nth x0 (get_data (mat_of A)) ((r0 + i) * n + (c0 + j))
  else sub_matrix g (mat_of A) r0 c0 r1 c1 = Err Panic.
Proof. exact: sub_matrix_exact_L. Qed.
Print Assumptions sub_matrix_exact.

(** ** C08 get_column *)

(** C08 *)
Theorem get_column_ok : forall T g m n (A : 'M[T]_(m, n)) (c : 'I_n), 0 < m ->
  get_column g (mat_of A) c = Ok (mat_of (col c A)).
Proof. exact: get_column_ok_L. Qed.
Print Assumptions get_column_ok.

Theorem get_column_panics : forall T g m n (A : 'M[T]_(m, n)) c, 0 < m -> n <= c ->
  get_column g (mat_of A) c = Err Panic.
Proof. exact: get_column_panics_L. Qed.
Print Assumptions get_column_panics.

(** ** C09 permute *)

(** C09: row i of the result is row rs[i] of the input (any list of valid
    row numbers, repetitions allowed). *)
Theorem permute_rows_ok : forall T g m n (A : 'M[T]_(m, n)) (rs : seq 'I_m), 0 < m ->
  permute_rows g (mat_of A) (map val rs) =
    Ok (mat_of (\matrix_(i < size rs, j < n) A (tnth (in_tuple rs) i) j)%R).
Proof. exact: permute_rows_ok_L. Qed.
Print Assumptions permute_rows_ok.

Theorem permute_rows_panics : forall T g m n (A : 'M[T]_(m, n)) (rs : seq nat), 0 < m ->
  ~~ all (fun k => k < m) rs -> permute_rows g (mat_of A) rs = Err Panic.
Proof. exact: permute_rows_panics_L. Qed.
Print Assumptions permute_rows_panics.

(** C09 *)
Theorem permute_columns_ok : forall T g m n (A : 'M[T]_(m, n)) (cs : seq 'I_n), 0 < m ->
  permute_columns g (mat_of A) (map val cs) =
    Ok (mat_of (\matrix_(i < m, j < size cs) A i (tnth (in_tuple cs) j))%R).
Proof. exact: permute_columns_ok_L. Qed.
Print Assumptions permute_columns_ok.

Theorem permute_columns_panics : forall T g m n (A : 'M[T]_(m, n)) (cs : seq nat), 0 < m ->
  ~~ all (fun k => k < n) cs -> permute_columns g (mat_of A) cs = Err Panic.
Proof. exact: permute_columns_panics_L. Qed.
Print Assumptions permute_columns_panics.

(** C09: for a permutation s, given as the list s(0), s(1), ..., the result
    is mathcomp's row_perm / col_perm. *)
Theorem permute_perm : forall T g m n (A : 'M[T]_(m, n)) (s : 'S_m) (u : 'S_n), 0 < m ->
  permute_rows g (mat_of A) (perm_list s) = Ok (mat_of (row_perm s A)) /\
  permute_columns g (mat_of A) (perm_list u) = Ok (mat_of (col_perm u A)).
Proof. exact: permute_perm_L. Qed.
Print Assumptions permute_perm.

(** C09: permuting with s and then with its inverse restores the matrix. *)
Theorem permute_inverse : forall T g1 g2 m n (A : 'M[T]_(m, n)) (s : 'S_m), 0 < m ->
  bind (permute_rows g1 (mat_of A) (perm_list s)) (fun M => permute_rows g2 M (perm_list s^-1%g))
  = Ok (mat_of A).
Proof. exact: permute_inverse_L. Qed.
Print Assumptions permute_inverse.

(** ** C10 filter and select *)

(** C10 *)
Theorem filter_rows_ok : forall T g p m n (A : 'M[T]_(m, n)), 0 < m ->
  let keep := [seq i <- enum 'I_m | p (mat_of A) (val i)] in
  filter_rows g p (mat_of A) =
    Ok (mat_of (\matrix_(i < size keep, j < n) A (tnth (in_tuple keep) i) j)%R).
Proof. exact: filter_rows_ok_L. Qed.
Print Assumptions filter_rows_ok.

(** C10 *)
Theorem filter_columns_ok : forall T g p m n (A : 'M[T]_(m, n)), 0 < m ->
  let keep := [seq i <- enum 'I_n | p (mat_of A) (val i)] in
  filter_columns g p (mat_of A) =
    Ok (mat_of (\matrix_(i < m, j < size keep) A i (tnth (in_tuple keep) j))%R).
Proof. exact: filter_columns_ok_L. Qed.
Print Assumptions filter_columns_ok.

(** C10: the selector must have exactly one flag per row. *)
Theorem select_rows_ok : forall T g m n (A : 'M[T]_(m, n)) (sel : seq bool), 0 < m -> size sel = m ->
  let keep := [seq i <- enum 'I_m | nth false sel (val i)] in
  select_rows g (mat_of A) sel =
    Ok (mat_of (\matrix_(i < size keep, j < n) A (tnth (in_tuple keep) i) j)%R).
Proof. exact: select_rows_ok_L. Qed.
Print Assumptions select_rows_ok.

(** C10 *)
Theorem select_columns_ok : forall T g m n (A : 'M[T]_(m, n)) (sel : seq bool), 0 < m -> size sel = n ->
  let keep := [seq i <- enum 'I_n | nth false sel (val i)] in
  select_columns g (mat_of A) sel =
    Ok (mat_of (\matrix_(i < m, j < size keep) A i (tnth (in_tuple keep) j))%R).
Proof. exact: select_columns_ok_L. Qed.
Print Assumptions select_columns_ok.

Theorem select_panics : forall T g m n (A : 'M[T]_(m, n)) (sel : seq bool), 0 < m ->
  (size sel != m -> select_rows g (mat_of A) sel = Err Panic) /\
  (size sel != n -> select_columns g (mat_of A) sel = Err Panic).
Proof. exact: select_panics_L. Qed.
Print Assumptions select_panics.

(** C10, boundary: when nothing is kept the result has no rows, and the next
    call of cols() on it panics (division by zero). *)
Theorem filter_nothing : forall T g m n (A : 'M[T]_(m, n)), 0 < m ->
  exists2 M, filter_rows g (fun _ _ => false) (mat_of A) = Ok M & cols M = Err Panic.
Proof. exact: filter_nothing_L. Qed.
Print Assumptions filter_nothing.

(** ** C11 map and reduce *)

(** C11 *)
Theorem map_ok : forall T S (g : nat -> S) (h : T -> S) m n (A : 'M[T]_(m, n)), 0 < m -> 0 < n ->
  map_ g h (mat_of A) = Ok (mat_of (map_mx h A)).
Proof. exact: map_ok_L. Qed.
Print Assumptions map_ok.

(** C11 *)
Theorem mmap_ok : forall T (h : T -> T) m n (A : 'M[T]_(m, n)), 0 < m -> 0 < n ->
  mmap h (mat_of A) = Ok (mat_of (map_mx h A)).
Proof. exact: mmap_ok_L. Qed.
Print Assumptions mmap_ok.

(** C11: column j is folded from top to bottom starting at init[j]. *)
Theorem reduce_ok : forall T S (h : S -> T -> S) m n (A : 'M[T]_(m, n)) (init : n.-tuple S),
  0 < m -> 0 < n ->
  reduce init h (mat_of A) =
    Ok (mat_of (\row_(j < n) foldl h (tnth init j) [seq A i j | i <- enum 'I_m])%R).
Proof. exact: reduce_ok_L. Qed.
Print Assumptions reduce_ok.

Theorem reduce_panics : forall T S (h : S -> T -> S) (init : seq S) m n (A : 'M[T]_(m, n)),
  0 < m -> 0 < n -> size init != n -> reduce init h (mat_of A) = Err Panic.
Proof. exact: reduce_panics_L. Qed.
Print Assumptions reduce_panics.

(** ** C12 constructors *)

(** C12: for any element type. *)
Theorem id_ok : forall (N : numops) g m n,
  id g m n = Ok (mat_of (\matrix_(i < m, j < n) if i == j :> nat then n_one N else n_zero N)%R).
Proof. exact: id_ok_L. Qed.
Print Assumptions id_ok.

(** C12: over a ring and for a square shape, [id] is the identity matrix. *)
Theorem id_square : forall (R : ringType) g n, id (N := ring_num R) g n n = Ok (mat_of (1%:M : 'M[R]_n)%R).
Proof. exact: id_square_L. Qed.
Print Assumptions id_square.

(** C12 *)
Theorem constants_ok : forall (N : numops) g m n,
  [/\ zero g m n = Ok (mat_of (const_mx (n_zero N) : 'M_(m, n))),
      zero_vector g m = Ok (mat_of (const_mx (n_zero N) : 'cV_m)) &
      one_vector g m = Ok (mat_of (const_mx (n_one N) : 'cV_m))].
Proof. exact: constants_ok_L. Qed.
Print Assumptions constants_ok.

(** C12 *)
Theorem diag_ok : forall (N : numops) g (ds : seq N), 0 < size ds ->
  diag g ds = Ok (mat_of (\matrix_(i < size ds, j < size ds)
                            if i == j then nth (n_zero N) ds i else n_zero N)%R).
Proof. exact: diag_ok_L. Qed.
Print Assumptions diag_ok.

(** C12: block_diag wants exactly min(m, n) diagonal entries. *)
Theorem block_diag_ok : forall (N : numops) g m n (ds : seq N), 0 < m -> 0 < n ->
  block_diag g m n ds =
    if size ds == minn m n then
      Ok (mat_of (\matrix_(i < m, j < n) if i == j :> nat then nth (n_zero N) ds i else n_zero N)%R)
    else Err Panic.
Proof. exact: block_diag_ok_L. Qed.
Print Assumptions block_diag_ok.

(** C12: random has the requested shape; element (i,j) is the (i*n+j)-th draw. *)
Theorem random_ok : forall T g rnd m n,
  random (T:=T) g rnd m n = Ok (mat_of (\matrix_(i < m, j < n) rnd (i * n + j)%N)%R).
Proof. exact: random_ok_L. Qed.
Print Assumptions random_ok.

(** ** C13 element-wise operators *)

(** C13: unary operators, any element type; the in-place twins agree. *)
Theorem unary_ok : forall (N : numops) g m n (A : 'M[N]_(m, n)) k,
  [/\ neg g (mat_of A) = Ok (mat_of (map_mx (n_neg (n:=N)) A)),
      mneg (mat_of A) = neg g (mat_of A),
      scale g (mat_of A) k = Ok (mat_of (map_mx (n_mul k) A)) &
      mscale (mat_of A) k = scale g (mat_of A) k].
Proof. exact: unary_ok_L. Qed.
Print Assumptions unary_ok.

(** C13: binary operators that cannot fail on elements, any element type. *)
Theorem binary_ok : forall (N : numops) g m n (A B : 'M[N]_(m, n)), 0 < m ->
  [/\ add g (mat_of A) (mat_of B) = Ok (mat_of (\matrix_(i, j) n_add (A i j) (B i j))%R),
      sub g (mat_of A) (mat_of B) = Ok (mat_of (\matrix_(i, j) n_sub (A i j) (B i j))%R) &
      elem_mul g (mat_of A) (mat_of B) = Ok (mat_of (\matrix_(i, j) n_mul (A i j) (B i j))%R)].
Proof. exact: binary_ok_L. Qed.
Print Assumptions binary_ok.

(** C13: element-wise division succeeds iff every element division does. *)
Theorem elem_div_ok : forall (N : numops) g m n (A B Q : 'M[N]_(m, n)), 0 < m ->
  (forall i j, n_div (A i j) (B i j) = Ok (Q i j)) ->
  elem_div g (mat_of A) (mat_of B) = Ok (mat_of Q).
Proof. exact: elem_div_ok_L. Qed.
Print Assumptions elem_div_ok.

Theorem elem_div_panics : forall (N : numops) g m n (A B : 'M[N]_(m, n)) i j,
  (forall i j e, n_div (A i j) (B i j) = Err e -> e = Panic) ->
  n_div (A i j) (B i j) = Err Panic ->
  elem_div g (mat_of A) (mat_of B) = Err Panic.
Proof. exact: elem_div_panics_L. Qed.
Print Assumptions elem_div_panics.

(** C13: shape mismatch panics. *)
Theorem binary_panics : forall (N : numops) g m n m' n' (A : 'M[N]_(m, n)) (B : 'M[N]_(m', n')),
  0 < m -> ~~ ((m == m') && (n == n')) ->
  [/\ add g (mat_of A) (mat_of B) = Err Panic, sub g (mat_of A) (mat_of B) = Err Panic,
      elem_mul g (mat_of A) (mat_of B) = Err Panic & elem_div g (mat_of A) (mat_of B) = Err Panic].
Proof. exact: binary_panics_L. Qed.
Print Assumptions binary_panics.

(** C13: every in-place operator leaves exactly what the pure one returns,
    for every element arithmetic, all shapes, success and failure alike. *)
Theorem inplace_agrees : forall (N : numops) g m n m' n' (A : 'M[N]_(m, n)) (B : 'M[N]_(m', n')),
  [/\ madd (mat_of A) (mat_of B) = add g (mat_of A) (mat_of B),
      msub (mat_of A) (mat_of B) = sub g (mat_of A) (mat_of B),
      melem_mul (mat_of A) (mat_of B) = elem_mul g (mat_of A) (mat_of B),
      melem_div (mat_of A) (mat_of B) = elem_div g (mat_of A) (mat_of B) &
      mmul g (mat_of A) (mat_of B) = mul g (mat_of A) (mat_of B)].
Proof. exact: inplace_agrees_L. Qed.
Print Assumptions inplace_agrees.

(** C13 over a ring: the operators are the matrix operations. *)
Theorem ring_ops_ok : forall (R : ringType) g m n (A B : 'M[R]_(m, n)) k, 0 < m ->
  let N := ring_num R in
  [/\ neg (N:=N) g (mat_of A) = Ok (mat_of (- A)%R),
      add (N:=N) g (mat_of A) (mat_of B) = Ok (mat_of (A + B)%R),
      sub (N:=N) g (mat_of A) (mat_of B) = Ok (mat_of (A - B)%R) &
      scale (N:=N) g (mat_of A) k = Ok (mat_of (k *: A)%R)].
Proof. exact: ring_ops_ok_L. Qed.
Print Assumptions ring_ops_ok.

(** ** C14 multiplication *)

(** C14: the exact order of evaluation, for every element type. *)
Theorem mul_eval : forall (N : numops) g m n p (A : 'M[N]_(m, n)) (B : 'M[N]_(n, p)), 0 < m -> 0 < n ->
  mul g (mat_of A) (mat_of B) = Ok (mat_of (\matrix_(i, j)
    foldl (fun s k => n_add s (n_mul (A i k) (B k j))) (n_zero N) (enum 'I_n))%R).
Proof. exact: mul_eval_L. Qed.
Print Assumptions mul_eval.

Theorem mul_panics : forall (N : numops) g m n n' p (A : 'M[N]_(m, n)) (B : 'M[N]_(n', p)), 0 < m ->
  n != n' -> mul g (mat_of A) (mat_of B) = Err Panic.
Proof. exact: mul_panics_L. Qed.
Print Assumptions mul_panics.

(** C14: over a ring, [*] is the matrix product. *)
Theorem mul_ok : forall (R : ringType) g m n p (A : 'M[R]_(m, n)) (B : 'M[R]_(n, p)), 0 < m -> 0 < n ->
  mul (N := ring_num R) g (mat_of A) (mat_of B) = Ok (mat_of (A *m B)%R).
Proof. exact: mul_ok_L. Qed.
Print Assumptions mul_ok.
