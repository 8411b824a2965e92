(** * ModelMatrix: src/matrix.rs, function by function.

    Conventions: [&mut self] methods return the new matrix; [g] (g1, g2, ..)
    is the uninitialised content of a vector allocated with
    [alloc_dirty_vec]; [.clone()] on a [Copy] type is the identity; closures
    passed by the caller are total functions.  usize is [nat] here: index
    expressions are bounded by the length of an existing vector; the
    functions where a user-supplied size can really overflow are modelled a
    second time with machine arithmetic in ModelUsize.v. *)
From mathcomp Require Import all_ssreflect.
From Verif Require Import Base Scalar.

Set Implicit Arguments.
Unset Strict Implicit.
Unset Printing Implicit Defensive.

(** matrix.rs:19-23  struct Matrix { no_rows, data }, derive(PartialEq, Clone) *)
Record mat (T : Type) := Mat { no_rows : nat; data : seq T }.
Arguments Mat {T} _ _.

(** derived [PartialEq] (matrix.rs:19): no_rows == and data == (same length,
    elementwise ==); [eqT] is the element's ==. *)
Fixpoint vec_eq T (eqT : T -> T -> bool) (a b : seq T) : bool :=
  match a, b with
  | [::], [::] => true
  | x :: a', y :: b' => eqT x y && vec_eq eqT a' b'
  | _, _ => false
  end.
Definition mat_eq T (eqT : T -> T -> bool) (a b : mat T) : bool :=
  (no_rows a == no_rows b) && vec_eq eqT (data a) (data b).

(** ** impl<T : Copy> Matrix<T>, matrix.rs:25-109 *)
Section Copy.
Variable T : Type.
Implicit Types M : mat T.

(** matrix.rs:26-30 *)
Definition new (r c : nat) (d : seq T) : res (mat T) :=
  assert! (r * c == size d) ;;
  assert! ((0 < r) && (0 < c)) ;;
  Ok (Mat r d).

(** matrix.rs:32-35 *)
Definition vector (d : seq T) : res (mat T) :=
  assert! (0 < size d) ;; Ok (Mat (size d) d).

(** matrix.rs:37-40 *)
Definition row_vector (d : seq T) : res (mat T) :=
  assert! (0 < size d) ;; Ok (Mat 1 d).

(** matrix.rs:43 *)
Definition rows M : nat := no_rows M.

(** matrix.rs:46; division by a zero row count panics *)
Definition cols M : res nat := udiv (size (data M)) (no_rows M).

(** matrix.rs:49 *)
Definition get_data M : seq T := data M.

(** matrix.rs:54-57 (and Index, 728-733) *)
Definition get_ref M (r c : nat) : res T :=
  if r < no_rows M then
    n <-- cols M ;;
    assert! (c < n) ;;
    vget (data M) (r * n + c)
  else Err Panic.

(** matrix.rs:59-63: a mutable reference to the element; [write_mref M r c v]
    is [*m.get_mref(r, c) = v]. *)
Definition write_mref M (r c : nat) (v : T) : res (mat T) :=
  if r < no_rows M then
    n <-- cols M ;;
    assert! (c < n) ;;
    d <-- vset (data M) (r * n + c) v ;;
    Ok (Mat (no_rows M) d)
  else Err Panic.

(** matrix.rs:65-75 *)
Definition map_ S (g : nat -> S) (f : T -> S) M : res (mat S) :=
  let elems := size (data M) in
  d <-- for_ 0 elems (fun i d =>
          x <-- vget (data M) i ;;
          vset d i (f x)) (alloc_dirty_vec g elems) ;;
  Ok (Mat (no_rows M) d).

(** matrix.rs:77-81 *)
Definition mmap (f : T -> T) M : res (mat T) :=
  d <-- for_ 0 (size (data M)) (fun i d =>
          x <-- vget d i ;;
          vset d i (f x)) (data M) ;;
  Ok (Mat (no_rows M) d).

(** matrix.rs:83-98 *)
Definition reduce S (init : seq S) (f : S -> T -> S) M : res (mat S) :=
  n <-- cols M ;;
  assert! (size init == n) ;;
  '(d, _) <-- for_ 0 (size (data M)) (fun i st =>
      let '(d, data_idx) := st in
      a <-- vget d data_idx ;;
      x <-- vget (data M) i ;;
      d <-- vset d data_idx (f a x) ;;
      k <-- umod (data_idx + 1) (size d) ;;
      Ok (d, k)) (init, 0) ;;
  Ok (Mat 1 d).

(** matrix.rs:101-103 *)
Definition is_square M : res bool :=
  n <-- cols M ;; Ok (no_rows M == n).

(** matrix.rs:106-108 *)
Definition is_not_square M : res bool :=
  b <-- is_square M ;; Ok (~~ b).

(** ** impl<T : Copy> Matrix<T>, matrix.rs:293-535 *)

(** matrix.rs:294-297 *)
Definition get M (r c : nat) : res T :=
  if r < no_rows M then
    n <-- cols M ;;
    assert! (c < n) ;;
    vget (data M) (r * n + c)
  else Err Panic.

(** matrix.rs:299-303 *)
Definition set M (r c : nat) (v : T) : res (mat T) :=
  if r < no_rows M then
    n <-- cols M ;;
    assert! (c < n) ;;
    d <-- vset (data M) (r * n + c) v ;;
    Ok (Mat (no_rows M) d)
  else Err Panic.

(** matrix.rs:305-328.  self.cols() and m.cols() are evaluated inside the
    row loop, so only when there is at least one row. *)
Definition cr (g : nat -> T) M (M2 : mat T) : res (mat T) :=
  assert! (no_rows M == no_rows M2) ;;
  let elems := size (data M) + size (data M2) in
  '(d, _, _, _) <-- for_ 0 (no_rows M) (fun _ st =>
      n1 <-- cols M ;;
      st <-- for_ 0 n1 (fun _ st =>
          let '(d, src1, src2, dest) := st in
          x <-- vget (data M) src1 ;;
          d <-- vset d dest x ;;
          Ok (d, src1 + 1, src2, dest + 1)) st ;;
      n2 <-- cols M2 ;;
      for_ 0 n2 (fun _ st =>
          let '(d, src1, src2, dest) := st in
          x <-- vget (data M2) src2 ;;
          d <-- vset d dest x ;;
          Ok (d, src1, src2 + 1, dest + 1)) st)
    (alloc_dirty_vec g elems, 0, 0, 0) ;;
  Ok (Mat (no_rows M) d).

(** matrix.rs:735-740  the operator | *)
Definition bitor (g : nat -> T) M (M2 : mat T) : res (mat T) := cr g M M2.

(** matrix.rs:330-345 *)
Definition cb (g : nat -> T) M (M2 : mat T) : res (mat T) :=
  n1 <-- cols M ;;
  n2 <-- cols M2 ;;
  assert! (n1 == n2) ;;
  let elems := size (data M) + size (data M2) in
  d <-- for_ 0 (size (data M)) (fun i d =>
          x <-- vget (data M) i ;;
          vset d i x) (alloc_dirty_vec g elems) ;;
  let offset := size (data M) in
  d <-- for_ 0 (size (data M2)) (fun i d =>
          x <-- vget (data M2) i ;;
          vset d (offset + i) x) d ;;
  Ok (Mat (no_rows M + no_rows M2) d).

(** matrix.rs:347-363 *)
Definition t (g : nat -> T) M : res (mat T) :=
  let elems := size (data M) in
  '(d, _) <-- for_ 0 elems (fun i st =>
      let '(d, src_idx) := st in
      x <-- vget (data M) src_idx ;;
      d <-- vset d i x ;;
      n <-- cols M ;;
      let src_idx := src_idx + n in
      if elems <= src_idx then Ok (d, src_idx - elems + 1)
      else Ok (d, src_idx)) (alloc_dirty_vec g elems, 0) ;;
  n <-- cols M ;;
  Ok (Mat n d).

(** The inner [loop] of [mt], matrix.rs:375-385: follow one permutation cycle.
    State: data, visited, idx, prev_value. *)
Definition mt_cycle (no_rows cycle_idx : nat)
    (st : seq T * seq bool * nat * T)
    : res (ctl (seq T * seq bool * nat * T) (seq T * seq bool)) :=
  let '(d, visited, idx, prev_value) := st in
  len1 <-- usub (size d) 1 ;;
  idx <-- umod (no_rows * idx) len1 ;;
  current_value <-- vget d idx ;;
  d <-- vset d idx prev_value ;;
  if idx == cycle_idx then Ok (Stop (d, visited))
  else
    visited <-- vset visited idx true ;;
    Ok (Next (d, visited, idx, current_value)).

(** matrix.rs:365-389.  The inner loop is run on [size data] fuel: mt_correct
    (MatrixProofs.v) shows that is always enough. *)
Definition mt M : res (mat T) :=
  len1 <-- usub (size (data M)) 1 ;;
  '(d, _) <-- for_ 1 len1 (fun cycle_idx st =>
      let '(d, visited) := st in
      v <-- vget visited cycle_idx ;;
      if v then Ok (d, visited)
      else
        prev_value <-- vget d cycle_idx ;;
        loop_ (size (data M)) (mt_cycle (no_rows M) cycle_idx)
              (d, visited, cycle_idx, prev_value))
    (data M, vec_of false (size (data M))) ;;
  n <-- cols (Mat (no_rows M) d) ;;
  Ok (Mat n d).

(** matrix.rs:391-412 *)
Definition minor (g : nat -> T) M (row col : nat) : res (mat T) :=
  n <-- cols M ;;
  assert! [&& row < no_rows M, col < n, 1 < no_rows M & 1 < n] ;;
  let elems := (n - 1) * (no_rows M - 1) in
  '(d, _, _) <-- for_ 0 (no_rows M) (fun current_row st =>
      '(d, source_row_idx, dest_idx) <--
        (if current_row != row then
           for_ 0 n (fun current_col st =>
             let '(d, source_row_idx, dest_idx) := st in
             if current_col != col then
               x <-- vget (data M) (source_row_idx + current_col) ;;
               d <-- vset d dest_idx x ;;
               Ok (d, source_row_idx, dest_idx + 1)
             else Ok (d, source_row_idx, dest_idx)) st
         else Ok st) ;;
      Ok (d, source_row_idx + n, dest_idx))
    (alloc_dirty_vec g elems, 0, 0) ;;
  Ok (Mat (no_rows M - 1) d).

(** matrix.rs:414-435 *)
Definition sub_matrix (g : nat -> T) M
    (start_row start_col end_row end_col : nat) : res (mat T) :=
  assert! (start_row < end_row) ;;
  assert! (start_col < end_col) ;;
  n <-- cols M ;;
  assert! [&& end_row - start_row < no_rows M, end_col - start_col < n,
           start_row != end_row & start_col != end_col] ;;
  let rows := end_row - start_row in
  let cols := end_col - start_col in
  let elems := rows * cols in
  '(d, _, _) <-- for_ 0 rows (fun _ st =>
      let '(d, src_idx, dest_idx) := st in
      d <-- for_ 0 cols (fun col_offset d =>
              x <-- vget (data M) (src_idx + col_offset) ;;
              vset d (dest_idx + col_offset) x) d ;;
      Ok (d, src_idx + n, dest_idx + cols))
    (alloc_dirty_vec g elems, start_row * n + start_col, 0) ;;
  Ok (Mat rows d).

(** matrix.rs:437-449 *)
Definition get_column (g : nat -> T) M (column : nat) : res (mat T) :=
  n <-- cols M ;;
  assert! (column < n) ;;
  '(d, _) <-- for_ 0 (no_rows M) (fun i st =>
      let '(d, src_idx) := st in
      x <-- vget (data M) src_idx ;;
      d <-- vset d i x ;;
      Ok (d, src_idx + n)) (alloc_dirty_vec g (no_rows M), column) ;;
  Ok (Mat (no_rows M) d).

(** matrix.rs:451-470 *)
Definition permute_rows (g : nat -> T) M (rs : seq nat) : res (mat T) :=
  let r := size rs in
  n <-- cols M ;;
  let elems := r * n in
  '(d, _) <-- for_ 0 r (fun row st =>
      k <-- vget rs row ;;
      let row_idx := k * n in
      assert! (k < no_rows M) ;;
      for_ 0 n (fun col st =>
        let '(d, dest_idx) := st in
        x <-- vget (data M) (row_idx + col) ;;
        d <-- vset d dest_idx x ;;
        Ok (d, dest_idx + 1)) st)
    (alloc_dirty_vec g elems, 0) ;;
  Ok (Mat r d).

(** matrix.rs:472-492.  self.cols() is evaluated only inside the row loop. *)
Definition permute_columns (g : nat -> T) M (cs : seq nat) : res (mat T) :=
  let r := no_rows M in
  let c := size cs in
  let elems := r * c in
  '(d, _, _) <-- for_ 0 r (fun _ st =>
      '(d, dest_idx, row_idx) <-- for_ 0 c (fun col st =>
        let '(d, dest_idx, row_idx) := st in
        k <-- vget cs col ;;
        n <-- cols M ;;
        assert! (k < n) ;;
        x <-- vget (data M) (row_idx + k) ;;
        d <-- vset d dest_idx x ;;
        Ok (d, dest_idx + 1, row_idx)) st ;;
      n <-- cols M ;;
      Ok (d, dest_idx, row_idx + n))
    (alloc_dirty_vec g elems, 0, 0) ;;
  Ok (Mat r d).

(** matrix.rs:494-502 *)
Definition filter_rows (g : nat -> T) (f : mat T -> nat -> bool) M : res (mat T) :=
  rs <-- for_ 0 (rows M) (fun row rs =>
           Ok (if f M row then rcons rs row else rs)) [::] ;;
  permute_rows g M rs.

(** matrix.rs:504-512 *)
Definition filter_columns (g : nat -> T) (f : mat T -> nat -> bool) M : res (mat T) :=
  n <-- cols M ;;
  cs <-- for_ 0 n (fun col cs =>
           Ok (if f M col then rcons cs col else cs)) [::] ;;
  permute_columns g M cs.

(** matrix.rs:514-523 *)
Definition select_rows (g : nat -> T) M (selector : seq bool) : res (mat T) :=
  assert! (no_rows M == size selector) ;;
  rs <-- for_ 0 (size selector) (fun i rs =>
           b <-- vget selector i ;;
           Ok (if b then rcons rs i else rs)) [::] ;;
  permute_rows g M rs.

(** matrix.rs:525-534 *)
Definition select_columns (g : nat -> T) M (selector : seq bool) : res (mat T) :=
  n <-- cols M ;;
  assert! (n == size selector) ;;
  cs <-- for_ 0 (size selector) (fun i cs =>
           b <-- vget selector i ;;
           Ok (if b then rcons cs i else cs)) [::] ;;
  permute_columns g M cs.

(** matrix.rs:570-579  random: the k-th call of rand::random() yields [rnd k]. *)
Definition random (g rnd : nat -> T) (r c : nat) : res (mat T) :=
  let elems := r * c in
  d <-- for_ 0 elems (fun i d => vset d i (rnd i)) (alloc_dirty_vec g elems) ;;
  Ok (Mat r d).

End Copy.

(** ** impl<T : Num + Copy> and impl<T : Num + Neg + Copy>, matrix.rs:111-290;
    operator impls, matrix.rs:581-726 *)
Section Num.
Variable N : numops.
Implicit Types M : mat N.

Local Notation "0" := (n_zero N).
Local Notation "1" := (n_one N).

(** [for i in 0..elems { d[i] = x }] (e.g. matrix.rs:115-117) *)
Definition fill (x : N) (elems : nat) (d : seq N) : res (seq N) :=
  for_ 0%nat elems (fun i d => vset d i x) d.

(** matrix.rs:112-122 *)
Definition id (g : nat -> N) (m n : nat) : res (mat N) :=
  let elems := m * n in
  d <-- fill 0 elems (alloc_dirty_vec g elems) ;;
  d <-- for_ 0%nat (minn m n) (fun i d => vset d (i * n + i) 1) d ;;
  Ok (Mat m d).

(** matrix.rs:124-134 *)
Definition zero (g : nat -> N) (m n : nat) : res (mat N) :=
  let elems := m * n in
  d <-- fill 0 elems (alloc_dirty_vec g elems) ;;
  Ok (Mat m d).

(** matrix.rs:136-147 *)
Definition diag (g : nat -> N) (ds : seq N) : res (mat N) :=
  let sz := size ds in
  let elems := sz * sz in
  d <-- fill 0 elems (alloc_dirty_vec g elems) ;;
  d <-- for_ 0%nat sz (fun i d => x <-- vget ds i ;; vset d (i * sz + i) x) d ;;
  new sz sz d.

(** matrix.rs:149-163 *)
Definition block_diag (g : nat -> N) (m n : nat) (ds : seq N) : res (mat N) :=
  let min_dim := minn m n in
  assert! (size ds == min_dim) ;;
  let elems := m * n in
  d <-- fill 0 elems (alloc_dirty_vec g elems) ;;
  d <-- for_ 0%nat min_dim (fun i d => x <-- vget ds i ;; vset d (i * n + i) x) d ;;
  new m n d.

(** matrix.rs:165-171 *)
Definition zero_vector (g : nat -> N) (r : nat) : res (mat N) :=
  d <-- fill 0 r (alloc_dirty_vec g r) ;; Ok (Mat r d).

(** matrix.rs:173-179 *)
Definition one_vector (g : nat -> N) (r : nat) : res (mat N) :=
  d <-- fill 1 r (alloc_dirty_vec g r) ;; Ok (Mat r d).

(** Shape of the two loops that the element-wise methods consist of.
    New vector: [for i in 0..elems { d[i] = f(self.data[i]) }] *)
Definition pointwise1 (g : nat -> N) (f : N -> N) M : res (mat N) :=
  let elems := size (data M) in
  d <-- for_ 0%nat elems (fun i d =>
          x <-- vget (data M) i ;; vset d i (f x)) (alloc_dirty_vec g elems) ;;
  Ok (Mat (no_rows M) d).
(** In place: [for i in 0..self.data.len() { self.data[i] = f(self.data[i]) }] *)
Definition mpointwise1 (f : N -> N) M : res (mat N) :=
  d <-- for_ 0%nat (size (data M)) (fun i d =>
          x <-- vget d i ;; vset d i (f x)) (data M) ;;
  Ok (Mat (no_rows M) d).
(** Two operands, new vector, after the two shape asserts. *)
Definition pointwise2 (g : nat -> N) (f : N -> N -> res N) M (M2 : mat N) : res (mat N) :=
  assert! (no_rows M == no_rows M2) ;;
  n1 <-- cols M ;;
  n2 <-- cols M2 ;;
  assert! (n1 == n2) ;;
  let elems := size (data M) in
  d <-- for_ 0%nat elems (fun i d =>
          x <-- vget (data M) i ;;
          y <-- vget (data M2) i ;;
          z <-- f x y ;;
          vset d i z) (alloc_dirty_vec g elems) ;;
  Ok (Mat (no_rows M) d).
(** Two operands, in place. *)
Definition mpointwise2 (f : N -> N -> res N) M (M2 : mat N) : res (mat N) :=
  assert! (no_rows M == no_rows M2) ;;
  n1 <-- cols M ;;
  n2 <-- cols M2 ;;
  assert! (n1 == n2) ;;
  d <-- for_ 0%nat (size (data M)) (fun i d =>
          x <-- vget d i ;;
          y <-- vget (data M2) i ;;
          z <-- f x y ;;
          vset d i z) (data M) ;;
  Ok (Mat (no_rows M) d).

(** matrix.rs:183-187 *)
Definition mneg M : res (mat N) := mpointwise1 (n_neg (n:=N)) M.
(** matrix.rs:581-595 (and 597-602) *)
Definition neg (g : nat -> N) M : res (mat N) := pointwise1 g (n_neg (n:=N)) M.
(** matrix.rs:189-199 *)
Definition scale (g : nat -> N) M (factor : N) : res (mat N) :=
  pointwise1 g (fun x => n_mul factor x) M.
(** matrix.rs:201-205 *)
Definition mscale M (factor : N) : res (mat N) :=
  mpointwise1 (fun x => n_mul factor x) M.
(** matrix.rs:207-214 *)
Definition madd M (M2 : mat N) := mpointwise2 (fun x y => Ok (n_add x y)) M M2.
(** matrix.rs:604-642 (the by-value overloads delegate to this one) *)
Definition add (g : nat -> N) M (M2 : mat N) := pointwise2 g (fun x y => Ok (n_add x y)) M M2.
(** matrix.rs:216-223 *)
Definition msub M (M2 : mat N) := mpointwise2 (fun x y => Ok (n_sub x y)) M M2.
(** matrix.rs:644-682 *)
Definition sub (g : nat -> N) M (M2 : mat N) := pointwise2 g (fun x y => Ok (n_sub x y)) M M2.
(** matrix.rs:225-238 *)
Definition elem_mul (g : nat -> N) M (M2 : mat N) := pointwise2 g (fun x y => Ok (n_mul x y)) M M2.
(** matrix.rs:240-247 *)
Definition melem_mul M (M2 : mat N) := mpointwise2 (fun x y => Ok (n_mul x y)) M M2.
(** matrix.rs:249-262 *)
Definition elem_div (g : nat -> N) M (M2 : mat N) := pointwise2 g (fun x y => n_div x y) M M2.
(** matrix.rs:264-271 *)
Definition melem_div M (M2 : mat N) := mpointwise2 (fun x y => n_div x y) M M2.

(** The triple loop shared by mul (matrix.rs:691-701) and mmul (276-286). *)
Definition mul_data (g : nat -> N) M (M2 : mat N) : res (seq N) :=
  n1 <-- cols M ;;
  n2 <-- cols M2 ;;
  let elems := no_rows M * n2 in
  for_ 0%nat (no_rows M) (fun row d =>
    for_ 0%nat n2 (fun col d =>
      s <-- for_ 0%nat n1 (fun idx s =>
              x <-- get_ref M row idx ;;
              y <-- get_ref M2 idx col ;;
              Ok (n_add s (n_mul x y))) 0 ;;
      vset d (row * n2 + col) s) d) (alloc_dirty_vec g elems).

(** matrix.rs:685-726 (the by-value overloads delegate to this one) *)
Definition mul (g : nat -> N) M (M2 : mat N) : res (mat N) :=
  n1 <-- cols M ;;
  assert! (n1 == no_rows M2) ;;
  d <-- mul_data g M M2 ;;
  Ok (Mat (no_rows M) d).

(** matrix.rs:273-289: as mul, but self.data is replaced and no_rows kept. *)
Definition mmul (g : nat -> N) M (M2 : mat N) : res (mat N) :=
  n1 <-- cols M ;;
  assert! (n1 == no_rows M2) ;;
  d <-- mul_data g M M2 ;;
  Ok (Mat (no_rows M) d).

End Num.

(** ** The part of impl<T : Float + ApproxEq + Signed> that does not need a
    decomposition, matrix.rs:742-751 and 787-876 *)
Section Float.
Variable S : scalar.
Implicit Types M : mat S.

(** matrix.rs:743-751 *)
Definition trace M : res S :=
  n <-- cols M ;;
  '(s, _) <-- for_ 0 (minn (no_rows M) n) (fun _ st =>
      let '(s, idx) := st in
      x <-- vget (data M) idx ;;
      Ok (n_add s x, idx + (n + 1))) (n_zero S, 0) ;;
  Ok s.

(** matrix.rs:787-796 *)
Definition vector_euclidean_norm M : res S :=
  n <-- cols M ;;
  assert! (n == 1) ;;
  s <-- for_ 0 (size (data M)) (fun i s =>
          x <-- vget (data M) i ;;
          Ok (n_add s (n_mul x x))) (n_zero S) ;;
  s_sqrt s.
(** matrix.rs:799-801, 815-817 *)
Definition length_ M := vector_euclidean_norm M.
Definition vector_2_norm M := vector_euclidean_norm M.

(** matrix.rs:803-812 *)
Definition vector_1_norm M : res S :=
  n <-- cols M ;;
  assert! (n == 1) ;;
  for_ 0 (size (data M)) (fun i s =>
    x <-- vget (data M) i ;;
    Ok (n_add s (s_abs x))) (n_zero S).

(** matrix.rs:819-828; [powf] is the method T::powf. *)
Definition vector_p_norm (powf : S -> S -> S) M (p : S) : res S :=
  n <-- cols M ;;
  assert! (n == 1) ;;
  s <-- for_ 0 (size (data M)) (fun i s =>
          x <-- vget (data M) i ;;
          Ok (n_add s (s_abs (powf x p)))) (n_zero S) ;;
  q <-- n_div (n_one S) p ;;
  Ok (powf s q).

(** matrix.rs:830-837 *)
Definition frobenius_norm M : res S :=
  s <-- for_ 0 (size (data M)) (fun i s =>
          x <-- vget (data M) i ;;
          Ok (n_add s (n_mul x x))) (n_zero S) ;;
  s_sqrt s.

(** matrix.rs:839-851 *)
Definition vector_inf_norm M : res S :=
  n <-- cols M ;;
  assert! (n == 1) ;;
  x0 <-- vget (data M) 0 ;;
  for_ 1 (size (data M)) (fun i current_max =>
    x <-- vget (data M) i ;;
    let v := s_abs x in
    Ok (if s_ltb current_max v then v else current_max)) (s_abs x0).

(** src/approxeq.rs:24-31, 40-46: f32/f64 approx_eq *)
Definition approx_eq_eps (a b eps : S) : bool := s_ltb (s_abs (n_sub a b)) eps.
Definition approx_eq_elem (a b : S) : bool := approx_eq_eps a b (s_approx S).

(** matrix.rs:853-862 *)
Definition is_symmetric M : res bool :=
  n <-- cols M ;;
  if no_rows M != n then Ok false
  else
    c <-- forc 1 (no_rows M) (fun row (_ : unit) =>
           forc 0 row (fun col (_ : unit) =>
             x <-- get M row col ;;
             y <-- get_ref M col row ;;
             if ~~ approx_eq_elem x y then Ok (Stop false) else Ok (Next tt)) tt)
         tt ;;
    Ok (match c with Next _ => true | Stop b => b end).

(** matrix.rs:865-867 *)
Definition is_non_symmetric M : res bool :=
  b <-- is_symmetric M ;; Ok (~~ b).

(** matrix.rs:869-875; || is lazy, so cols() runs only if the rows agree *)
Definition approx_eq M (M2 : mat S) : res bool :=
  if rows M != rows M2 then Ok false
  else
    n1 <-- cols M ;;
    n2 <-- cols M2 ;;
    if n1 != n2 then Ok false
    else
      c <-- forc 0 (size (data M)) (fun i (_ : unit) =>
             x <-- vget (data M) i ;;
             y <-- vget (data M2) i ;;
             if ~~ approx_eq_elem x y then Ok (Stop false) else Ok (Next tt)) tt ;;
      Ok (match c with Next _ => true | Stop b => b end).

End Float.
