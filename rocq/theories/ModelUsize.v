(** * ModelUsize: the size computations of matrix.rs once more, with machine
    integers.

    ModelMatrix.v uses unbounded naturals for usize.  Here [w] is the number
    of bits of usize (16, 32 or 64) and [checks] says whether the crate is
    compiled with overflow checks (debug profile: overflow panics) or without
    (release profile: the result wraps around). *)
From mathcomp Require Import all_ssreflect.
From Verif Require Import Base Scalar ModelMatrix.

Set Implicit Arguments.
Unset Strict Implicit.
Unset Printing Implicit Defensive.

Section Usize.
Variables (w : nat) (checks : bool).

(** result of a usize + or * whose exact value is [x] *)
Definition norm (x : nat) : res nat :=
  if x < 2 ^ w then Ok x else if checks then Err Panic else Ok (x %% 2 ^ w).
Definition mulw (a b : nat) : res nat := norm (a * b).
Definition addw (a b : nat) : res nat := norm (a + b).

Section Copy.
Variable T : Type.
Implicit Types M : mat T.

(** matrix.rs:26-30 *)
Definition new_w (r c : nat) (d : seq T) : res (mat T) :=
  p <-- mulw r c ;;
  assert! (p == size d) ;;
  assert! ((0 < r) && (0 < c)) ;;
  Ok (Mat r d).

(** matrix.rs:294-297: data[row * cols + col] *)
Definition get_w M (r c : nat) : res T :=
  if r < no_rows M then
    n <-- cols M ;;
    assert! (c < n) ;;
    k <-- mulw r n ;;
    k <-- addw k c ;;
    vget (data M) k
  else Err Panic.

(** matrix.rs:299-303 *)
Definition set_w M (r c : nat) (v : T) : res (mat T) :=
  if r < no_rows M then
    n <-- cols M ;;
    assert! (c < n) ;;
    k <-- mulw r n ;;
    k <-- addw k c ;;
    d <-- vset (data M) k v ;;
    Ok (Mat (no_rows M) d)
  else Err Panic.

(** matrix.rs:570-579 *)
Definition random_w (g rnd : nat -> T) (r c : nat) : res (mat T) :=
  elems <-- mulw r c ;;
  d <-- for_ 0 elems (fun i d => vset d i (rnd i)) (alloc_dirty_vec g elems) ;;
  Ok (Mat r d).

(** matrix.rs:414-435 (the two subtractions cannot underflow after the asserts) *)
Definition sub_matrix_w (g : nat -> T) M
    (start_row start_col end_row end_col : nat) : res (mat T) :=
  assert! (start_row < end_row) ;;
  assert! (start_col < end_col) ;;
  n <-- cols M ;;
  assert! [&& end_row - start_row < no_rows M, end_col - start_col < n,
           start_row != end_row & start_col != end_col] ;;
  let rows := end_row - start_row in
  let cols := end_col - start_col in
  elems <-- mulw rows cols ;;
  src_idx <-- mulw start_row n ;;
  src_idx <-- addw src_idx start_col ;;
  '(d, _, _) <-- for_ 0 rows (fun _ st =>
      let '(d, src_idx, dest_idx) := st in
      d <-- for_ 0 cols (fun col_offset d =>
              s <-- addw src_idx col_offset ;;
              x <-- vget (data M) s ;;
              t <-- addw dest_idx col_offset ;;
              vset d t x) d ;;
      src_idx <-- addw src_idx n ;;
      dest_idx <-- addw dest_idx cols ;;
      Ok (d, src_idx, dest_idx))
    (alloc_dirty_vec g elems, src_idx, 0) ;;
  Ok (Mat rows d).

(** matrix.rs:451-470 *)
Definition permute_rows_w (g : nat -> T) M (rs : seq nat) : res (mat T) :=
  let r := size rs in
  n <-- cols M ;;
  elems <-- mulw r n ;;
  '(d, _) <-- for_ 0 r (fun row st =>
      k <-- vget rs row ;;
      row_idx <-- mulw k n ;;
      assert! (k < no_rows M) ;;
      for_ 0 n (fun col st =>
        let '(d, dest_idx) := st in
        s <-- addw row_idx col ;;
        x <-- vget (data M) s ;;
        d <-- vset d dest_idx x ;;
        dest_idx <-- addw dest_idx 1 ;;
        Ok (d, dest_idx)) st)
    (alloc_dirty_vec g elems, 0) ;;
  Ok (Mat r d).

(** matrix.rs:365-389; the inner loop on [fuel] *)
Definition mt_cycle_w (no_rows cycle_idx : nat)
    (st : seq T * seq bool * nat * T)
    : res (ctl (seq T * seq bool * nat * T) (seq T * seq bool)) :=
  let '(d, visited, idx, prev_value) := st in
  len1 <-- usub (size d) 1 ;;
  p <-- mulw no_rows idx ;;
  idx <-- umod p len1 ;;
  current_value <-- vget d idx ;;
  d <-- vset d idx prev_value ;;
  if idx == cycle_idx then Ok (Stop (d, visited))
  else
    visited <-- vset visited idx true ;;
    Ok (Next (d, visited, idx, current_value)).

Definition mt_w (fuel : nat) M : res (mat T) :=
  len1 <-- usub (size (data M)) 1 ;;
  '(d, _) <-- for_ 1 len1 (fun cycle_idx st =>
      let '(d, visited) := st in
      v <-- vget visited cycle_idx ;;
      if v then Ok (d, visited)
      else
        prev_value <-- vget d cycle_idx ;;
        loop_ fuel (mt_cycle_w (no_rows M) cycle_idx)
              (d, visited, cycle_idx, prev_value))
    (data M, vec_of false (size (data M))) ;;
  n <-- cols (Mat (no_rows M) d) ;;
  Ok (Mat n d).
End Copy.

Section Num.
Variable N : numops.

(** matrix.rs:112-122 *)
Definition id_w (g : nat -> N) (m n : nat) : res (mat N) :=
  elems <-- mulw m n ;;
  d <-- fill (n_zero N) elems (alloc_dirty_vec g elems) ;;
  d <-- for_ 0 (minn m n) (fun i d =>
          k <-- mulw i n ;; k <-- addw k i ;; vset d k (n_one N)) d ;;
  Ok (Mat m d).

(** matrix.rs:124-134 *)
Definition zero_w (g : nat -> N) (m n : nat) : res (mat N) :=
  elems <-- mulw m n ;;
  d <-- fill (n_zero N) elems (alloc_dirty_vec g elems) ;;
  Ok (Mat m d).

(** matrix.rs:149-163 *)
Definition block_diag_w (g : nat -> N) (m n : nat) (ds : seq N) : res (mat N) :=
  let min_dim := minn m n in
  assert! (size ds == min_dim) ;;
  elems <-- mulw m n ;;
  d <-- fill (n_zero N) elems (alloc_dirty_vec g elems) ;;
  d <-- for_ 0 min_dim (fun i d =>
          x <-- vget ds i ;; k <-- mulw i n ;; k <-- addw k i ;; vset d k x) d ;;
  new_w m n d.

(** matrix.rs:685-726 *)
Definition mul_w (g : nat -> N) (M M2 : mat N) : res (mat N) :=
  n1 <-- cols M ;;
  assert! (n1 == no_rows M2) ;;
  n2 <-- cols M2 ;;
  elems <-- mulw (no_rows M) n2 ;;
  d <-- for_ 0 (no_rows M) (fun row d =>
    for_ 0 n2 (fun col d =>
      s <-- for_ 0 n1 (fun idx s =>
              x <-- get_w M row idx ;;
              y <-- get_w M2 idx col ;;
              Ok (n_add s (n_mul x y))) (n_zero N) ;;
      k <-- mulw row n2 ;;
      k <-- addw k col ;;
      vset d k s) d) (alloc_dirty_vec g elems) ;;
  Ok (Mat (no_rows M) d).
End Num.
End Usize.
