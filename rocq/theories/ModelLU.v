(** * ModelLU: src/decomp/lu.rs and the methods of matrix.rs built on it
    (det, solve, inverse, is_singular, is_non_singular; matrix.rs:753-775). *)
From mathcomp Require Import all_ssreflect.
From Verif Require Import Base Scalar ModelMatrix.

Set Implicit Arguments.
Unset Strict Implicit.
Unset Printing Implicit Defensive.

Section LU.
Variable S : scalar.

(** lu.rs:95-101 *)
Record lu_decomp := LUDecomposition {
  lu : mat S;
  pospivsign : bool;
  piv : seq nat }.

(** Inner loop of column [j], lu.rs:122-129:
    lu[i][j] -= sum_{k < min(i,j)} lu[i][k] * lu[k][j]  for i = 0..m *)
Definition lu_column (m n j : nat) (ludata : seq S) : res (seq S) :=
  for_ 0 m (fun i ludata =>
    s <-- for_ 0 (minn i j) (fun k s =>
            x <-- vget ludata (i * n + k) ;;
            y <-- vget ludata (k * n + j) ;;
            Ok (n_add s (n_mul x y))) (n_zero S) ;;
    x <-- vget ludata (i * n + j) ;;
    vset ludata (i * n + j) (n_sub x s)) ludata.

(** lu.rs:132-137: row with the largest |lu[i][j]|, i >= j *)
Definition lu_pivot (m n j : nat) (ludata : seq S) : res nat :=
  for_ (j + 1) m (fun i p =>
    x <-- vget ludata (i * n + j) ;;
    y <-- vget ludata (p * n + j) ;;
    Ok (if s_ltb (s_abs y) (s_abs x) then i else p)) j.

(** lu.rs:141-145: swap rows p and j of ludata *)
Definition lu_swap_rows (n p j : nat) (ludata : seq S) : res (seq S) :=
  for_ 0 n (fun k ludata =>
    tp <-- vget ludata (p * n + k) ;;
    tj <-- vget ludata (j * n + k) ;;
    ludata <-- vset ludata (p * n + k) tj ;;
    vset ludata (j * n + k) tp) ludata.

(** lu.rs:147-149: swap entries p and j of pivdata *)
Definition lu_swap_piv (p j : nat) (pivdata : seq nat) : res (seq nat) :=
  k <-- vget pivdata p ;;
  x <-- vget pivdata j ;;
  pivdata <-- vset pivdata p x ;;
  vset pivdata j k.

(** lu.rs:156-160: divide column j below the diagonal by the pivot *)
Definition lu_divide (m n j : nat) (ludata : seq S) : res (seq S) :=
  if j < m then
    d <-- vget ludata (j * n + j) ;;
    if ~~ s_eqb d (n_zero S) then
      for_ (j + 1) m (fun i ludata =>
        x <-- vget ludata (i * n + j) ;;
        d <-- vget ludata (j * n + j) ;;
        q <-- n_div x d ;;
        vset ludata (i * n + j) q) ludata
    else Ok ludata
  else Ok ludata.

(** lu.rs:116-161: one iteration of the column loop *)
Definition lu_step (m n j : nat) (st : seq S * seq nat * bool)
  : res (seq S * seq nat * bool) :=
  let '(ludata, pivdata, sign) := st in
  ludata <-- lu_column m n j ludata ;;
  p <-- lu_pivot m n j ludata ;;
  '(ludata, pivdata, sign) <--
    (if p != j then
       ludata <-- lu_swap_rows n p j ludata ;;
       pivdata <-- lu_swap_piv p j pivdata ;;
       Ok (ludata, pivdata, ~~ sign)
     else Ok (ludata, pivdata, sign)) ;;
  ludata <-- lu_divide m n j ludata ;;
  Ok (ludata, pivdata, sign).

(** lu.rs:104-168 *)
Definition lu_new (gp : nat -> nat) (a : mat S) : res lu_decomp :=
  let ludata := get_data a in
  let m := rows a in
  n <-- cols a ;;
  pivdata <-- for_ 0 m (fun i d => vset d i i) (alloc_dirty_vec gp m) ;;
  '(ludata, pivdata, sign) <-- for_ 0 n (lu_step m n) (ludata, pivdata, true) ;;
  l <-- new m n ludata ;;
  Ok (LUDecomposition l sign pivdata).

(** lu.rs:174-182 *)
Definition lu_is_non_singular (d : lu_decomp) : res bool :=
  n <-- cols (lu d) ;;
  c <-- forc 0 n (fun j (_ : unit) =>
         x <-- vget (get_data (lu d)) (j * n + j) ;;
         if s_eqb x (n_zero S) then Ok (Stop false) else Ok (Next tt)) tt ;;
  Ok (match c with Next _ => true | Stop b => b end).

(** lu.rs:170-172 *)
Definition lu_is_singular (d : lu_decomp) : res bool :=
  b <-- lu_is_non_singular d ;; Ok (~~ b).

(** lu.rs:184-202 *)
Definition lu_get_l (g : nat -> S) (d : lu_decomp) : res (mat S) :=
  let m := rows (lu d) in
  c <-- cols (lu d) ;;
  let n := if c <= rows (lu d) then c else rows (lu d) in
  ldata <-- for_ 0 m (fun i ldata =>
      for_ 0 n (fun j ldata =>
        x <-- (if j < i then vget (get_data (lu d)) (i * c + j)
               else if i == j then Ok (n_one S) else Ok (n_zero S)) ;;
        vset ldata (i * n + j) x) ldata) (alloc_dirty_vec g (m * n)) ;;
  new m n ldata.

(** lu.rs:204-215 *)
Definition lu_get_u (g : nat -> S) (d : lu_decomp) : res (mat S) :=
  c <-- cols (lu d) ;;
  let m := if c <= rows (lu d) then c else rows (lu d) in
  let n := c in
  udata <-- for_ 0 m (fun i udata =>
      for_ 0 n (fun j udata =>
        x <-- (if i <= j then vget (get_data (lu d)) (i * n + j)
               else Ok (n_zero S)) ;;
        vset udata (i * n + j) x) udata) (alloc_dirty_vec g (m * n)) ;;
  new m n udata.

(** lu.rs:217-220 *)
Definition lu_get_p (g1 g2 : nat -> S) (d : lu_decomp) : res (mat S) :=
  let len := size (piv d) in
  i <-- id (N:=S) g1 len len ;;
  permute_rows g2 i (piv d).

(** lu.rs:222 *)
Definition lu_get_piv (d : lu_decomp) : seq nat := piv d.

(** lu.rs:224-232 *)
Definition lu_det (d : lu_decomp) : res S :=
  n <-- cols (lu d) ;;
  assert! (rows (lu d) == n) ;;
  let d0 := if pospivsign d then n_one S else n_neg (n_one S) in
  for_ 0 n (fun j acc =>
    x <-- vget (get_data (lu d)) (j * n + j) ;;
    Ok (n_mul acc x)) d0.

(** Copy of the right-hand side with pivoting, lu.rs:247-254 *)
Definition lu_copy_rhs (d : lu_decomp) (b : mat S) (nx : nat) (xdata : seq S)
  : res (seq S) :=
  '(xdata, _) <-- for_ 0 (size (piv d)) (fun i st =>
      for_ 0 nx (fun j st =>
        let '(xdata, dest_idx) := st in
        p <-- vget (piv d) i ;;
        x <-- vget (get_data b) (p * nx + j) ;;
        xdata <-- vset xdata dest_idx x ;;
        Ok (xdata, dest_idx + 1)) st) (xdata, 0) ;;
  Ok xdata.

(** [x[i][j] = x[i][j] - x[k][j] * lu[i][k]] for all j (lu.rs:259-261, 271-273) *)
Definition lu_elim (lud : seq S) (n nx k i : nat) (xdata : seq S) : res (seq S) :=
  for_ 0 nx (fun j xdata =>
    xi <-- vget xdata (i * nx + j) ;;
    xk <-- vget xdata (k * nx + j) ;;
    l <-- vget lud (i * n + k) ;;
    vset xdata (i * nx + j) (n_sub xi (n_mul xk l))) xdata.

(** Forward substitution, lu.rs:257-263 *)
Definition lu_forward (lud : seq S) (n nx : nat) (xdata : seq S) : res (seq S) :=
  for_ 0 n (fun k xdata =>
    for_ (k + 1) n (fun i xdata => lu_elim lud n nx k i xdata) xdata) xdata.

(** Back substitution, lu.rs:266-275 *)
Definition lu_backward (lud : seq S) (n nx : nat) (xdata : seq S) : res (seq S) :=
  for_rev 0 n (fun k xdata =>
    xdata <-- for_ 0 nx (fun j xdata =>
        x <-- vget xdata (k * nx + j) ;;
        u <-- vget lud (k * n + k) ;;
        q <-- n_div x u ;;
        vset xdata (k * nx + j) q) xdata ;;
    for_ 0 k (fun i xdata => lu_elim lud n nx k i xdata) xdata) xdata.

(** lu.rs:237-278 *)
Definition lu_solve (g : nat -> S) (d : lu_decomp) (b : mat S)
  : res (option (mat S)) :=
  let m := rows (lu d) in
  n <-- cols (lu d) ;;
  assert! (rows b == m) ;;
  ns <-- lu_is_non_singular d ;;
  if ~~ ns then Ok None
  else
    nx <-- cols b ;;
    xdata <-- lu_copy_rhs d b nx (alloc_dirty_vec g (m * nx)) ;;
    xdata <-- lu_forward (get_data (lu d)) n nx xdata ;;
    xdata <-- lu_backward (get_data (lu d)) n nx xdata ;;
    x <-- new (rows (lu d)) nx xdata ;;
    Ok (Some x).

(** matrix.rs:753-756 *)
Definition det (gp : nat -> nat) (a : mat S) : res S :=
  n <-- cols a ;;
  assert! (n == no_rows a) ;;
  d <-- lu_new gp a ;;
  lu_det d.

(** matrix.rs:758-760 *)
Definition solve (gp : nat -> nat) (g : nat -> S) (a b : mat S)
  : res (option (mat S)) :=
  d <-- lu_new gp a ;;
  lu_solve g d b.

(** matrix.rs:762-765 *)
Definition inverse (gp : nat -> nat) (g1 g2 : nat -> S) (a : mat S)
  : res (option (mat S)) :=
  n <-- cols a ;;
  assert! (no_rows a == n) ;;
  d <-- lu_new gp a ;;
  i <-- id (N:=S) g1 (no_rows a) (no_rows a) ;;
  lu_solve g2 d i.

(** matrix.rs:772-775 *)
Definition is_non_singular (gp : nat -> nat) (a : mat S) : res bool :=
  n <-- cols a ;;
  assert! (no_rows a == n) ;;
  d <-- lu_new gp a ;;
  lu_is_non_singular d.

(** matrix.rs:768-770 *)
Definition is_singular (gp : nat -> nat) (a : mat S) : res bool :=
  b <-- is_non_singular gp a ;; Ok (~~ b).

End LU.
