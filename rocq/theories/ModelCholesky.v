(** * ModelCholesky: src/decomp/cholesky.rs *)
From mathcomp Require Import all_ssreflect.
From Verif Require Import Base Scalar ModelMatrix.

Set Implicit Arguments.
Unset Strict Implicit.
Unset Printing Implicit Defensive.

Section Cholesky.
Variable S : scalar.

(** cholesky.rs:51-53: struct CholeskyDecomposition { l }; the decomposition
    is represented by its matrix l. *)

(** cholesky.rs:71-92: solve row j left of the diagonal.  State: (data, d).
    [Stop tt] is [return None] (asymmetric input). *)
Definition chol_row (n j : nat) (m : mat S) (st : seq S * S)
  : res (ctl (seq S * S) unit) :=
  forc 0 j (fun k st =>
    let '(dat, d) := st in
    s <-- for_ 0 k (fun i s =>
            x <-- vget dat (k * n + i) ;;
            y <-- vget dat (j * n + i) ;;
            Ok (n_add s (n_mul x y))) (n_zero S) ;;
    a <-- get m j k ;;
    lkk <-- vget dat (k * n + k) ;;
    s <-- n_div (n_sub a s) lkk ;;
    dat <-- vset dat (j * n + k) s ;;
    let d := n_add d (n_mul s s) in
    akj <-- get m k j ;;
    ajk <-- get m j k ;;
    if ~~ s_eqb akj ajk then Ok (Stop tt) else Ok (Next (dat, d))) st.

(** cholesky.rs:64-107: one iteration of the row loop *)
Definition chol_step (n : nat) (m : mat S) (j : nat) (dat : seq S)
  : res (ctl (seq S) unit) :=
  c <-- chol_row n j m (dat, n_zero S) ;;
  match c with
  | Stop _ => Ok (Stop tt)
  | Next (dat, d) =>
      a <-- get m j j ;;
      let d := n_sub a d in
      if s_leb d (n_zero S) then Ok (Stop tt)
      else
        r <-- s_sqrt d ;;
        dat <-- vset dat (j * n + j) r ;;
        dat <-- for_ (j + 1) n (fun k dat => vset dat (j * n + k) (n_zero S)) dat ;;
        Ok (Next dat)
  end.

(** cholesky.rs:56-110 *)
Definition chol_new (g : nat -> S) (m : mat S) : res (option (mat S)) :=
  c <-- cols m ;;
  if rows m != c then Ok None
  else
    let n := rows m in
    r <-- forc 0 n (chol_step n m) (alloc_dirty_vec g (n * n)) ;;
    match r with
    | Stop _ => Ok None
    | Next dat => l <-- new n n dat ;; Ok (Some l)
    end.

(** cholesky.rs:113 *)
Definition chol_get_l (l : mat S) : mat S := l.

(** cholesky.rs:124-131: solve L*Y = B *)
Definition chol_forward (ld : seq S) (n nx : nat) (xdata : seq S) : res (seq S) :=
  for_ 0 n (fun k xdata =>
    for_ 0 nx (fun j xdata =>
      xdata <-- for_ 0 k (fun i xdata =>
          xk <-- vget xdata (k * nx + j) ;;
          xi <-- vget xdata (i * nx + j) ;;
          l <-- vget ld (k * n + i) ;;
          vset xdata (k * nx + j) (n_sub xk (n_mul xi l))) xdata ;;
      xk <-- vget xdata (k * nx + j) ;;
      l <-- vget ld (k * n + k) ;;
      q <-- n_div xk l ;;
      vset xdata (k * nx + j) q) xdata) xdata.

(** cholesky.rs:134-141: solve L'*X = Y *)
Definition chol_backward (ld : seq S) (n nx : nat) (xdata : seq S) : res (seq S) :=
  for_rev 0 n (fun k xdata =>
    for_ 0 nx (fun j xdata =>
      xdata <-- for_ (k + 1) n (fun i xdata =>
          xk <-- vget xdata (k * nx + j) ;;
          xi <-- vget xdata (i * nx + j) ;;
          l <-- vget ld (i * n + k) ;;
          vset xdata (k * nx + j) (n_sub xk (n_mul xi l))) xdata ;;
      xk <-- vget xdata (k * nx + j) ;;
      l <-- vget ld (k * n + k) ;;
      q <-- n_div xk l ;;
      vset xdata (k * nx + j) q) xdata) xdata.

(** cholesky.rs:116-144 *)
Definition chol_solve (l : mat S) (b : mat S) : res (mat S) :=
  assert! (rows l == rows b) ;;
  let n := rows l in
  let xdata := get_data b in
  nx <-- cols b ;;
  xdata <-- chol_forward (get_data l) n nx xdata ;;
  xdata <-- chol_backward (get_data l) n nx xdata ;;
  new n nx xdata.

End Cholesky.
