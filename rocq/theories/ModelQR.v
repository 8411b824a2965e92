(** * ModelQR: src/decomp/qr.rs and Matrix::pinverse (matrix.rs:777-785) *)
From mathcomp Require Import all_ssreflect.
From Verif Require Import Base Scalar ModelMatrix ModelLU.

Set Implicit Arguments.
Unset Strict Implicit.
Unset Printing Implicit Defensive.

Section QR.
Variable S : scalar.

(** qr.rs:20-23 *)
Record qr_decomp := QRDecomposition { qr : mat S; rdiag : seq S }.

(** qr.rs:49-53: squared norm of column [minor] from the diagonal down *)
Definition qr_norm_sqr (minor m n : nat) (qrdata : seq S) : res S :=
  for_ minor m (fun i acc =>
    c <-- vget qrdata (i * n + minor) ;;
    Ok (n_add acc (n_mul c c))) (n_zero S).

(** qr.rs:92-104: reflect the columns right of [minor] *)
Definition qr_reflect (minor m n : nat) (a : S) (qrdata : seq S) : res (seq S) :=
  for_ (minor + 1) n (fun column qrdata =>
    x_dot_u <-- for_ minor m (fun row acc =>
        x <-- vget qrdata (row * n + minor) ;;
        y <-- vget qrdata (row * n + column) ;;
        Ok (n_add acc (n_mul x y))) (n_zero S) ;;
    u <-- vget qrdata (minor * n + minor) ;;
    factor <-- n_div x_dot_u (n_mul a u) ;;
    for_ minor m (fun row qrdata =>
        y <-- vget qrdata (row * n + column) ;;
        x <-- vget qrdata (row * n + minor) ;;
        vset qrdata (row * n + column) (n_add y (n_mul factor x))) qrdata) qrdata.

(** qr.rs:46-106 *)
Definition perform_householder_reflection (minor m n : nat) (st : seq S * seq S)
  : res (seq S * seq S) :=
  let '(qrdata, rdiag) := st in
  x_norm_sqr <-- qr_norm_sqr minor m n qrdata ;;
  x <-- vget qrdata (minor * n + minor) ;;
  r <-- s_sqrt x_norm_sqr ;;
  let a := if s_ltb (n_zero S) x then n_neg r else r in
  rdiag <-- vset rdiag minor a ;;
  if ~~ s_eqb a (n_zero S) then
    x <-- vget qrdata (minor * n + minor) ;;
    qrdata <-- vset qrdata (minor * n + minor) (n_sub x a) ;;
    qrdata <-- qr_reflect minor m n a qrdata ;;
    Ok (qrdata, rdiag)
  else Ok (qrdata, rdiag).

(** qr.rs:26-43 *)
Definition qr_new (g : nat -> S) (mm : mat S) : res qr_decomp :=
  let qrdata := get_data mm in
  n <-- cols mm ;;
  let m := rows mm in
  let diag_count := minn m n in
  '(qrdata, rdiag) <-- for_ 0 diag_count (fun minor st =>
      perform_householder_reflection minor m n st)
    (qrdata, alloc_dirty_vec g diag_count) ;;
  q <-- new m n qrdata ;;
  Ok (QRDecomposition q rdiag).

(** qr.rs:108-115 *)
Definition qr_is_full_rank (d : qr_decomp) : res bool :=
  n <-- cols (qr d) ;;
  c <-- forc 0 n (fun j (_ : unit) =>
         x <-- vget (rdiag d) j ;;
         if s_eqb x (n_zero S) then Ok (Stop false) else Ok (Next tt)) tt ;;
  Ok (match c with Next _ => true | Stop b => b end).

(** qr.rs:119-132 *)
Definition qr_get_h (g : nat -> S) (d : qr_decomp) : res (mat S) :=
  let m := rows (qr d) in
  n <-- cols (qr d) ;;
  hdata <-- for_ 0 m (fun i hdata =>
      for_ 0 n (fun j hdata =>
        x <-- (if j <= i then vget (get_data (qr d)) (i * n + j) else Ok (n_zero S)) ;;
        vset hdata (i * n + j) x) hdata) (alloc_dirty_vec g (m * n)) ;;
  new m n hdata.

(** qr.rs:135-148 *)
Definition qr_get_r (g : nat -> S) (d : qr_decomp) : res (mat S) :=
  let m := rows (qr d) in
  n <-- cols (qr d) ;;
  hdata <-- for_ 0 m (fun i rdata =>
      for_ 0 n (fun j rdata =>
        x <-- (if i < j then vget (get_data (qr d)) (i * n + j)
               else if i == j then vget (rdiag d) i
               else Ok (n_zero S)) ;;
        vset rdata (i * n + j) x) rdata) (alloc_dirty_vec g (m * n)) ;;
  new m n hdata.

(** qr.rs:179-189: apply reflection [minor] to the columns minor..m of qdata *)
Definition qr_apply_q (d : qr_decomp) (m n minor : nat) (qdata : seq S) : res (seq S) :=
  for_ minor m (fun column qdata =>
    x_dot_u <-- for_ minor m (fun row acc =>
        x <-- vget (get_data (qr d)) (row * n + minor) ;;
        y <-- vget qdata (row * m + column) ;;
        Ok (n_add acc (n_mul x y))) (n_zero S) ;;
    a <-- vget (rdiag d) minor ;;
    u <-- vget (get_data (qr d)) (minor * n + minor) ;;
    factor <-- n_div x_dot_u (n_mul a u) ;;
    for_ minor m (fun row qdata =>
        y <-- vget qdata (row * m + column) ;;
        x <-- vget (get_data (qr d)) (row * n + minor) ;;
        vset qdata (row * m + column) (n_add y (n_mul factor x))) qdata) qdata.

(** qr.rs:151-194 *)
Definition qr_get_q (d : qr_decomp) : res (mat S) :=
  n <-- cols (qr d) ;;
  let m := rows (qr d) in
  let qdata := vec_of (n_zero S) (m * m) in
  qdata <-- for_ 0 (minn m n) (fun minor qdata =>
      vset qdata (minor * m + minor) (n_one S)) qdata ;;
  qdata <-- for_rev 0 (minn m n) (fun minor qdata =>
      u <-- vget (get_data (qr d)) (minor * n + minor) ;;
      if ~~ s_eqb u (n_zero S) then qr_apply_q d m n minor qdata
      else Ok qdata) qdata ;;
  new m m qdata.

(** qr.rs:212-223: the "Y = transpose(Q)*B" loop of solve *)
Definition qr_solve_qt (d : qr_decomp) (m n nx : nat) (xdata : seq S) : res (seq S) :=
  for_ 0 n (fun k xdata =>
    for_ 0 nx (fun j xdata =>
      s <-- for_ k m (fun i s =>
          x <-- vget (get_data (qr d)) (i * n + k) ;;
          y <-- vget xdata (i * nx + j) ;;
          Ok (n_add s (n_mul x y))) (n_zero S) ;;
      u <-- vget (get_data (qr d)) (k * n + k) ;;
      s <-- n_div (n_neg s) u ;;
      for_ k m (fun i xdata =>
          y <-- vget xdata (i * nx + j) ;;
          x <-- vget (get_data (qr d)) (i * n + k) ;;
          vset xdata (i * nx + j) (n_add y (n_mul s x))) xdata) xdata) xdata.

(** qr.rs:226-235: the "Solve R*X = Y" loop of solve *)
Definition qr_solve_r (d : qr_decomp) (n nx : nat) (xdata : seq S) : res (seq S) :=
  for_rev 0 n (fun k xdata =>
    xdata <-- for_ 0 nx (fun j xdata =>
        x <-- vget xdata (k * nx + j) ;;
        r <-- vget (rdiag d) k ;;
        q <-- n_div x r ;;
        vset xdata (k * nx + j) q) xdata ;;
    for_ 0 k (fun i xdata =>
      for_ 0 nx (fun j xdata =>
        xi <-- vget xdata (i * nx + j) ;;
        xk <-- vget xdata (k * nx + j) ;;
        r <-- vget (get_data (qr d)) (i * n + k) ;;
        vset xdata (i * nx + j) (n_sub xi (n_mul xk r))) xdata) xdata) xdata.

(** qr.rs:199-238 *)
Definition qr_solve (d : qr_decomp) (b : mat S) : res (option (mat S)) :=
  assert! (rows b == rows (qr d)) ;;
  fr <-- qr_is_full_rank d ;;
  if ~~ fr then Ok None
  else
    nx <-- cols b ;;
    let xdata := get_data b in
    n <-- cols (qr d) ;;
    let m := rows (qr d) in
    xdata <-- qr_solve_qt d m n nx xdata ;;
    xdata <-- qr_solve_r d n nx xdata ;;
    x <-- new n nx xdata ;;
    Ok (Some x).

(** matrix.rs:777-785; [.unwrap()] of None panics *)
Definition pinverse (gp : nat -> nat) (g1 g2 g3 g4 g5 g6 g7 g8 : nat -> S) (a : mat S)
  : res (mat S) :=
  q <-- qr_new g1 a ;;
  r <-- qr_get_r g2 q ;;
  rt <-- t g3 r ;;
  rtr <-- mul (N:=S) g4 rt r ;;
  o <-- inverse gp g5 g6 rtr ;;
  match o with
  | None => Err Panic
  | Some i =>
      at_ <-- t g7 a ;;
      mul (N:=S) g8 i at_
  end.

End QR.
