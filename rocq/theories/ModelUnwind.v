(** * ModelUnwind: the methods of src/matrix.rs that run caller code or change
    their receiver, with what is left behind when they panic.

    In ModelMatrix.v a panic has no state.  In Rust a panic unwinds, and a
    caller that catches it (std::panic::catch_unwind, a thread join) can go
    on using everything the method had a mutable reference to: the receiver of
    an [&mut self] method, and whatever the caller's closures write to.  Here
    a run of a method ends with the state it leaves and with [true] (it
    returned) or [false] (it panicked).

    - A closure [&Fn(A) -> B] is a function [W -> A -> W * option B]: the
      world [W] is whatever it can reach through shared mutability (a Cell, a
      file, a counter); [None] means that it panicked.
    - The element operations are [pnum]: every one of them may panic, as
      integer arithmetic does in a debug build and user-defined element types
      may do anywhere. *)
From mathcomp Require Import all_ssreflect all_algebra.
From Verif Require Import Base Scalar ModelMatrix SpecInt.

Set Implicit Arguments.
Unset Strict Implicit.
Unset Printing Implicit Defensive.

(** A run that keeps its state when it panics. *)
Definition tryx St A (st : St) (m : res A) (k : A -> St * bool) : St * bool :=
  match m with Ok a => k a | Err _ => (st, false) end.
Notation "x <~ m 'or' st ;; k" := (tryx st m (fun x => k))
  (at level 80, m at next level, st at next level, k at level 200, right associativity).

(** [for i in lo..hi { body }] *)
Fixpoint for_u St (n lo : nat) (body : nat -> St -> St * bool) (st : St) : St * bool :=
  match n with
  | 0 => (st, true)
  | n'.+1 => let '(st', ok) := body lo st in
             if ok then for_u n' lo.+1 body st' else (st', false)
  end.

(** Element operations that may panic: the trait bound Num + Neg *)
Record pnum := PNum {
  p_T :> Type;
  p_zero : p_T;
  p_add : p_T -> p_T -> res p_T;
  p_sub : p_T -> p_T -> res p_T;
  p_mul : p_T -> p_T -> res p_T;
  p_div : p_T -> p_T -> res p_T;
  p_neg : p_T -> res p_T }.

(** the element types of ModelMatrix.v *)
Definition pnum_of (N : numops) : pnum :=
  {| p_T := N; p_zero := n_zero N;
     p_add := fun x y => Ok (n_add x y); p_sub := fun x y => Ok (n_sub x y);
     p_mul := fun x y => Ok (n_mul x y); p_div := fun x y => n_div x y;
     p_neg := fun x => Ok (n_neg x) |}.

(** a machine integer type with overflow checks (debug build) *)
Definition pnum_int (t : ity) : pnum :=
  let chk (z : int) := if fits t z then Ok z else Err Panic in
  {| p_T := int; p_zero := 0%R;
     p_add := fun x y => chk (x + y)%R; p_sub := fun x y => chk (x - y)%R;
     p_mul := fun x y => chk (x * y)%R;
     p_div := fun x y => if (y == 0%R) then Err Panic else chk (quotz x y);
     p_neg := fun x => chk (- x)%R |}.

(** ** Methods that run closures *)
Section Closures.
Variables W T : Type.
Implicit Types M : mat T.

(** matrix.rs:65-75  map: the new vector is dropped by a panic *)
Definition map_u S (g : nat -> S) (f : W -> T -> W * option S) (w : W) M : W * option (mat S) :=
  let elems := size (data M) in
  let '((w, d), ok) := for_u elems 0 (fun i st =>
      let '(w, d) := st in
      x <~ vget (data M) i or st ;;
      let '(w, y) := f w x in
      match y with
      | None => ((w, d), false)
      | Some y => d' <~ vset d i y or (w, d) ;; ((w, d'), true)
      end) (w, alloc_dirty_vec g elems) in
  (w, if ok then Some (Mat (no_rows M) d) else None).

(** matrix.rs:77-81  mmap: the right-hand side is evaluated before the
    element is assigned *)
Definition mmap_u (f : W -> T -> W * option T) (w : W) M : (W * mat T) * bool :=
  let '((w, d), ok) := for_u (size (data M)) 0 (fun i st =>
      let '(w, d) := st in
      x <~ vget d i or st ;;
      let '(w, y) := f w x in
      match y with
      | None => ((w, d), false)
      | Some y => d' <~ vset d i y or (w, d) ;; ((w, d'), true)
      end) (w, data M) in
  ((w, Mat (no_rows M) d), ok).

(** matrix.rs:83-98  reduce *)
Definition reduce_u S (init : seq S) (f : W -> S -> T -> W * option S) (w : W) M : W * option (mat S) :=
  match cols M with
  | Err _ => (w, None)
  | Ok n =>
    if size init != n then (w, None) else
    let '((w, d, _), ok) := for_u (size (data M)) 0 (fun i st =>
        let '(w, d, data_idx) := st in
        a <~ vget d data_idx or st ;;
        x <~ vget (data M) i or st ;;
        let '(w, y) := f w a x in
        match y with
        | None => ((w, d, data_idx), false)
        | Some y =>
          d' <~ vset d data_idx y or (w, d, data_idx) ;;
          k <~ umod (data_idx + 1) (size d') or (w, d', data_idx + 1) ;;
          ((w, d', k), true)
        end) (w, init, 0) in
    (w, if ok then Some (Mat 1 d) else None)
  end.

(** the loop of filter_rows and filter_columns: f(self, i) for i in 0..n *)
Definition filter_loop (f : W -> mat T -> nat -> W * option bool) (w : W) M (n : nat) : (W * seq nat) * bool :=
  for_u n 0 (fun i st =>
    let '(w, ks) := st in
    let '(w, b) := f w M i in
    match b with
    | None => ((w, ks), false)
    | Some b => ((w, if b then rcons ks i else ks), true)
    end) (w, [::]).

Definition to_opt A (r : res A) : option A := if r is Ok a then Some a else None.

(** matrix.rs:494-502 *)
Definition filter_rows_u (g : nat -> T) (f : W -> mat T -> nat -> W * option bool) (w : W) M : W * option (mat T) :=
  let '((w, ks), ok) := filter_loop f w M (rows M) in
  (w, if ok then to_opt (permute_rows g M ks) else None).

(** matrix.rs:504-512 *)
Definition filter_columns_u (g : nat -> T) (f : W -> mat T -> nat -> W * option bool) (w : W) M : W * option (mat T) :=
  match cols M with
  | Err _ => (w, None)
  | Ok n =>
    let '((w, ks), ok) := filter_loop f w M n in
    (w, if ok then to_opt (permute_columns g M ks) else None)
  end.

End Closures.

(** ** In-place methods *)
Section InPlace.
Variable N : pnum.
Implicit Types M : mat N.

(** matrix.rs:299-303 *)
Definition set_u M (i j : nat) (v : N) : mat N * bool :=
  M' <~ set M i j v or M ;; (M', true).

(** [for i in 0..self.data.len() { self.data[i] = f(self.data[i]) }] *)
Definition inplace1 (f : N -> res N) M : mat N * bool :=
  let '(d, ok) := for_u (size (data M)) 0 (fun i d =>
      x <~ vget d i or d ;;
      z <~ f x or d ;;
      d' <~ vset d i z or d ;; (d', true)) (data M) in
  (Mat (no_rows M) d, ok).

(** the same with a second operand, after the two shape asserts *)
Definition inplace2 (f : N -> N -> res N) M (M2 : mat N) : mat N * bool :=
  if no_rows M != no_rows M2 then (M, false) else
  n1 <~ cols M or M ;;
  n2 <~ cols M2 or M ;;
  if n1 != n2 then (M, false) else
  let '(d, ok) := for_u (size (data M)) 0 (fun i d =>
      x <~ vget d i or d ;;
      y <~ vget (data M2) i or d ;;
      z <~ f x y or d ;;
      d' <~ vset d i z or d ;; (d', true)) (data M) in
  (Mat (no_rows M) d, ok).

(** matrix.rs:183-187 *)
Definition mneg_u M := inplace1 (p_neg (p:=N)) M.
(** matrix.rs:201-205 *)
Definition mscale_u M (k : N) := inplace1 (fun x => p_mul k x) M.
(** matrix.rs:207-214 *)
Definition madd_u M (M2 : mat N) := inplace2 (p_add (p:=N)) M M2.
(** matrix.rs:216-223 *)
Definition msub_u M (M2 : mat N) := inplace2 (p_sub (p:=N)) M M2.
(** matrix.rs:240-247 *)
Definition melem_mul_u M (M2 : mat N) := inplace2 (p_mul (p:=N)) M M2.
(** matrix.rs:264-271 *)
Definition melem_div_u M (M2 : mat N) := inplace2 (p_div (p:=N)) M M2.

(** matrix.rs:273-289  mmul: the product is computed in a local vector, which
    replaces self.data at the very end *)
Definition mmul_u (g : nat -> N) M (M2 : mat N) : mat N * bool :=
  n1 <~ cols M or M ;;
  if n1 != no_rows M2 then (M, false) else
  n2 <~ cols M2 or M ;;
  d <~ for_ 0 (no_rows M) (fun row d =>
         for_ 0 n2 (fun col d =>
           s <-- for_ 0 n1 (fun idx s =>
                   x <-- get M row idx ;;
                   y <-- get M2 idx col ;;
                   z <-- p_mul x y ;;
                   p_add s z) (p_zero N) ;;
           vset d (row * n2 + col) s) d) (alloc_dirty_vec g (no_rows M * n2)) or M ;;
  (Mat (no_rows M) d, true).

(** matrix.rs:365-389  mt runs no caller code; where it panics at all
    (see C04) it does so before its first write. *)
Definition mt_u M : mat N * bool := M' <~ mt M or M ;; (M', true).

End InPlace.

(** ** Histories: a sequence of in-place calls on one matrix by a caller that
    catches every panic and goes on with what the call left. *)
Inductive ucall (N : pnum) :=
  | USet (i j : nat) (v : N) | UMmap (f : N -> option N)
  | UMneg | UMscale (k : N)
  | UMadd (B : mat N) | UMsub (B : mat N) | UMelemMul (B : mat N) | UMelemDiv (B : mat N)
  | UMmul (g : nat -> N) (B : mat N) | UMt.

Definition exec_u (N : pnum) (c : ucall N) (M : mat N) : mat N * bool :=
  match c with
  | USet i j v => set_u M i j v
  | UMmap f => let '((_, M'), ok) := mmap_u (fun _ x => (tt, f x)) tt M in (M', ok)
  | UMneg => mneg_u M
  | UMscale k => mscale_u M k
  | UMadd B => madd_u M B
  | UMsub B => msub_u M B
  | UMelemMul B => melem_mul_u M B
  | UMelemDiv B => melem_div_u M B
  | UMmul g B => mmul_u g M B
  | UMt => mt_u M
  end.

Definition operand (N : pnum) (c : ucall N) : option (mat N) :=
  match c with
  | UMadd B | UMsub B | UMelemMul B | UMelemDiv B | UMmul _ B => Some B
  | _ => None
  end.
