(** * C69: panics inside a method, as seen by a caller that catches them

    Only property theorems, each closed by a lemma of UnwindThms.v, and the
    Examples showing that their hypotheses are met.  Generated from UnwindThms.v by
    tools/genprops.py. *)
From mathcomp Require Import all_ssreflect all_algebra zify.
From Verif Require Import Base Scalar Hoare ModelMatrix Spec SpecInt MatrixProofs MtProofs ModelUnwind SpecUnwind.
From Verif Require Import UnwindThms.

Set Implicit Arguments.
Unset Strict Implicit.
Unset Printing Implicit Defensive.



(** ** C69 closures: which calls are made, and what a panic leaves behind *)

(** C69: map calls the closure exactly once per element, in row-major order, stops at the first call that panics,
    and otherwise returns the values in place.  Nothing depends on the uninitialised memory of the new vector. *)
Theorem map_unwind : forall W T S (g : nat -> S) (f : W -> T -> W * option S) (w : W) (M : mat T),
  map_u g f w M = let '(w', ys, ok) := calls f w (get_data M) in (w', if ok then Some (Mat (rows M) ys) else None).
Proof. exact: map_unwind_L. Qed.
Print Assumptions map_unwind.

(** C69: mmap makes the same calls.  If one of them panics, the matrix is left with the elements before it mapped
    and the others unchanged. *)
Theorem mmap_unwind : forall W T (f : W -> T -> W * option T) (w : W) (M : mat T),
  mmap_u f w M =
  let '(w', ys, ok) := calls f w (get_data M) in ((w', Mat (rows M) (overwrite (get_data M) ys)), ok).
Proof. exact: mmap_unwind_L. Qed.
Print Assumptions mmap_unwind.

(** C69: reduce calls the closure once per element in row-major order, on the accumulator of the column; the
    vector of initial values has to have one value per column. *)
Theorem reduce_unwind : forall W S T m n (x0 : S) (init : seq S) (f : W -> S -> T -> W * option S) (w : W)
    (A : 'M[T]_(m, n)), 0 < m -> 0 < n ->
  reduce_u init f w (mat_of A) =
  if size init != n then (w, None) else
  let '(w', acc, ok) := accumulate f w (nth x0 init) [seq (val j, A i j) | i <- enum 'I_m, j <- enum 'I_n] in
  (w', if ok then Some (Mat 1 (mkseq acc n)) else None).
Proof. exact: reduce_unwind_L. Qed.
Print Assumptions reduce_unwind.

(** C69: filter_rows and filter_columns ask the closure about each index once, in increasing order, always showing it
    the unchanged matrix, and stop at a panic; the result is what select_rows / select_columns makes of the answers. *)
Theorem filter_unwind : forall W T (g : nat -> T) (f : W -> mat T -> nat -> W * option bool) (w : W) (M : mat T) n,
  cols M = Ok n ->
  filter_rows_u g f w M =
    (let '(w', bs, ok) := calls (fun w i => f w M i) w (iota 0 (rows M)) in
     (w', if ok then to_opt (select_rows g M bs) else None)) /\
  filter_columns_u g f w M =
    (let '(w', bs, ok) := calls (fun w i => f w M i) w (iota 0 n) in
     (w', if ok then to_opt (select_columns g M bs) else None)).
Proof. exact: filter_unwind_L. Qed.
Print Assumptions filter_unwind.

(** ** C69 in-place arithmetic with operations that can panic *)

(** C69: in-place methods with one operand, for every element type whose operations may panic: the elements are
    replaced in row-major order up to the first operation that panics; the rest of the matrix, and its shape, stay. *)
Theorem inplace1_unwind : forall (N : pnum) (M : mat N) (k : N),
  let left_by rs := let '(ys, ok) := upto rs in (Mat (rows M) (overwrite (get_data M) ys), ok) in
  mneg_u M = left_by [seq p_neg x | x <- get_data M] /\
  mscale_u M k = left_by [seq p_mul k x | x <- get_data M].
Proof. exact: inplace1_unwind_L. Qed.
Print Assumptions inplace1_unwind.

(** C69: two operands: as above; operands of different shapes panic before anything is written. *)
Theorem inplace2_unwind : forall (N : pnum) m n m' n' (A : 'M[N]_(m, n)) (B : 'M[N]_(m', n')),
  0 < m -> 0 < n -> 0 < m' -> 0 < n' ->
  let run (op : N -> N -> res N) :=
    if (m == m') && (n == n') then
      let '(ys, ok) := upto [seq op p.1 p.2 | p <- zip (get_data (mat_of A)) (get_data (mat_of B))] in
      (Mat m (overwrite (get_data (mat_of A)) ys), ok)
    else (mat_of A, false) in
  [/\ madd_u (mat_of A) (mat_of B) = run (p_add (p:=N)),
      msub_u (mat_of A) (mat_of B) = run (p_sub (p:=N)),
      melem_mul_u (mat_of A) (mat_of B) = run (p_mul (p:=N)) &
      melem_div_u (mat_of A) (mat_of B) = run (p_div (p:=N))].
Proof. exact: inplace2_unwind_L. Qed.
Print Assumptions inplace2_unwind.

(** C69: mmul is all or nothing: it either replaces the receiver by the product, or panics and leaves it as it was.
    It panics iff the shapes do not fit or one of the multiplications and additions of the row by column products does. *)
Theorem mmul_unwind : forall (N : pnum) g m n n' p (A : 'M[N]_(m, n)) (B : 'M[N]_(n', p)),
  0 < m -> 0 < n -> 0 < n' -> 0 < p ->
  let entry (e : n' = n) i j := dot_from (p_add (p:=N)) (p_mul (p:=N)) (p_zero N)
                      [seq (A i k, B (cast_ord (esym e) k) j) | k <- enum 'I_n] in
  (forall (e : n' = n) (C : 'M[N]_(m, p)), (forall i j, entry e i j = Ok (C i j)) ->
     mmul_u g (mat_of A) (mat_of B) = (mat_of C, true)) /\
  ((~ exists (e : n' = n) (C : 'M[N]_(m, p)), forall i j, entry e i j = Ok (C i j)) ->
     mmul_u g (mat_of A) (mat_of B) = (mat_of A, false)).
Proof. exact: mmul_unwind_L. Qed.
Print Assumptions mmul_unwind.

(** ** C69 agreement with the panic-without-state model *)

(** C69: when the operations of the element type are those of the model of C13, the two descriptions agree: a method
    returns here iff it returns there, with the same matrix. *)
Theorem unwind_agrees : forall (N : numops) g (M M2 : mat N) (k : N) i j v (f : N -> N),
  let same (u : mat N * bool) (r : res (mat N)) := if r is Ok M' then u = (M', true) else u.2 = false in
  let P := pnum_of N in
  [/\ same (mneg_u (N:=P) M) (mneg M) /\ same (mscale_u (N:=P) M k) (mscale M k),
      same (madd_u (N:=P) M M2) (madd M M2) /\ same (msub_u (N:=P) M M2) (msub M M2),
      same (melem_mul_u (N:=P) M M2) (melem_mul M M2) /\ same (melem_div_u (N:=P) M M2) (melem_div M M2),
      same (mmul_u (N:=P) g M M2) (mmul g M M2) /\ same (set_u (N:=P) M i j v) (set M i j v) &
      same (let '((_, M'), ok) := mmap_u (fun (_ : unit) x => (tt, Some (f x))) tt M in (M', ok)) (mmap f M)].
Proof. exact: unwind_agrees_L. Qed.
Print Assumptions unwind_agrees.

(** ** C69 histories *)

(** C69: whatever in-place methods a caller runs, with any operands, and however many of them panic and are caught:
    the matrix keeps satisfying the shape invariant, so it can be used as before; and only a mmul or mt that returned
    changes its shape. *)
Theorem unwind_history : forall (N : pnum) (cs : seq (ucall N)) (M : mat N),
  wf M -> (forall c B, List.In c cs -> operand c = Some B -> wf B) ->
  wf (foldl (fun M c => (exec_u c M).1) M cs).
Proof. exact: unwind_history_L. Qed.
Print Assumptions unwind_history.

Theorem unwind_shape : forall (N : pnum) (c : ucall N) (M : mat N), wf M -> (forall B, operand c = Some B -> wf B) ->
  let M' := (exec_u c M).1 in
  match c with
  | UMmul _ B => (exec_u c M).2 -> rows M' = rows M /\ cols M' = cols B
  | UMt => (exec_u c M).2 -> Ok (rows M') = cols M /\ cols M' = Ok (rows M)
  | _ => True
  end /\
  match c with
  | UMmul _ _ | UMt => ~~ (exec_u c M).2 -> M' = M
  | _ => rows M' = rows M /\ cols M' = cols M
  end.
Proof. exact: unwind_shape_L. Qed.
Print Assumptions unwind_shape.

(** Adding to an i8 matrix in a debug build: 127 + 1 panics at the third element; the first two have been added to, the
    last has not. *)
Example madd_i8_panics :
  madd_u (N:=pnum_int i8) (Mat 2 [:: Posz 100; Posz 1; Posz 127; Posz 5]) (Mat 2 [:: Posz 1; Posz 1; Posz 1; Posz 1]) =
  (Mat 2 [:: Posz 101; Posz 2; Posz 127; Posz 5], false).
Proof. by vm_compute. Qed.

(** A closure that counts its calls and panics on the third. *)
Definition third_panics (w x : nat) : nat * option nat := (w.+1, if w == 2 then None else Some (x * 10)).
Example mmap_third_panics :
  mmap_u third_panics 0 (Mat 2 [:: 1; 2; 3; 4]) = ((3, Mat 2 [:: 10; 20; 3; 4]), false) /\
  map_u (fun _ => 7) third_panics 0 (Mat 2 [:: 1; 2; 3; 4]) = (3, None) /\
  map_u (fun _ => 7) third_panics 3 (Mat 2 [:: 1; 2; 3; 4]) = (7, Some (Mat 2 [:: 10; 20; 30; 40])).
Proof. by []. Qed.

(** An overflowing product leaves the receiver alone; the caller scales the operand down and goes on. *)
Example mmul_i8_history :
  let A : mat (pnum_int i8) := Mat 2 [:: Posz 100; Posz 1; Posz 2; Posz 5] in let B : mat (pnum_int i8) := Mat 2 [:: Posz 1; Posz 2; Posz 3; Posz 4] in
  mmul_u (N:=pnum_int i8) (fun _ => 0%R) A B = (A, false) /\
  foldl (fun M c => (exec_u c M).1) A
    [:: UMmul (N:=pnum_int i8) (fun _ => 0%R) B; USet (N:=pnum_int i8) 0 0 1%R; UMmul (N:=pnum_int i8) (fun _ => 0%R) B] =
  Mat 2 [:: Posz 4; Posz 6; Posz 17; Posz 24].
Proof. by vm_compute. Qed.
