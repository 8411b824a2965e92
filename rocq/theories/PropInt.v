(** * PropInt: C61, matrices of machine integers

    Only property theorems, each closed by a lemma of IntThms.v, and the
    Examples showing that their hypotheses are met.  Generated from IntThms.v by
    tools/genprops.py. *)
From mathcomp Require Import all_ssreflect all_algebra zify ring.
From Verif Require Import Base Scalar Hoare ModelMatrix Spec SpecOps SpecInt MatrixProofs MatrixProofs2 MtProofs MatrixThms OpsThms.
From Verif Require Import IntThms.

Set Implicit Arguments.
Unset Strict Implicit.
Unset Printing Implicit Defensive.
Import GRing.Theory Num.Theory.
Local Open Scope ring_scope.

(** ** C61 representable values *)

(** C61: wrap returns a representable value, congruent to its argument
    modulo 2^width, and is the identity exactly on representable values. *)
Theorem wrap_spec : forall t x,
  [/\ fits t (wrap t x), exists q, wrap t x = x + q * span t & (wrap t x == x) = fits t x].
Proof. exact: wrap_spec_L. Qed.
Print Assumptions wrap_spec.

(** ** C61 without overflow checks *)

(** C61: a program of ring operations run without overflow checks computes,
    in every element of every variable, the exact result reduced to the type:
    overflow of intermediate values never matters for the final ones; it panics
    exactly when the exact program does. *)
Theorem wrapping_program : forall (t : ity) (gs : nat -> nat -> wrapping t) (cs : seq (call int_num))
    (s : store (wrapping t)) (a : astore int_num),
  all (@ring_call int_num) cs ->
  (forall k, holds (s k) (reduced t (a k))) ->
  match run_a a cs with
  | Finished a' => exists2 s', run_c gs s (map (as_wrapping t) cs) = Ok s' &
      forall k, holds (s' k) (reduced t (a' k))
  | Panicked => run_c gs s (map (as_wrapping t) cs) = Err Panic
  | LeftDomain => True
  end.
Proof. exact: wrapping_program_L. Qed.
Print Assumptions wrapping_program.

(** C61: hence a variable whose exact final elements are all representable
    holds exactly those elements. *)
Theorem wrapping_program_exact : forall (t : ity) (gs : nat -> nat -> wrapping t) (cs : seq (call int_num))
    (s : store (wrapping t)) (a a' : astore int_num),
  all (@ring_call int_num) cs ->
  (forall k, holds (s k) (reduced t (a k))) -> run_a a cs = Finished a' ->
  exists2 s', run_c gs s (map (as_wrapping t) cs) = Ok s' &
    forall k, each (am (a' k)) (an (a' k)) (fun i j => fits t (af (a' k) i j)) ->
      forall i j,
        (i < am (a' k))%N -> (j < an (a' k))%N -> get (s' k) i j = Ok (af (a' k) i j : int).
Proof. exact: wrapping_program_exact_L. Qed.
Print Assumptions wrapping_program_exact.

(** ** C61 with overflow checks *)

(** C61: a program of ring operations run with overflow checks panics as
    soon as one arithmetic result or partial sum is not representable, and
    otherwise finishes with exactly the mathematical results; a program that
    panics for another reason (shapes, indices) still panics. *)
Theorem checked_program : forall (t : ity) (gs : nat -> nat -> checked t) (cs : seq (call int_num))
    (s : store (checked t)) (a : astore int_num),
  all (@ring_call int_num) cs -> (forall k, holds (s k) (defined t (a k))) ->
  match run_a a cs with
  | Finished a' =>
      (program_fits t a cs /\
       exists2 s', run_checked gs s (map (as_checked t) cs) = Ok s' & forall k, holds (s' k) (defined t (a' k))) \/
      (~ program_fits t a cs /\ run_checked gs s (map (as_checked t) cs) = Err Panic)
  | Panicked => run_checked gs s (map (as_checked t) cs) = Err Panic
  | LeftDomain => True
  end.
Proof. exact: checked_program_L. Qed.
Print Assumptions checked_program.

(** C61: a program that finishes with overflow checks finishes without them
    too, with the same elements in every variable. *)
Theorem checked_then_wrapping : forall (t : ity) gs gs' (cs : seq (call int_num))
    (s s' : store (checked t)) (w : store (wrapping t)) (a : astore int_num),
  all (@ring_call int_num) cs -> run_a a cs <> LeftDomain int_num ->
  (forall k, each (am (a k)) (an (a k)) (fun i j => fits t (af (a k) i j))) ->
  (forall k, holds (s k) (defined t (a k))) -> (forall k, holds (w k) (reduced t (a k))) ->
  run_checked gs s (map (as_checked t) cs) = Ok s' ->
  exists2 w', run_c gs' w (map (as_wrapping t) cs) = Ok w' &
    forall k i j, get (s' k) i j = (x <-- get (w' k) i j ;; Ok (Some x)).
Proof. exact: checked_then_wrapping_L. Qed.
Print Assumptions checked_then_wrapping.

(** ** C61 single calls *)

(** C61: one call without overflow checks: the exact matrix operation,
    each element reduced modulo 2^width. *)
Theorem wrapping_ops : forall (t : ity) (g : nat -> int) m n p (A B : 'M[int]_(m, n)) (D : 'M[int]_(n, p)) (k : int),
  (0 < m)%N -> (0 < n)%N ->
  [/\ add (N := wrapping t) g (mat_of A) (mat_of B) = Ok (mat_of (map_mx (wrap t) (A + B))),
      sub (N := wrapping t) g (mat_of A) (mat_of B) = Ok (mat_of (map_mx (wrap t) (A - B))),
      neg (N := wrapping t) g (mat_of A) = Ok (mat_of (map_mx (wrap t) (- A))),
      scale (N := wrapping t) g (mat_of A) k = Ok (mat_of (map_mx (wrap t) (k *: A))) &
      mul (N := wrapping t) g (mat_of A) (mat_of D) = Ok (mat_of (map_mx (wrap t) (A *m D)))].
Proof. exact: wrapping_ops_L. Qed.
Print Assumptions wrapping_ops.

(** C61: one call with overflow checks: it panics iff some element of the
    exact result (for a product: some elementary product or some partial sum)
    is not representable, and otherwise returns the exact result. *)
Theorem checked_ops : forall (t : ity) g m n p (A B : 'M[int]_(m, n)) (D : 'M[int]_(n, p)) (k : int),
  (0 < m)%N -> (0 < n)%N -> fits t k ->
  let fit m n (X : 'M[int]_(m, n)) := [forall i, forall j, fits t (X i j)] in
  let out m n b (X : 'M[int]_(m, n)) := if b then Ok (mat_of X) else Err Panic in
  let S m n (X : 'M[int]_(m, n)) : mat (checked t) := mat_of (map_mx Some X) in
  [/\ sealed (add g (S _ _ A) (S _ _ B)) = out _ _ (fit _ _ (A + B)) (A + B),
      sealed (sub g (S _ _ A) (S _ _ B)) = out _ _ (fit _ _ (A - B)) (A - B),
      sealed (neg g (S _ _ A)) = out _ _ (fit _ _ (- A)) (- A),
      sealed (scale g (S _ _ A) (Some k : checked t)) = out _ _ (fit _ _ (k *: A)) (k *: A) &
      sealed (mul g (S _ _ A) (S _ _ D)) =
        out _ _ [forall i, forall j, forall l : 'I_n,
                   fits t (A i l * D l j) && fits t (\sum_(q < n | (q <= l)%N) A i q * D q j)] (A *m D)].
Proof. exact: checked_ops_L. Qed.
Print Assumptions checked_ops.

(** C61: the quotient is the truncated one. *)
Theorem quotz_spec : forall x y : int, y != 0 ->
  exists r : int, [/\ x = quotz x y * y + r, `|r| < `|y| & 0 <= r * x].
Proof. exact: quotz_spec_L. Qed.
Print Assumptions quotz_spec.

(** C61: the only quotient of representable numbers that is not
    representable is MIN / -1. *)
Theorem quotz_overflow : forall (t : ity) (x y : int), fits t x -> fits t y -> y != 0 ->
  fits t (quotz x y) = ~~ [&& ity_signed t, x == lowest t & y == -1].
Proof. exact: quotz_overflow_L. Qed.
Print Assumptions quotz_overflow.

(** C61: element-wise division, in both modes: a panic iff some divisor is
    zero or some quotient is not representable, else the truncated quotients. *)
Theorem int_elem_div : forall (t : ity) g g' m n (A B : 'M[int]_(m, n)), (0 < m)%N ->
  let ok := [forall i, forall j, (B i j != 0) && fits t (quotz (A i j) (B i j))] in
  let r := if ok then Ok (mat_of (\matrix_(i, j) quotz (A i j) (B i j))) else Err Panic in
  elem_div (N := wrapping t) g (mat_of A) (mat_of B) = r /\
  sealed (elem_div (N := checked t) g' (mat_of (map_mx Some A)) (mat_of (map_mx Some B))) = r.
Proof. exact: int_elem_div_L. Qed.
Print Assumptions int_elem_div.

(** Hypotheses are met, and the two modes differ where they should: in i8,
    with X0 = X1 = (100 50), X2 = X0 + X1 overflows to (-56 100), X3 = X2 - X1
    is again (100 50); the exact final X3 fits.  With overflow checks the
    program panics. *)
Definition int_a : astore int_num := fun _ => @AMat int_num 1 2 (fun _ j => if j is 0%N then 100 else 50 : int).
Definition int_prog : seq (call int_num) := [:: CAdd _ 2%N 0%N 1%N; CSub _ 3%N 2%N 1%N].
Definition int_w : store (wrapping i8) := fun _ => Mat 1 [:: 100; 50] : mat (wrapping i8).
Definition int_c : store (checked i8) := fun _ => Mat 1 [:: Some (100 : int); Some (50 : int)] : mat (checked i8).
Example int_hyps :
  [/\ all (@ring_call int_num) int_prog, exists a', run_a int_a int_prog = Finished a',
      forall k, each 1 2 (fun i j => fits i8 (af (int_a k) i j)),
      forall k, holds (int_w k) (reduced i8 (int_a k)) & forall k, holds (int_c k) (defined i8 (int_a k))].
Proof.
split=> //; first by eexists.
- by move=> k [|[|i]] [|[|j]].
- by move=> k; split=> // -[|[|i]] [|[|j]].
- by move=> k; split=> // -[|[|i]] [|[|j]].
Qed.
Example int_wraps : add (N := wrapping i8) (fun _ => 0) (int_w 0%N) (int_w 1%N) = Ok (Mat 1 [:: - 56%:Z; 100%:Z]).
Proof. by []. Qed.
Example int_unwraps : exists2 s, run_c (N := wrapping i8) (fun _ _ => 0) int_w (map (as_wrapping i8) int_prog) = Ok s & s 3%N = Mat 1 [:: 100%:Z; 50%:Z].
Proof. by eexists. Qed.
Example int_checked_panics : run_checked (t := i8) (fun _ _ => None) int_c (map (as_checked i8) int_prog) = Err Panic.
Proof. by []. Qed.
(** and a program that fits: X0 - X1 = 0 *)
Example int_checked_ok : exists2 s, run_checked (t := i8) (fun _ _ => None) int_c [:: CSub _ 2%N 0%N 1%N] = Ok s & s 2%N = (Mat 1 [:: Some 0; Some 0] : mat (checked i8)).
Proof. by eexists. Qed.
Example int_min_over_minus_one : elem_div (N := wrapping i8) (fun _ => 0) (Mat 1 [:: - 128%:Z]) (Mat 1 [:: - 1%:Z]) = Err Panic.
Proof. by []. Qed.
