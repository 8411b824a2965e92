(** * SpecInt: machine integer element types, for C61.

    rust-la's arithmetic is generic over [num::Num], which the primitive
    integer types i8 ... u64, isize and usize implement.  Here an integer type
    is a width and a signedness.  Its arithmetic is modelled in the two modes
    the compiler has: without overflow checks (release: every result is
    reduced modulo 2^width) and with overflow checks (debug: a result outside
    the range is a panic). *)
From mathcomp Require Import all_ssreflect all_algebra.
From Verif Require Import Base Scalar ModelMatrix SpecOps.

Set Implicit Arguments.
Unset Strict Implicit.
Unset Printing Implicit Defensive.
Import GRing.Theory Num.Theory.
Local Open Scope ring_scope.

(** An integer type: [ity_bits] + 2 bits (at least two), signed or not. *)
Record ity := ITy { ity_bits : nat; ity_signed : bool }.
Definition i8 := ITy 6 true.
Definition i32 := ITy 30 true.
Definition u8 := ITy 6 false.

Section Ty.
Variable t : ity.
(** number of values, and the smallest value: 2^w and -2^(w-1) (0 when unsigned) *)
Definition span : int := 2%:R ^+ (ity_bits t).+2.
Definition lowest : int := if ity_signed t then - 2%:R ^+ (ity_bits t).+1 else 0.
(** the value is representable: lowest <= x <= lowest + 2^w - 1 *)
Definition fits (x : int) : bool := (lowest <= x) && (x < lowest + span).
(** the representable value congruent to x modulo 2^w *)
Definition wrap (x : int) : int := lowest + ((x - lowest) %% span)%Z.

(** truncated quotient, as in [int_num] *)
Definition quotz (x y : int) : int := sgz x * sgz y * Posz (absz x %/ absz y)%N.

(** Without overflow checks.  Division by zero and MIN / -1 panic in both
    modes. *)
Definition wrapping : numops :=
  {| n_T := int; n_zero := 0; n_one := 1;
     n_add := fun x y => wrap (x + y); n_sub := fun x y => wrap (x - y);
     n_mul := fun x y => wrap (x * y);
     n_div := fun x y => if (y == 0) || ~~ fits (quotz x y) then Err Panic else Ok (quotz x y);
     n_neg := fun x => wrap (- x) |}.

(** With overflow checks.  [None] stands for "this operation panicked"; it is
    passed on by every operation, and a call that computed a [None] panics
    (see [sealed]). *)
Definition chk (x : int) : option int := if fits x then Some x else None.
Definition lift1 (f : int -> int) (x : option int) : option int :=
  if x is Some u then chk (f u) else None.
Definition lift2 (f : int -> int -> int) (x y : option int) : option int :=
  match x, y with Some u, Some v => chk (f u v) | _, _ => None end.
Definition checked : numops :=
  {| n_T := option int; n_zero := Some 0; n_one := Some 1;
     n_add := lift2 (fun u v => u + v); n_sub := lift2 (fun u v => u - v);
     n_mul := lift2 (fun u v => u * v);
     n_div := fun x y => match x, y with
                         | Some u, Some v => if (v == 0) || ~~ fits (quotz u v) then Err Panic else Ok (Some (quotz u v))
                         | _, _ => Err Panic
                         end;
     n_neg := lift1 (fun u => - u) |}.

(** The outcome of a call in checked mode: a panic if any of the elements it
    computed overflowed. *)
Definition sealed (r : res (mat checked)) : res (mat int) :=
  M <-- r ;; if all isSome (get_data M) then Ok (Mat (rows M) [seq odflt 0 x | x <- get_data M]) else Err Panic.
End Ty.

(** ** Programs of ring operations *)
(** Calls whose effect on the elements is copying, +, -, * and unary -:
    everything except element-wise division and the calls that run a
    caller-supplied function. *)
Definition ring_call N (c : call N) : bool :=
  match c with
  | CMmap _ _ | CMap _ _ _ | CReduce _ _ _ _ | CMelemDiv _ _ | CElemDiv _ _ _ => false
  | _ => true
  end.

(** The same call with its literal elements converted. *)
Definition recall (N1 N2 : numops) (phi : N1 -> N2) (c : call N1) : call N2 :=
  match c with
  | CSet x i j v => CSet x i j (phi v)
  | CMmap x f => CMneg _ x | CMap d x f => CNeg _ d x | CReduce d x v f => CNeg _ d x   (* not ring calls *)
  | CMelemDiv x y => CMadd _ x y | CElemDiv d x y => CAdd _ d x y                       (* not ring calls *)
  | CMneg x => CMneg _ x | CMscale x k => CMscale x (phi k)
  | CMadd x y => CMadd _ x y | CMsub x y => CMsub _ x y | CMelemMul x y => CMelemMul _ x y
  | CMmul x y => CMmul _ x y | CMt x => CMt _ x
  | CClone d x => CClone _ d x
  | CNew d r c v => CNew d r c (map phi v) | CVector d v => CVector d (map phi v)
  | CRowVector d v => CRowVector d (map phi v)
  | CId d r c => CId _ d r c | CZero d r c => CZero _ d r c | CDiag d v => CDiag d (map phi v)
  | CBlockDiag d r c v => CBlockDiag d r c (map phi v)
  | CNeg d x => CNeg _ d x | CScale d x k => CScale d x (phi k)
  | CAdd d x y => CAdd _ d x y | CSub d x y => CSub _ d x y | CElemMul d x y => CElemMul _ d x y
  | CMul d x y => CMul _ d x y | CT d x => CT _ d x | CCr d x y => CCr _ d x y | CCb d x y => CCb _ d x y
  | CMinor d x i j => CMinor _ d x i j | CGetColumn d x j => CGetColumn _ d x j
  | CPermuteRows d x ks => CPermuteRows _ d x ks | CPermuteColumns d x ks => CPermuteColumns _ d x ks
  | CFilterRows d x p => CFilterRows _ d x p | CFilterColumns d x p => CFilterColumns _ d x p
  | CSelectRows d x sel => CSelectRows _ d x sel | CSelectColumns d x sel => CSelectColumns _ d x sel
  end.

(** the variable a call assigns *)
Definition target N (c : call N) : nat :=
  match c with
  | CSet x _ _ _ | CMmap x _ | CMneg x | CMscale x _ | CMadd x _ | CMsub x _ | CMelemMul x _ | CMelemDiv x _
  | CMmul x _ | CMt x => x
  | CClone d _ | CNew d _ _ _ | CVector d _ | CRowVector d _ | CId d _ _ | CZero d _ _ | CDiag d _ | CBlockDiag d _ _ _
  | CMap d _ _ | CReduce d _ _ _ | CNeg d _ | CScale d _ _ | CAdd d _ _ | CSub d _ _ | CElemMul d _ _ | CElemDiv d _ _
  | CMul d _ _ | CT d _ | CCr d _ _ | CCb d _ _ | CMinor d _ _ _ | CGetColumn d _ _ | CPermuteRows d _ _
  | CPermuteColumns d _ _ | CFilterRows d _ _ | CFilterColumns d _ _ | CSelectRows d _ _ | CSelectColumns d _ _ => d
  end.

(** A program run with overflow checks: the first call that computes an
    overflowing element ends it with a panic. *)
Fixpoint run_checked (t : ity) (gs : nat -> nat -> checked t) (s : store (checked t)) (cs : seq (call (checked t)))
    : res (store (checked t)) :=
  match cs with
  | [::] => Ok s
  | c :: cs' => s' <-- call_c (gs 0%N) s c ;;
      if all isSome (get_data (s' (target c))) then run_checked (fun k => gs k.+1) s' cs' else Err Panic
  end.

(** The same mathematical matrix with converted elements. *)
Definition conv (N1 N2 : numops) (phi : N1 -> N2) (a : amat N1) : amat N2 :=
  @AMat N2 (am a) (an a) (fun i j => phi (af a i j)).

(** ** What has to fit for a call to be free of overflow *)
Section Fits.
Variable t : ity.

Definition each (m n : nat) (P : nat -> nat -> bool) : Prop :=
  forall i j, (i < m)%N -> (j < n)%N -> P i j.

(** every product and every partial sum a_0 b_0 + ... + a_k b_k of the row by
    column products *)
Definition mul_fits (a b : amat int_num) : Prop :=
  each (am a) (an b) (fun i j =>
    all (fun k => fits t (af a i k * af b k j : int) &&
                  fits t (\sum_(0 <= l < k.+1) (af a i l * af b l j : int))) (iota 0 (an a))).

(** every arithmetic result and every literal of the call fits the type *)
Definition call_fits (s : astore int_num) (c : call int_num) : Prop :=
  let el x i j : int := af (s x) i j in
  let on x := each (am (s x)) (an (s x)) in
  match c with
  | CSet x i j v => fits t v
  | CMneg x | CNeg _ x => on x (fun i j => fits t (- el x i j))
  | CMscale x k | CScale _ x k => fits t k /\ on x (fun i j => fits t ((k : int) * el x i j))
  | CMadd x y | CAdd _ x y => on x (fun i j => fits t (el x i j + el y i j))
  | CMsub x y | CSub _ x y => on x (fun i j => fits t (el x i j - el y i j))
  | CMelemMul x y | CElemMul _ x y => on x (fun i j => fits t (el x i j * el y i j))
  | CMmul x y | CMul _ x y => mul_fits (s x) (s y)
  | CNew _ _ _ v | CVector _ v | CRowVector _ v | CDiag _ v | CBlockDiag _ _ _ v => all (fits t) v
  | _ => True
  end.

(** ... along the whole exact run of a program *)
Fixpoint program_fits (s : astore int_num) (cs : seq (call int_num)) : Prop :=
  match cs with
  | [::] => True
  | c :: cs' => call_fits s c /\
      match call_a s c with Assign d v => program_fits (update s d v) cs' | _ => True end
  end.
End Fits.

(** A mathematical matrix of integers as a matrix of the type without checks
    (each element reduced modulo 2^width) and with checks (no element
    overflowed), and a call whose literals are of the type. *)
Definition reduced (t : ity) (a : amat int_num) : amat (wrapping t) := @conv int_num (wrapping t) (wrap t) a.
Definition defined (t : ity) (a : amat int_num) : amat (checked t) := @conv int_num (checked t) Some a.
Definition as_wrapping (t : ity) : call int_num -> call (wrapping t) := @recall int_num (wrapping t) (wrap t).
Definition as_checked (t : ity) : call int_num -> call (checked t) := @recall int_num (checked t) (chk t).
