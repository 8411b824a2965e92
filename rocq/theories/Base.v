(** * Base: the small imperative language the model is written in.

    Nothing in this file is specific to rust-la; it fixes what a Rust
    panic, a bounds-checked [Vec] access and a [for] loop mean in the model.

    - A Rust function that may panic returns [res A]; [Err Panic] is the
      panic (assert!, index out of bounds, usize underflow, unwrap of None).
    - [Err Undef] is used only by the exact-arithmetic scalar instances
      (Scalar.v): division by zero / square root of a negative number, i.e.
      the places where IEEE arithmetic would produce inf or NaN.
    - [Err OutOfFuel] is used only for the unbounded Rust loops ([loop],
      [while]) that are run on explicit fuel. *)
From mathcomp Require Import all_ssreflect.

Set Implicit Arguments.
Unset Strict Implicit.
Unset Printing Implicit Defensive.

Inductive err := Panic | Undef | OutOfFuel.

Inductive res (A : Type) := Ok of A | Err of err.
Arguments Ok {A} _.
Arguments Err {A} _.

Definition bind A B (m : res A) (k : A -> res B) : res B :=
  match m with Ok a => k a | Err e => Err e end.

Notation "x <-- m ;; k" := (bind m (fun x => k))
  (at level 80, m at next level, k at level 200, right associativity).
Notation "' p <-- m ;; k" := (bind m (fun x => let p := x in k))
  (at level 80, p pattern, m at next level, k at level 200, right associativity).

(** [assert!(b)] followed by [k]. *)
Definition require A (b : bool) (k : res A) : res A :=
  if b then k else Err Panic.
Notation "'assert!' b ;; k" := (require b k)
  (at level 80, b at next level, k at level 200, right associativity).

(** [Vec<T>]: a list with bounds-checked access.  [vget v i] is [v[i]],
    [vset v i x] is [v[i] = x]. *)
Fixpoint vget T (v : seq T) (i : nat) : res T :=
  match v, i with
  | [::], _ => Err Panic
  | x :: _, 0 => Ok x
  | _ :: v', i'.+1 => vget v' i'
  end.

Fixpoint upd T (v : seq T) (i : nat) (x : T) : seq T :=
  match v, i with
  | [::], _ => [::]
  | _ :: v', 0 => x :: v'
  | y :: v', i'.+1 => y :: upd v' i' x
  end.

Definition vset T (v : seq T) (i : nat) (x : T) : res (seq T) :=
  if i < size v then Ok (upd v i x) else Err Panic.

(** [usize] subtraction: panics on underflow (overflow checks on); the
    model never relies on the wrapped value. *)
Definition usub (a b : nat) : res nat :=
  if b <= a then Ok (a - b) else Err Panic.

(** [usize] division: panics on a zero divisor. *)
Definition udiv (a b : nat) : res nat :=
  if b == 0 then Err Panic else Ok (a %/ b).
Definition umod (a b : nat) : res nat :=
  if b == 0 then Err Panic else Ok (a %% b).

(** [for i in lo..hi { body }]: the loop variables that [body] mutates are
    the state [s].  An empty range ([hi <= lo]) runs no iteration. *)
Fixpoint for_n A (n lo : nat) (body : nat -> A -> res A) (s : A) : res A :=
  match n with
  | 0 => Ok s
  | n'.+1 => s' <-- body lo s ;; for_n n' lo.+1 body s'
  end.
Definition for_ A (lo hi : nat) (body : nat -> A -> res A) (s : A) : res A :=
  for_n (hi - lo) lo body s.

(** [for i in (lo..hi).rev() { body }] *)
Fixpoint forr_n A (n lo : nat) (body : nat -> A -> res A) (s : A) : res A :=
  match n with
  | 0 => Ok s
  | n'.+1 => s' <-- body (lo + n') s ;; forr_n n' lo body s'
  end.
Definition for_rev A (lo hi : nat) (body : nat -> A -> res A) (s : A) : res A :=
  forr_n (hi - lo) lo body s.

(** Control result of a loop body: go on with a new state, or leave the loop
    ([break] / [return]) with a value. *)
Inductive ctl (A R : Type) := Next of A | Stop of R.
Arguments Next {A R} _.
Arguments Stop {A R} _.

(** [for] loop whose body may leave early. *)
Fixpoint forc_n A R (n lo : nat) (body : nat -> A -> res (ctl A R)) (s : A)
  : res (ctl A R) :=
  match n with
  | 0 => Ok (Next s)
  | n'.+1 => c <-- body lo s ;;
      match c with
      | Next s' => forc_n n' lo.+1 body s'
      | Stop r => Ok (Stop r)
      end
  end.
Definition forc A R (lo hi : nat) (body : nat -> A -> res (ctl A R)) (s : A) :=
  forc_n (hi - lo) lo body s.

(** [loop { body }] / [while]: run on fuel; [Stop r] leaves with [r]. *)
Fixpoint loop_ A R (fuel : nat) (body : A -> res (ctl A R)) (s : A) : res R :=
  match fuel with
  | 0 => Err OutOfFuel
  | f'.+1 => c <-- body s ;;
      match c with
      | Next s' => loop_ f' body s'
      | Stop r => Ok r
      end
  end.

(** [alloc_dirty_vec(n)] (src/internalutil.rs:7-13): a vector of length [n]
    whose contents are uninitialised memory.  The contents are an arbitrary
    function [g]; every theorem quantifies over all [g], so a result that
    does not mention [g] cannot depend on uninitialised memory.
    Simplification: the allocation itself is assumed to succeed, and the
    memory of one allocation is read as a fixed (unknown) value. *)
Definition alloc_dirty_vec T (g : nat -> T) (n : nat) : seq T := mkseq g n.

(** [vec![x; n]] *)
Definition vec_of T (x : T) (n : nat) : seq T := nseq n x.
