(** * SpecUnwind: what caller code observes, for C69.

    Independent of ModelUnwind.v: the calls that a list of arguments gives
    rise to, and the elements that a list of partial operations produces. *)
From mathcomp Require Import all_ssreflect all_algebra.
From Verif Require Import Base.

Set Implicit Arguments.
Unset Strict Implicit.
Unset Printing Implicit Defensive.

Section Calls.
Variables W : Type.

(** Call [f] once on each argument, in order, up to the first call that
    panics: the world afterwards, the values returned, and whether all calls
    returned. *)
Fixpoint calls A B (f : W -> A -> W * option B) (w : W) (l : seq A) : W * seq B * bool :=
  match l with
  | [::] => (w, [::], true)
  | x :: l' =>
    match f w x with
    | (w', None) => (w', [::], false)
    | (w', Some y) => let '(w'', ys, ok) := calls f w' l' in (w'', y :: ys, ok)
    end
  end.

(** Accumulate: for each (j, x) in order, acc_j := f(acc_j, x), up to the
    first call that panics. *)
Fixpoint accumulate S A (f : W -> S -> A -> W * option S) (w : W) (acc : nat -> S) (l : seq (nat * A))
    : W * (nat -> S) * bool :=
  match l with
  | [::] => (w, acc, true)
  | (j, x) :: l' =>
    match f w (acc j) x with
    | (w', None) => (w', acc, false)
    | (w', Some y) => accumulate f w' (fun k => if k == j then y else acc k) l'
    end
  end.
End Calls.

(** The results of a list of operations up to the first one that panics, and
    whether none does. *)
Fixpoint upto A (l : seq (res A)) : seq A * bool :=
  match l with
  | [::] => ([::], true)
  | Ok y :: l' => let '(ys, ok) := upto l' in (y :: ys, ok)
  | Err _ :: _ => ([::], false)
  end.

(** The first elements replaced, the others as before. *)
Definition overwrite A (old new : seq A) : seq A := new ++ drop (size new) old.

(** The row by column product with operations that may panic:
    ((0 + a_0 b_0) + a_1 b_1) + ..., from left to right. *)
Fixpoint dot_from A (add mul : A -> A -> res A) (s : A) (l : seq (A * A)) : res A :=
  match l with
  | [::] => Ok s
  | (x, y) :: l' => z <-- mul x y ;; s' <-- add s z ;; dot_from add mul s' l'
  end.
