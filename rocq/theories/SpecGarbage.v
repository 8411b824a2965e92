(** * SpecGarbage: the law of a number type that C15 needs for eigen.rs

    The reduction to Hessenberg form skips a column when the sum of the
    absolute values of its elements compares equal to zero (eigen.rs:260-264),
    and later reads a scratch vector unless the first of these elements
    compares equal to zero (eigen.rs:313-315).  [zero_sum S] says that the two
    tests fit together: a sum 0 + |x| + |y1| + |y2| + ... equal to zero has a
    first term equal to zero.  It is proved for exact arithmetic and for f64. *)
From mathcomp Require Import ssreflect ssrbool seq.
From Verif Require Import Scalar.

Set Implicit Arguments.
Unset Strict Implicit.
Unset Printing Implicit Defensive.

Definition zero_sum (S : scalar) : Prop := forall (x : S) (ys : seq S),
  s_eqb (foldl (fun sum y => n_add sum (s_abs y)) (n_add (n_zero S) (s_abs x)) ys) (n_zero S) ->
  s_eqb x (n_zero S).
