(** * ModelHypot: src/internalutil.rs *)
From mathcomp Require Import all_ssreflect.
From Verif Require Import Base Scalar.

Set Implicit Arguments.
Unset Strict Implicit.
Unset Printing Implicit Defensive.

(** internalutil.rs:17-27 *)
Definition hypot (S : scalar) (a b : S) : res S :=
  if s_ltb (s_abs b) (s_abs a) then
    r <-- n_div b a ;;
    q <-- s_sqrt (n_add (n_one S) (n_mul r r)) ;;
    Ok (n_mul (s_abs a) q)
  else if ~~ s_eqb b (n_zero S) then
    r <-- n_div a b ;;
    q <-- s_sqrt (n_add (n_one S) (n_mul r r)) ;;
    Ok (n_mul (s_abs b) q)
  else Ok (n_zero S).
