(** * PropFloatMore: element-wise operations, determinant and hypot in f64 (C55-C57)

    Only property theorems, each closed by a lemma of FloatMoreThms.v, and the
    Examples showing that their hypotheses are met.  Generated from FloatMoreThms.v by
    tools/genprops.py. *)
From Coq Require Import ZArith Reals Lra Psatz.
From Flocq Require Import Core BinarySingleNaN.
From mathcomp Require Import all_ssreflect all_algebra zify.
From mathcomp Require Import fingroup perm.
From Verif Require Import Base Scalar Hoare ModelMatrix ModelLU ModelHypot Spec MatrixProofs MatrixProofs2 MatrixThms LUProofs LUEval B64 SpecFloat64 FloatBase FloatLU FloatLUThms.
From Verif Require Import FloatMoreThms.

Set Implicit Arguments.
Unset Strict Implicit.
Unset Printing Implicit Defensive.

Local Open Scope R_scope.

(** ** C55 element-wise operations in f64 *)

(** C55: +, -, elem_mul and scale on f64 matrices succeed, and each element of the result is correctly rounded: if it is
  finite, its operands are finite and no f64 is closer to the exact value.  It is finite whenever the operands are and the
  exact value does not exceed 2^1023 in absolute value. *)
Theorem ops_nearest : forall g m n (A B : 'M[b64]_(m.+1, n)) (k : b64),
  exists C D E F : 'M[b64]_(m.+1, n),
  [/\ add (N:=B64) g (mat_of A) (mat_of B) = Ok (mat_of C),
      sub (N:=B64) g (mat_of A) (mat_of B) = Ok (mat_of D),
      elem_mul (N:=B64) g (mat_of A) (mat_of B) = Ok (mat_of E),
      scale (N:=B64) g (mat_of A) k = Ok (mat_of F) &
  forall i j, let a := rv (A i j) in let b := rv (B i j) in
  [/\ finite (C i j) -> [/\ finite (A i j), finite (B i j) & nearest (a + b) (C i j)],
      finite (D i j) -> [/\ finite (A i j), finite (B i j) & nearest (a - b) (D i j)],
      finite (E i j) -> [/\ finite (A i j), finite (B i j) & nearest (a * b) (E i j)],
      finite (F i j) -> [/\ finite (A i j), finite k & nearest (rv k * a) (F i j)] &
   finite (A i j) -> finite (B i j) -> finite k ->
   [/\ Rabs (a + b) <= 2 ^ 1023 -> finite (C i j), Rabs (a - b) <= 2 ^ 1023 -> finite (D i j),
       Rabs (a * b) <= 2 ^ 1023 -> finite (E i j) & Rabs (rv k * a) <= 2 ^ 1023 -> finite (F i j)]]].
Proof. exact: ops_nearest_L. Qed.
Print Assumptions ops_nearest.

(** C55: element-wise division never panics in f64 (unlike on integers); a finite quotient by a finite element is
  correctly rounded. *)
Theorem elem_div_nearest : forall g m n (A B : 'M[b64]_(m.+1, n)),
  exists C : 'M[b64]_(m.+1, n), elem_div (N:=B64) g (mat_of A) (mat_of B) = Ok (mat_of C) /\
  forall i j, let a := rv (A i j) in let b := rv (B i j) in
  (finite (B i j) -> finite (C i j) -> [/\ finite (A i j), b <> 0 & nearest (a / b) (C i j)]) /\
  (finite (A i j) -> b <> 0 -> Rabs (a / b) <= 2 ^ 1023 -> finite (C i j)).
Proof. exact: elem_div_nearest_L. Qed.
Print Assumptions elem_div_nearest.

(** C55: negation is exact. *)
Theorem neg_exact : forall g m n (A : 'M[b64]_(m, n)),
  exists C : 'M[b64]_(m, n), neg (N:=B64) g (mat_of A) = Ok (mat_of C) /\
  forall i j, (finite (C i j) <-> finite (A i j)) /\ rv (C i j) = - rv (A i j).
Proof. exact: neg_exact_L. Qed.
Print Assumptions neg_exact.

(** 1 + 2^-60 is not an f64: the sum is rounded to 1 *)
Example ops_nearest_example :
  match add (N:=B64) (fun=> B754_nan) (Mat 1 [:: b64_int 1]) (Mat 1 [:: b64_of 1 (Z.opp (Z.of_nat 60))]) with
  | Ok (Mat 1 [:: x]) => Beqb x (b64_int 1) | _ => false end.
Proof. by vm_cast_no_check (erefl true). Qed.

(** ** C56 determinant in f64 *)

(** C56: det never panics on a square f64 matrix (NaN and infinities included).  It multiplies the diagonal elements of
  the computed U, the sign being that of the row permutation: when the result is finite, so are they, and the result is
  their exact product up to (1+u)^n - 1, plus an underflow term. *)
Theorem det_rounding : forall gp n (A : 'M[b64]_n.+1),
  exists (d : lu_decomp B64) (s : 'S_n.+1) (U : 'M[b64]_n.+1) (x : b64),
  [/\ lu_new (S:=B64) gp (mat_of A) = Ok d, lu_get_piv d = perm_list s, forall g, lu_get_u g d = Ok (mat_of U),
      lu_det d = Ok x /\ det (S:=B64) gp (mat_of A) = Ok x &
  finite x ->
  let P := (if odd_perm s then -1 else 1) * \big[Rmult/1]_(j < n.+1) rv (U j j) in
  (forall j, finite (U j j)) /\
  Rabs (rv x - P) <= err n.+1 * Rabs P +
    grow n.+1 * eta64 * (\rsum_(i < n.+1) (\big[Rmult/1]_(j < n.+1 | (i < j)%N) Rabs (rv (U j j))))].
Proof. exact: det_rounding_L. Qed.
Print Assumptions det_rounding.

(** ** C57 hypot in f64 *)

(** C57: hypot does not overflow or lose accuracy in the intermediate squares: for all finite a and b with
  sqrt(a^2 + b^2) <= 2^1022 the result is finite and differs from the exact value by at most (1+u)^5 - 1 of it, plus half the
  smallest subnormal.  (A direct sqrt(a*a + b*b) overflows from 2^512 on.) *)
Theorem hypot_rounding : forall a b : b64, finite a -> finite b ->
  sqrt (rv a * rv a + rv b * rv b) <= 2 ^ 1022 ->
  exists h, [/\ hypot (S:=B64) a b = Ok h, finite h, 0 <= rv h &
    Rabs (rv h - sqrt (rv a * rv a + rv b * rv b)) <= err 5 * sqrt (rv a * rv a + rv b * rv b) + eta64].
Proof. exact: hypot_rounding_L. Qed.
Print Assumptions hypot_rounding.

(** C57, findings: hypot never panics, but it loses NaN and infinity: hypot(NaN, 0) is 0 and hypot(inf, inf) is NaN (the
  IEEE 754 hypot is NaN and infinity). *)
Theorem hypot_nan_refuted : (forall a b, exists h, hypot (S:=B64) a b = Ok h) /\
  hypot (S:=B64) B754_nan b64_zero = Ok b64_zero /\
  forall s t, hypot (S:=B64) (B754_infinity s) (B754_infinity t) = Ok B754_nan.
Proof. exact: hypot_nan_refuted_L. Qed.
Print Assumptions hypot_nan_refuted.

(** 3 * 2^1000 and 4 * 2^1000: the squares overflow, the result does not *)
Example hypot_example :
  match hypot (S:=B64) (b64_of 3 1000) (b64_of 4 1000) with Ok h => Beqb h (b64_of 5 1000) | _ => false end.
Proof. by vm_cast_no_check (erefl true). Qed.
(** a 2 x 2 determinant, 6*4 - 2*1, computed with a rounded quotient (1/3) *)
Definition mx22 : mat b64 := Mat 2 [seq b64_int (Z.of_nat k) | k <- [:: 6; 1; 2; 4]%N].
Example det_example : match det (S:=B64) (fun=> 0%N) mx22 with Ok x => is_finite x | _ => false end.
Proof. by vm_cast_no_check (erefl true). Qed.
