(** * PropFloat32QR: QR decomposition in f32 (C62)

    Only property theorems, each closed by a lemma of Float32QRThms.v, and the
    Examples showing that their hypotheses are met.  Generated from Float32QRThms.v by
    tools/genprops.py. *)
From Coq Require Import ZArith Reals Lra Psatz.
From Flocq Require Import Core BinarySingleNaN.
From mathcomp Require Import all_ssreflect all_algebra zify.
From Verif Require Import Base Scalar Hoare ModelMatrix ModelQR Spec MatrixProofs MatrixProofs2 LUProofs LUEval QREval B32 SpecFloat32 Float32Base Float32LU Float32Chol Float32CholThms Float32CholFull RealVec32 QRReal32 Float32QR.
From Verif Require Import Float32QRThms.

Set Implicit Arguments.
Unset Strict Implicit.
Unset Printing Implicit Defensive.

Local Open Scope R_scope.

(** ** C62 (C58 in f32) QR decomposition in f32 *)

(** C62 (C58 in f32): for every f32 matrix (NaN and infinities included) QRDecomposition::new, get_r and get_h succeed, R is upper and H
  lower trapezoidal, and they do not depend on the uninitialised memory.  When R and H are finite, and every diagonal element
  of R is 0 or between 2^-50 and 2^62 in magnitude, then so is A finite, and R is the factor of a nearby matrix: there is an
  exactly orthogonal Q such that column j of A differs from column j of Q R, in the Euclidean norm, by at most
  ((1 + 25 E)^r - 1) times the norm of column j of A plus r (1 + 25 E)^r 2^-64, where E = (1+u)^(m+3) - 1 for m rows and
  r = min(m, n).  (The only condition on the size: 64 E <= 1, that is m <= 2^18.) *)
Theorem qr_rounding_f32 : forall g m n (A : 'M[b32]_(m.+1, n.+1)),
  exists (d : qr_decomp B32) (Rm H : 'M[b32]_(m.+1, n.+1)),
  [/\ qr_new (S:=B32) g (mat_of A) = Ok d,
      forall g, qr_get_r g d = Ok (mat_of Rm),
      forall g, qr_get_h g d = Ok (mat_of H) &
  [/\ forall (i : 'I_m.+1) (j : 'I_n.+1), (j < i)%N -> Rm i j = b32_zero,
      forall (i : 'I_m.+1) (j : 'I_n.+1), (i < j)%N -> H i j = b32_zero &
  let r := minn m.+1 n.+1 in
  let E := err (m.+1 + 3) in
  64 * E <= 1 ->
  (forall i j, finite (Rm i j)) -> (forall i j, finite (H i j)) ->
  (forall (i : 'I_m.+1) (j : 'I_n.+1), i = j :> nat -> rv (Rm i j) = 0 \/ / 2 ^ 50 <= Rabs (rv (Rm i j)) <= 2 ^ 62) ->
  (forall i j, finite (A i j)) /\
  exists Q : 'I_m.+1 -> 'I_m.+1 -> R,
    (forall i j, (\rsum_(l < m.+1) (Q l i * Q l j)) = if i == j then 1 else 0) /\
    forall j : 'I_n.+1,
      sqrt (\rsum_(i < m.+1) ((rv (A i j) - (\rsum_(l < m.+1) (Q i l * rv (Rm l j)))) ^ 2)) <=
      ((1 + 25 * E) ^ r - 1) * sqrt (\rsum_(i < m.+1) (rv (A i j) ^ 2)) + INR r * ((1 + 25 * E) ^ r * / 2 ^ 64)]].
Proof. exact: qr_rounding_f32_L. Qed.
Print Assumptions qr_rounding_f32.

(** C62 (C58 in f32), finding: the upper limit on the diagonal of R cannot be dropped.  For the 2 x 2 matrix with first column (x, x),
  x = 1.3125 * 2^63, and second column (0, 1), the product of the diagonal element and the Householder vector overflows,
  the second column is not transformed, and R (all elements finite) is not the factor of any matrix near A: every
  orthogonal Q misses a column of A by more than 10 percent. *)
Theorem qr_overflow_refuted_f32 : exists (A Rm H : 'M[b32]_2), forall g, exists d,
  [/\ qr_new (S:=B32) g (mat_of A) = Ok d,
      forall g, qr_get_r g d = Ok (mat_of Rm),
      forall g, qr_get_h g d = Ok (mat_of H) &
  [/\ forall i j, finite (A i j), forall i j, finite (Rm i j), forall i j, finite (H i j) &
  forall Q : 'I_2 -> 'I_2 -> R,
    (forall i j, (\rsum_(l < 2) (Q l i * Q l j)) = if i == j then 1 else 0) ->
    exists j, / 10 * sqrt (\rsum_(i < 2) (rv (A i j) ^ 2)) <
      sqrt (\rsum_(i < 2) ((rv (A i j) - (\rsum_(l < 2) (Q i l * rv (Rm l j)))) ^ 2))]].
Proof. exact: qr_overflow_refuted_f32_L. Qed.
Print Assumptions qr_overflow_refuted_f32.

(** ** C62 (C59 in f32) get_q of the QR decomposition in f32 *)

(** C62 (C59 in f32): get_q never fails on what QRDecomposition::new produced from an f32 matrix.  When R, H and Q are finite and every
  diagonal element of R is between 2^-50 and 2^62 in magnitude, or 0 with the diagonal element of H also 0, then, with
  E = (1+u)^(m+3) - 1, r = min(m, n) and delta = (1 + 25 E)^r - 1 + r (1 + 25 E)^r 2^-64: the first r columns of Q are within
  delta of orthonormal vectors (inner products off by at most 2 delta + delta^2), and column j of A differs from column j of
  Q R by at most the bound of qr_rounding plus delta times the sum of the magnitudes of column j of R. *)
Theorem qr_q_rounding_f32 : forall g m n (A : 'M[b32]_(m.+1, n.+1)),
  exists (d : qr_decomp B32) (Rm H : 'M[b32]_(m.+1, n.+1)) (Qh : 'M[b32]_(m.+1)),
  [/\ qr_new (S:=B32) g (mat_of A) = Ok d,
      forall g, qr_get_r g d = Ok (mat_of Rm),
      forall g, qr_get_h g d = Ok (mat_of H),
      qr_get_q (S:=B32) d = Ok (mat_of Qh) &
  let r := minn m.+1 n.+1 in
  let E := err (m.+1 + 3) in
  let delta := ((1 + 25 * E) ^ r - 1) + INR r * ((1 + 25 * E) ^ r * / 2 ^ 64) in
  64 * E <= 1 ->
  (forall i j, finite (Rm i j)) -> (forall i j, finite (H i j)) -> (forall i j, finite (Qh i j)) ->
  (forall (i : 'I_m.+1) (j : 'I_n.+1), i = j :> nat ->
     (rv (Rm i j) = 0 /\ rv (H i j) = 0) \/ / 2 ^ 50 <= Rabs (rv (Rm i j)) <= 2 ^ 62) ->
  [/\ forall i j, finite (A i j),
      forall a b : 'I_m.+1, (a < r)%N -> (b < r)%N ->
        Rabs ((\rsum_(l < m.+1) (rv (Qh l a) * rv (Qh l b))) - (if a == b then 1 else 0)) <= 2 * delta + delta * delta,
      exists Q : 'I_m.+1 -> 'I_m.+1 -> R,
        (forall i j, (\rsum_(l < m.+1) (Q l i * Q l j)) = if i == j then 1 else 0) /\
        forall c : 'I_m.+1, (c < r)%N -> sqrt (\rsum_(i < m.+1) ((rv (Qh i c) - Q i c) ^ 2)) <= delta &
      forall j : 'I_n.+1,
      sqrt (\rsum_(i < m.+1) ((rv (A i j) - (\rsum_(l < m.+1) (rv (Qh i l) * rv (Rm l j)))) ^ 2)) <=
      ((1 + 25 * E) ^ r - 1) * sqrt (\rsum_(i < m.+1) (rv (A i j) ^ 2)) + INR r * ((1 + 25 * E) ^ r * / 2 ^ 64)
        + delta * (\rsum_(l < m.+1) Rabs (rv (Rm l j)))]].
Proof. exact: qr_q_rounding_f32_L. Qed.
Print Assumptions qr_q_rounding_f32.

(** C62 (C59 in f32), finding: get_q looks at the wrong number to see whether a column was skipped (the diagonal of H, not of R), so the
  condition on zero diagonals cannot be dropped: for the 1 x 1 matrix [2^-80] the square underflows, the diagonal of R is 0,
  R and H are finite, and get_q divides by zero: its only element is not finite. *)
Theorem qr_get_q_underflow_refuted_f32 : exists A : 'M[b32]_1, finite (A ord0 ord0) /\ rv (A ord0 ord0) <> 0 /\
  forall g, exists d (Rm H Qh : 'M[b32]_1),
  [/\ qr_new (S:=B32) g (mat_of A) = Ok d,
      forall g, qr_get_r g d = Ok (mat_of Rm), forall g, qr_get_h g d = Ok (mat_of H), qr_get_q (S:=B32) d = Ok (mat_of Qh) &
      [/\ finite (Rm ord0 ord0), finite (H ord0 ord0) & ~ finite (Qh ord0 ord0)]].
Proof. exact: qr_get_q_underflow_refuted_f32_L. Qed.
Print Assumptions qr_get_q_underflow_refuted_f32.

(** the hypotheses are met by a 3 x 2 matrix with rounding: R and H are finite, the diagonal of R is in range *)
Lemma err_6 : 64 * err 6 <= 1.
Proof.
have u0 := u32_gt0; have u1 := u32_lt1; rewrite /err /grow.
have h : (1 + u32) ^ 6 <= (1 + / 1024) ^ 6 by apply: pow_incr; lra.
by move: h; rewrite /=; lra.
Qed.
Definition mx32 : mat b32 := Mat 3 [seq b32_int (Z.of_nat k) | k <- [:: 1; 2; 3; 4; 5; 7]%N].
Definition diag_in (x : b32) : bool := Bleb (b32_of 1 (-50)) (Babs x) && Bleb (Babs x) (b32_of 1 62).
Example qr_rounding_example :
  let g : nat -> B32 := fun=> B754_nan in
  match qr_new (S:=B32) g mx32 with
  | Ok d =>
      match qr_get_r g d, qr_get_h g d, qr_get_q d with
      | Ok Rm, Ok H, Ok Q => [&& all (@is_finite b_prec b_emax) (data Rm), all (@is_finite b_prec b_emax) (data H),
                       all (@is_finite b_prec b_emax) (data Q) & all diag_in (rdiag d)]
      | _, _, _ => false
      end
  | _ => false
  end.
Proof. by vm_cast_no_check (erefl true). Qed.
