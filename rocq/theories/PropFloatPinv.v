(** * pinverse in f64 (C71)

    Only property theorems, each closed by a lemma of FloatPinvThms.v, and the
    Examples showing that their hypotheses are met.  Generated from FloatPinvThms.v by
    tools/genprops.py. *)
From Coq Require Import ZArith Reals Lra Psatz.
From Flocq Require Import Core BinarySingleNaN.
From mathcomp Require Import all_ssreflect all_algebra zify.
From mathcomp Require Import fingroup perm.
From Verif Require Import Base Scalar Hoare ModelMatrix ModelLU ModelQR Spec MatrixProofs MatrixProofs2 MatrixThms LUProofs LUEval QREval B64 SpecFloat64 FloatBase FloatThms FloatLU SpecFloatPrio SpecFloatPinv FloatLUThms FloatPrio FloatPrioThms FloatChol FloatCholThms RealVec QRReal FloatQR FloatQRThms.
From Verif Require Import FloatPinvThms.

Set Implicit Arguments.
Unset Strict Implicit.
Unset Printing Implicit Defensive.

Local Open Scope R_scope.

(** ** C71 pinverse in f64 *)

(** C71: for every f64 matrix A (NaN and infinities included) pinverse either panics or returns a matrix X, and it panics
  exactly when U, of the LU decomposition of the computed N = R' R, has a zero on its diagonal.  Suppose the factors are
  finite, and every diagonal element of R is 0 or between 2^-480 and 2^510 in magnitude.  First, if A' A has
  a (real) left inverse V with absolute row sums at most K, and K times the rounding errors of N and of its LU factors is below
  1, there is no zero on the diagonal and pinverse does not panic.  Second, if X is finite, then so is A, X satisfies the normal equations A' A X = A' up
  to pinv_error in every element, and it differs from the pseudo-inverse V A' by at most |V| pinv_error. *)
Theorem pinverse_rounding : forall gp g1 g2 g3 g4 g5 g6 g7 g8 m n (A : 'M[b64]_(m.+1, n.+1)),
  exists (d : qr_decomp B64) (Rm H : 'M[b64]_(m.+1, n.+1)) (N : 'M[b64]_n.+1) (dl : lu_decomp B64) (L U : 'M[b64]_n.+1),
  let factors_ok := [/\ 64 * err (m.+1 + 3) <= 1,
    forall i j, finite (H i j), forall i j, finite (L i j), forall i j, finite (U i j) &
    forall (i : 'I_m.+1) (j : 'I_n.+1), i = j :> nat -> rv (Rm i j) = 0 \/ / 2 ^ 480 <= Rabs (rv (Rm i j)) <= 2 ^ 510] in
  [/\ qr_new (S:=B64) g1 (mat_of A) = Ok d,
      forall g, qr_get_r g d = Ok (mat_of Rm),
      forall g, qr_get_h g d = Ok (mat_of H) &
      mul (N:=B64) g4 (mat_of Rm^T%R) (mat_of Rm) = Ok (mat_of N)] /\
  [/\ lu_new (S:=B64) gp (mat_of N) = Ok dl,
      forall g, lu_get_l g dl = Ok (mat_of L),
      forall g, lu_get_u g dl = Ok (mat_of U),
      factors_ok -> forall W, (forall i j, Rabs (rv (U i j)) <= W) ->
        forall (V : 'I_n.+1 -> 'I_n.+1 -> R) K G,
          (forall i j, (\rsum_(l < n.+1) (V i l * gram A l j)) = if i == j then 1 else 0) ->
          (forall i, (\rsum_(l < n.+1) Rabs (V i l)) <= K) -> (forall i j, gram_error A i j <= G) ->
          K * (INR n.+1 * (G + lu_error n.+1 W)) < 1 ->
          [forall i, ~~ Beqb (U i i) b64_zero] &
  if [forall i, ~~ Beqb (U i i) b64_zero] then
    exists (Y : 'M[b64]_n.+1) (X : 'M[b64]_(n.+1, m.+1)),
    [/\ inverse (S:=B64) gp g5 g6 (mat_of N) = Ok (Some (mat_of Y)),
        pinverse (S:=B64) gp g1 g2 g3 g4 g5 g6 g7 g8 (mat_of A) = Ok (mat_of X) &
    factors_ok -> (forall i j, finite (X i j)) ->
    forall W, (forall i j, Rabs (rv (U i j)) <= W) ->
    [/\ forall i j, finite (A i j),
        forall i j, Rabs ((\rsum_(l < n.+1) (gram A i l * rv (X l j))) - rv (A j i)) <= pinv_error A N Y X W i j &
        forall V : 'I_n.+1 -> 'I_n.+1 -> R,
          (forall i j, (\rsum_(l < n.+1) (V i l * gram A l j)) = if i == j then 1 else 0) ->
          forall i j, Rabs (rv (X i j) - (\rsum_(l < n.+1) (V i l * rv (A j l)))) <=
            \rsum_(l < n.+1) (Rabs (V i l) * pinv_error A N Y X W l j)]]
  else pinverse (S:=B64) gp g1 g2 g3 g4 g5 g6 g7 g8 (mat_of A) = Err Panic].
Proof. exact: pinverse_rounding_L. Qed.
Print Assumptions pinverse_rounding.

(** C71, finding: the condition on the diagonal of R cannot be dropped.  For the invertible 1 x 1 matrix [2^-600] the square
  underflows, and pinverse panics. *)
Theorem pinverse_underflow_refuted : exists A : 'M[b64]_1, [/\ finite (A ord0 ord0), rv (A ord0 ord0) <> 0 &
  forall gp g1 g2 g3 g4 g5 g6 g7 g8, pinverse (S:=B64) gp g1 g2 g3 g4 g5 g6 g7 g8 (mat_of A) = Err Panic].
Proof. exact: pinverse_underflow_refuted_L. Qed.
Print Assumptions pinverse_underflow_refuted.

(** C71, finding: for the invertible 1 x 1 matrix [2^520], whose square overflows, pinverse silently returns [0]. *)
Theorem pinverse_overflow_refuted : exists A : 'M[b64]_1, [/\ finite (A ord0 ord0), 1 <= rv (A ord0 ord0) &
  forall gp g1 g2 g3 g4 g5 g6 g7 g8, exists X : 'M[b64]_1,
    [/\ pinverse (S:=B64) gp g1 g2 g3 g4 g5 g6 g7 g8 (mat_of A) = Ok (mat_of X), finite (X ord0 ord0) & rv (X ord0 ord0) = 0]].
Proof. exact: pinverse_overflow_refuted_L. Qed.
Print Assumptions pinverse_overflow_refuted.

(** the hypotheses are met by a 3 x 2 matrix with rounding: everything is finite, the diagonal of R is in range, there is no zero
    on the diagonal of U, and the elements of U are at most 128 *)
Definition mx32p : mat b64 := Mat 3 [seq b64_int (Z.of_nat k) | k <- [:: 1; 2; 3; 4; 5; 7]%N].
Definition diag_in_p (x : b64) : bool := Bleb (b64_of 1 (-480)) (Babs x) && Bleb (Babs x) (b64_of 1 510).
Definition fin_p (M : mat b64) : bool := all (@is_finite b_prec b_emax) (data M).
Example pinverse_rounding_example :
  let g : nat -> B64 := fun=> B754_nan in
  match qr_new (S:=B64) g mx32p, pinverse (S:=B64) (fun=> 7%N) g g g g g g g g mx32p with
  | Ok d, Ok X =>
      match qr_get_r g d, qr_get_h g d with
      | Ok Rm, Ok H =>
          match t g Rm with
          | Ok Rt =>
              match mul (N:=B64) g Rt Rm with
              | Ok N =>
                  match lu_new (S:=B64) (fun=> 7%N) N with
                  | Ok dl =>
                      match lu_get_l g dl, lu_get_u g dl with
                      | Ok L, Ok U => [&& fin_p H, fin_p L, fin_p U, fin_p X, all diag_in_p (rdiag d),
                          ~~ Beqb (nth b64_zero (data U) 0) b64_zero, ~~ Beqb (nth b64_zero (data U) 3) b64_zero &
                          all (fun u => Bleb (Babs u) (b64_int 128)) (data U)]
                      | _, _ => false
                      end
                  | _ => false
                  end
              | _ => false
              end
          | _ => false
          end
      | _, _ => false
      end
  | _, _ => false
  end.
Proof. by vm_cast_no_check (erefl true). Qed.
