(** * PropFloat32LU: LU decomposition, solve and inverse in f32 (C62)

    Only property theorems, each closed by a lemma of Float32LUThms.v, and the
    Examples showing that their hypotheses are met.  Generated from Float32LUThms.v by
    tools/genprops.py. *)
From Coq Require Import ZArith Reals Lra Psatz.
From Flocq Require Import Core BinarySingleNaN.
From mathcomp Require Import all_ssreflect all_algebra zify.
From mathcomp Require Import fingroup perm.
From Verif Require Import Base Scalar Hoare ModelMatrix ModelLU Spec MatrixProofs MatrixProofs2 LUProofs LUEval B32 SpecFloat32 Float32Base Float32LU.
From Verif Require Import Float32LUThms.

Set Implicit Arguments.
Unset Strict Implicit.
Unset Printing Implicit Defensive.

Local Open Scope R_scope.

(** ** C62 (C51 in f32) LU decomposition in f32 *)

(** C62 (C51 in f32): for every f32 matrix (NaN and infinities included) LUDecomposition::new and the getters succeed; L is unit
  lower trapezoidal and U upper trapezoidal.  When the elements of L and U are finite, so are those of A, |L| <= 1, and the
  product L U reproduces the permuted matrix with the error bound of the standard backward error analysis: relative to
  |L||U| by (1+u)^r - 1, r = min(m,n), plus an underflow term. *)
Theorem lu_rounding_f32 : forall gp m n (A : 'M[b32]_(m.+1, n.+1)),
  exists (d : lu_decomp B32) (s : 'S_m.+1)
         (L : 'M[b32]_(m.+1, minn m.+1 n.+1)) (U : 'M[b32]_(minn m.+1 n.+1, n.+1)),
  [/\ lu_new (S:=B32) gp (mat_of A) = Ok d,
      forall g, lu_get_l g d = Ok (mat_of L),
      forall g, lu_get_u g d = Ok (mat_of U),
      lu_get_piv d = perm_list s &
  [/\ forall (i : 'I_m.+1) (j : 'I_(minn m.+1 n.+1)), (i < j)%N -> L i j = b32_zero,
      forall (i : 'I_m.+1) (j : 'I_(minn m.+1 n.+1)), i = j :> nat -> L i j = b32_int 1,
      forall (i : 'I_(minn m.+1 n.+1)) (j : 'I_n.+1), (j < i)%N -> U i j = b32_zero &
  (forall i j, finite (L i j)) -> (forall i j, finite (U i j)) ->
  let r := minn m.+1 n.+1 in
  [/\ forall i j, finite (A i j), forall i j, Rabs (rv (L i j)) <= 1 &
      forall i j, Rabs (rv (A (s i) j) - (\rsum_(l < r) (rv (L i l) * rv (U l j)))) <=
        err r * (\rsum_(l < r) (Rabs (rv (L i l)) * Rabs (rv (U l j)))) +
        grow r * eta32 * (INR r + (\rsum_(l < r) Rabs (rv (U l j))))]]].
Proof. exact: lu_rounding_f32_L. Qed.
Print Assumptions lu_rounding_f32.

(** ** C62 (C52 in f32) solve and inverse in f32 *)

(** C62 (C52 in f32): for every f32 square matrix A and right-hand side B (NaN and infinities included) solve never panics: it
  returns None exactly when a diagonal element of U is zero, and otherwise a matrix X.  When L, U and X are finite, every
  element of the residual B - A X is small relative to (|L||U||X|): by (1+u)^(3n) - 1, plus an underflow term. *)
Theorem solve_rounding_f32 : forall gp g n k (A : 'M[b32]_n.+1) (B : 'M[b32]_(n.+1, k.+1)),
  exists (d : lu_decomp B32) (s : 'S_n.+1) (L U : 'M[b32]_n.+1),
  [/\ lu_new (S:=B32) gp (mat_of A) = Ok d,
      forall g, lu_get_l g d = Ok (mat_of L),
      forall g, lu_get_u g d = Ok (mat_of U) &
  if [forall i, ~~ Beqb (U i i) b32_zero] then
    exists X : 'M[b32]_(n.+1, k.+1), solve (S:=B32) gp g (mat_of A) (mat_of B) = Ok (Some (mat_of X)) /\
    ((forall i j, finite (L i j)) -> (forall i j, finite (U i j)) -> (forall i j, finite (X i j)) ->
     [/\ forall i j, finite (A i j), forall i j, finite (B i j) & forall i j,
     Rabs (rv (B (s i) j) - (\rsum_(l < n.+1) (rv (A (s i) l) * rv (X l j)))) <=
       err (3 * n.+1) * (\rsum_(l < n.+1) (Rabs (rv (L i l)) * (\rsum_(p < n.+1) (Rabs (rv (U l p)) * Rabs (rv (X p j)))))) +
       grow (2 * n.+1) * eta32 *
         (INR n.+1 + (\rsum_(l < n.+1) (Rabs (rv (L i l)) * (INR n.+1 + Rabs (rv (U l l))))) +
          (\rsum_(p < n.+1) ((INR n.+1 + (\rsum_(l < n.+1) Rabs (rv (U l p)))) * Rabs (rv (X p j)))))])
  else solve (S:=B32) gp g (mat_of A) (mat_of B) = Ok None].
Proof. exact: solve_rounding_f32_L. Qed.
Print Assumptions solve_rounding_f32.

(** C62 (C52 in f32): the same for inverse, whose right-hand side is the identity matrix. *)
Theorem inverse_rounding_f32 : forall gp g1 g2 n (A : 'M[b32]_n.+1),
  exists (d : lu_decomp B32) (s : 'S_n.+1) (L U : 'M[b32]_n.+1),
  [/\ lu_new (S:=B32) gp (mat_of A) = Ok d,
      forall g, lu_get_l g d = Ok (mat_of L),
      forall g, lu_get_u g d = Ok (mat_of U) &
  if [forall i, ~~ Beqb (U i i) b32_zero] then
    exists X : 'M[b32]_n.+1, inverse (S:=B32) gp g1 g2 (mat_of A) = Ok (Some (mat_of X)) /\
    ((forall i j, finite (L i j)) -> (forall i j, finite (U i j)) -> (forall i j, finite (X i j)) ->
     (forall i j, finite (A i j)) /\ forall i j,
     Rabs ((if s i == j then 1 else 0) - (\rsum_(l < n.+1) (rv (A (s i) l) * rv (X l j)))) <=
       err (3 * n.+1) * (\rsum_(l < n.+1) (Rabs (rv (L i l)) * (\rsum_(p < n.+1) (Rabs (rv (U l p)) * Rabs (rv (X p j)))))) +
       grow (2 * n.+1) * eta32 *
         (INR n.+1 + (\rsum_(l < n.+1) (Rabs (rv (L i l)) * (INR n.+1 + Rabs (rv (U l l))))) +
          (\rsum_(p < n.+1) ((INR n.+1 + (\rsum_(l < n.+1) Rabs (rv (U l p)))) * Rabs (rv (X p j))))))
  else inverse (S:=B32) gp g1 g2 (mat_of A) = Ok None].
Proof. exact: inverse_rounding_f32_L. Qed.
Print Assumptions inverse_rounding_f32.

(** the hypotheses are met by a system that needs a pivot and rounds: L, U and X are finite and no pivot is zero *)
Definition mx22 : 'M[b32]_2 := (\matrix_(i, j) b32_int (1 + 2 * Z.of_nat i + Z.of_nat j))%R.
Lemma mx22E : mat_of mx22 = Mat 2 [:: b32_int 1; b32_int 2; b32_int 3; b32_int 4].
Proof.
apply/esym/(@rep_mat_of _ 2 2 _ (fun i j => nth b32_zero [:: b32_int 1; b32_int 2; b32_int 3; b32_int 4] (i * 2 + j))).
  by split=> //; split=> // -[|[|i]] // [|[|j]].
by move=> [[|[|i]] hi] [[|[|j]] hj] //; rewrite mxE.
Qed.
Definition fin_all (M : mat b32) : bool := all (@is_finite b_prec b_emax) (data M).
Example lu_rounding_example :
  let g : nat -> B32 := fun=> B754_nan in
  match lu_new (S:=B32) (fun=> 7%N) (mat_of mx22), inverse (S:=B32) (fun=> 7%N) g g (mat_of mx22) with
  | Ok d, Ok (Some X) =>
      match lu_get_l g d, lu_get_u g d with
      | Ok L, Ok U => [&& fin_all L, fin_all U, fin_all X & lu_get_piv d == [:: 1; 0]%N]
      | _, _ => false
      end
  | _, _ => false
  end.
Proof. by rewrite mx22E; vm_cast_no_check (erefl true). Qed.
