(** * (generated by tools/gen32.py from B64.v) B32: IEEE-754 binary32 as a scalar, with Flocq's verified operations.

    As B64.v: the carrier contains exactly
    the floating-point numbers, so that Flocq's theorems about rounding apply
    to every value.  All operations round to nearest, ties to even.
    [s_eps], [s_tiny], ... are the f64 constants of the source converted to f32
    (num::cast): 2^-52, and 2^-966, which becomes 0.  0.964 is not half-way
    between two f32, so that rounding it twice makes no difference. *)
From Coq Require Import ZArith Reals Lra SpecFloat.
From Flocq Require Import Core BinarySingleNaN.
From mathcomp Require Import ssreflect ssrbool ssrnat seq.
From Verif Require Import Base Scalar.

Set Implicit Arguments.
Unset Strict Implicit.
Unset Printing Implicit Defensive.

Definition b_prec : Z := 24.
Definition b_emax : Z := 128.
Definition b_prec_gt0 : Prec_gt_0 b_prec := eq_refl.
Definition b_prec_lt : Prec_lt_emax b_prec b_emax := eq_refl.
#[global] Existing Instance b_prec_gt0.
#[global] Existing Instance b_prec_lt.

Definition b32 := binary_float b_prec b_emax.
Definition b32_zero : b32 := B754_zero false.
Definition b32_of (m e : Z) : b32 := binary_normalize b_prec b_emax _ _ mode_NE m e false.
Definition b32_int (m : Z) : b32 := b32_of m 0.
Definition b32_dec (a : Z) (k : nat) : b32 := Bdiv mode_NE (b32_int a) (b32_int (10 ^ Z.of_nat k)%Z).
(** f32::max *)
Definition b32_max (x y : b32) : b32 :=
  if is_nan x then y else if is_nan y then x else if Bltb x y then y else x.

Definition b32_num : numops :=
  {| n_T := b32; n_zero := b32_zero; n_one := b32_int 1;
     n_add := Bplus mode_NE; n_sub := Bminus mode_NE;
     n_mul := Bmult mode_NE;
     n_div := fun x y => Ok (Bdiv mode_NE x y);
     n_neg := @Bopp b_prec b_emax |}.

Definition B32 : scalar :=
  {| s_num := b32_num;
     s_abs := @Babs b_prec b_emax : b32_num -> b32_num;
     s_sqrt := fun x => Ok (Bsqrt mode_NE x);
     s_eqb := @Beqb b_prec b_emax; s_ltb := @Bltb b_prec b_emax; s_leb := @Bleb b_prec b_emax;
     s_max := b32_max;
     s_eps := b32_of 1 (-52); s_tiny := b32_of 1 (-966);
     s_two := b32_int 2; s_c075 := b32_of 3 (-2); s_cm04375 := b32_of (-7) (-4);
     s_c0964 := b32_dec 964 3;
     s_approx := b32_dec 1 6;
     s_ofnat := fun n => b32_int (Z.of_nat n) |}.

(** not a number, plus infinity, or a positive number *)
Definition positive (x : b32) : Prop :=
  match x with
  | B754_nan => True
  | B754_infinity s => s = false
  | B754_zero _ => False
  | B754_finite s _ _ _ => s = false
  end.

Lemma positive_R (x : b32) : is_finite x = true -> positive x <-> (0 < B2R x)%R.
Proof.
case: x => [s|s||s m e B] //= _; first by split=> //; lra.
split=> [->|]; first exact: F2R_gt_0.
by case: s => //= h; have := F2R_lt_0 radix2 (Float radix2 (Zneg m) e) eq_refl; lra.
Qed.

Lemma positive_add (x y : b32) : positive x -> positive (Bplus mode_NE x (Babs y)).
Proof.
case Fx : (is_finite x); last by case: x Fx => [s|s||s m e B] //= _ ->; case: y.
case Fy : (is_finite (Babs y)); last first.
  by case: y Fy => [s|s||s m e B] //= _ _; case: x Fx.
move=> /(positive_R Fx) Px.
have Py : (0 <= B2R (Babs y))%R by rewrite B2R_Babs; apply: Rabs_pos.
have := Bplus_correct b_prec b_emax b_prec_gt0 b_prec_lt mode_NE x (Babs y) Fx Fy.
case: Rlt_bool => [[E [F _]]|[E _]].
  apply/(positive_R F); rewrite E; apply: Rlt_le_trans Px _.
  apply: round_ge_generic; last by lra.
  exact: generic_format_B2R.
have sx : Bsign x = false.
  case: x Fx Px {E} => [s|s||s m e B] //= _; first lra.
  by case: s => //= h; have := F2R_lt_0 radix2 (Float radix2 (Zneg m) e) eq_refl; lra.
rewrite sx /= in E.
by case: (Bplus _ _ _) E => [s|s||s m e B] //= [].
Qed.

Lemma positive_neq0 (x : b32) : positive x -> Beqb x b32_zero = false.
Proof. by case: x => [s|s||s m e B] //= ->. Qed.

(** the sum of absolute values that orthes forms is zero only when its first
    term is *)
Lemma b32_zero_sum (x : b32) (ys : seq b32) :
  Beqb (foldl (fun sc y => Bplus mode_NE sc (Babs y)) (Bplus mode_NE b32_zero (Babs x)) ys) b32_zero -> Beqb x b32_zero.
Proof.
case E : (Beqb x b32_zero) => //.
have : positive (Bplus mode_NE b32_zero (Babs x)) by case: x E => [s|s||s m e B].
move: (Bplus _ _ _) => p Hp; have : positive (foldl (fun sc y => Bplus mode_NE sc (Babs y)) p ys).
  by elim: ys p Hp => //= y ys IH p Hp; apply: IH; apply: positive_add.
by move/positive_neq0 => ->.
Qed.
