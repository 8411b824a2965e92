(** * Scalar: the element types the matrices are generic over.

    rust-la is generic in the element type through the traits of the [num]
    crate.  The model is generic in the same way:

    - [numops] is the trait bound [Num (+ Neg) + Copy] used by matrix.rs
      lines 111-290 and by the operator impls at 581-726;
    - [scalar] is the bound [Float + Signed + ApproxEq] used by matrix.rs
      742-876 and by the decompositions (src/decomp/*.rs).

    Theorems quantified over every [numops] / [scalar] hold for every element
    type, f32/f64 included, because they assume no law of the operations.
    Theorems about exact arithmetic use [exact F]. *)
From mathcomp Require Import all_ssreflect all_algebra.
From Verif Require Import Base.

Set Implicit Arguments.
Unset Strict Implicit.
Unset Printing Implicit Defensive.

(** Trait [num::Num] (+ [Neg]): zero(), one(), +, -, *, / and unary -.
    Division may fail (integer division by zero panics). Overflow of +,-,* on
    primitive integer types: see the instances of SpecInt.v. *)
Record numops := NumOps {
  n_T :> Type;
  n_zero : n_T;
  n_one : n_T;
  n_add : n_T -> n_T -> n_T;
  n_sub : n_T -> n_T -> n_T;
  n_mul : n_T -> n_T -> n_T;
  n_div : n_T -> n_T -> res n_T;
  n_neg : n_T -> n_T }.

(** Trait [num::Float + Signed] and [ApproxEq] (src/approxeq.rs): num::abs,
    sqrt, the comparisons ==, <, <=, the method max, and the constants the
    code obtains by [num::cast]. *)
Record scalar := Scalar {
  s_num :> numops;
  s_abs : s_num -> s_num;
  s_sqrt : s_num -> res s_num;
  s_eqb : s_num -> s_num -> bool;      (* a == b *)
  s_ltb : s_num -> s_num -> bool;      (* a < b *)
  s_leb : s_num -> s_num -> bool;      (* a <= b *)
  s_max : s_num -> s_num -> s_num;     (* a.max(b) *)
  s_eps : s_num;                       (* num::cast(2.0f64.powf(-52.0)) *)
  s_tiny : s_num;                      (* num::cast(2.0f64.powf(-966.0)) *)
  s_two : s_num;                       (* num::cast(2.0) *)
  s_c075 : s_num;                      (* num::cast(0.75) *)
  s_cm04375 : s_num;                   (* num::cast(-0.4375) *)
  s_c0964 : s_num;                     (* num::cast(0.964) *)
  s_approx : s_num;                    (* 1.0e-6, src/approxeq.rs:21-27,37-43 *)
  s_ofnat : nat -> s_num }.            (* num::cast of a usize *)

(** Literal decimal constants of the code as exact numbers of a field. *)
Section Exact.
Import GRing.Theory Num.Theory.
Local Open Scope ring_scope.

(** Exact arithmetic over a real closed field [F] (for instance the real
    numbers or the real algebraic numbers).  Division by zero and the square
    root of a negative number are errors, never a silent value.  [eps] and
    [tiny] are the convergence thresholds of the iterative algorithms. *)
Definition exact_num (F : rcfType) : numops :=
  {| n_T := F; n_zero := 0; n_one := 1;
     n_add := fun x y => x + y; n_sub := fun x y => x - y;
     n_mul := fun x y => x * y;
     n_div := fun x y => if y == 0 then Err Undef else Ok (x / y);
     n_neg := fun x => - x |}.

Definition exactE (F : rcfType) (eps tiny : F) : scalar :=
  {| s_num := exact_num F;
     s_abs := fun x : F => `|x|;
     s_sqrt := fun x : F => if x < 0 then Err Undef else Ok (Num.sqrt x);
     s_eqb := fun x y : F => x == y;
     s_ltb := fun x y : F => x < y;
     s_leb := fun x y : F => x <= y;
     s_max := fun x y : F => if x < y then y else x;
     s_eps := eps; s_tiny := tiny;
     s_two := 2%:R; s_c075 := 3%:R / 4%:R; s_cm04375 := - (7%:R / 16%:R);
     s_c0964 := 964%:R / 1000%:R;
     s_approx := (10 ^ 6)%:R^-1;
     s_ofnat := fun n => n%:R |}.

(** The thresholds used by the code: 2^-52 and 2^-966. *)
Definition exact (F : rcfType) : scalar :=
  exactE (2%:R ^- 52) (2%:R ^- 966 : F).

(** Integer element types (i32, usize, ...) as unbounded integers; division
    truncates toward zero and panics on zero (only the magnitude is used by
    the theorems, which are about divisions being reached or not). *)
Definition int_num : numops :=
  {| n_T := int; n_zero := 0%R; n_one := 1%R;
     n_add := fun x y => x + y; n_sub := fun x y => x - y;
     n_mul := fun x y => x * y;
     n_div := fun x y => if y == 0 then Err Panic
                         else Ok (sgz x * sgz y * Posz (absz x %/ absz y)%N);
     n_neg := fun x => - x |}.

(** Any commutative ring, for the laws of the ring operations (no division). *)
Definition ring_num (R : ringType) : numops :=
  {| n_T := R; n_zero := 0; n_one := 1;
     n_add := fun x y => x + y; n_sub := fun x y => x - y;
     n_mul := fun x y => x * y;
     n_div := fun _ _ => Err Undef;
     n_neg := fun x => - x |}.
End Exact.
