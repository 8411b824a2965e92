(** * Replay: the repository's own unit tests, run on the model

    These are tests of the model against the code's documented behaviour (the
    [#[test]] functions of /repo/src), not proofs of properties: they show
    that the model computes in binary64 what the tests of the crate expect.
    Fresh memory is filled with NaN, so a read of it would show.
    Tests that [should_panic] are [= Err Panic]. *)
From Coq Require Import ZArith SpecFloat.
From mathcomp Require Import ssreflect ssrfun ssrbool eqtype ssrnat seq.
From Verif Require Import Base Scalar F64 ModelMatrix ModelHypot ModelLU ModelCholesky ModelQR ModelSVD ModelEigen ModelUtil.

Set Implicit Arguments.
Unset Strict Implicit.
Unset Printing Implicit Defensive.
Local Open Scope Z_scope.

Definition g : nat -> F64 := fun _ => f64_nan.
Definition gg : nat -> nat -> F64 := fun _ _ => f64_nan.
Definition gp : nat -> nat := fun _ => 77%nat.
(** m!(a, b; c, d) with the literals a.0, b.0, ... *)
Definition mz (rws : seq (seq Z)) : mat F64 :=
  match m_macro (T:=F64) [seq [seq f64_int z | z <- r] | r <- rws] with Ok M => M | Err _ => Mat 0 [::] end.
(** literals with six decimals *)
Definition m6 (rws : seq (seq Z)) : mat F64 :=
  match m_macro (T:=F64) [seq [seq f64_dec z 6 | z <- r] | r <- rws] with Ok M => M | Err _ => Mat 0 [::] end.
Definition eqm (a b : mat F64) : bool := mat_eq (s_eqb (s:=F64)) a b.
(** (l * r).approx_eq(a) *)
Definition prod_approx (l r a : mat F64) : res bool := x <-- mul (N:=F64) g l r ;; approx_eq x a.

(** ** src/decomp/cholesky.rs *)
Definition spd := mz [:: [:: 4; 12; -16]; [:: 12; 37; -43]; [:: -16; -43; 98]].
Example cholesky_square_pos_def_test :
  (r <-- chol_new (S:=F64) g spd ;;
   match r with
   | None => Ok false
   | Some l => lt <-- t g l ;; p <-- mul (N:=F64) g l lt ;;
       Ok (eqm p spd && eqm l (mz [:: [:: 2; 0; 0]; [:: 6; 1; 0]; [:: -8; 5; 3]]))
   end) = Ok true.
Proof. by vm_compute. Qed.
Example cholesky_not_pos_def_test :
  chol_new (S:=F64) g (mz [:: [:: 4; 12; -16]; [:: 12; 37; 43]; [:: -16; 43; 98]]) = Ok None.
Proof. by vm_compute. Qed.
Example cholesky_not_square_test : chol_new (S:=F64) g (mz [:: [:: 4; 12; -16]; [:: 12; 37; 43]]) = Ok None.
Proof. by vm_compute. Qed.
Definition a210 := mz [:: [:: 2; 1; 0]; [:: 1; 1; 0]; [:: 0; 0; 1]].
Definition chol_then (b : mat F64) : res (mat F64) :=
  r <-- chol_new (S:=F64) g a210 ;; match r with None => Err Panic | Some l => chol_solve l b end.
Example cholesky_solve_test :
  (x <-- chol_then (mz [:: [:: 1]; [:: 2]; [:: 3]]) ;; approx_eq x (mz [:: [:: -1]; [:: 3]; [:: 3]])) = Ok true.
Proof. by vm_compute. Qed.
Example cholesky_solve_test_incompatible : chol_then (mz [:: [:: 1]; [:: 2]; [:: 3]; [:: 4]]) = Err Panic.
Proof. by vm_compute. Qed.

(** ** src/decomp/lu.rs *)
Definition lu_prod (a : mat F64) : res bool :=
  d <-- lu_new (S:=F64) gp a ;; l <-- lu_get_l g d ;; u <-- lu_get_u g d ;; p <-- lu_get_p g g d ;;
  x <-- mul (N:=F64) g l u ;; y <-- mul (N:=F64) g p a ;; Ok (eqm x y).
Example test_lu_square : lu_prod (mz [:: [:: 1; 2; 0]; [:: 3; 6; -1]; [:: 1; 2; 1]]) = Ok true.
Proof. by vm_compute. Qed.
Example test_lu2_m_over_n : lu_prod (mz [:: [:: 1; 2]; [:: 3; 4]; [:: 5; 6]]) = Ok true.
Proof. by vm_compute. Qed.
Example test_lu2_m_under_n : lu_prod (mz [:: [:: 1; 2; 3]; [:: 4; 5; 6]]) = Ok true.
Proof. by vm_compute. Qed.
Example lu_solve_test :
  (r <-- solve (S:=F64) gp g a210 (mz [:: [:: 1]; [:: 2]; [:: 3]]) ;;
   match r with None => Ok false | Some x => approx_eq x (mz [:: [:: -1]; [:: 3]; [:: 3]]) end) = Ok true.
Proof. by vm_compute. Qed.
Example lu_solve_test_incompatible : solve (S:=F64) gp g a210 (mz [:: [:: 1]; [:: 2]; [:: 3]; [:: 4]]) = Err Panic.
Proof. by vm_compute. Qed.
Definition s26 := mz [:: [:: 2; 6]; [:: 1; 3]].
Example lu_solve_test_singular : solve (S:=F64) gp g s26 (mz [:: [:: 1]; [:: 2]]) = Ok None.
Proof. by vm_compute. Qed.
Example lu_is_singular_test :
  (d <-- lu_new (S:=F64) gp s26 ;; lu_is_singular d) = Ok true /\
  (d <-- lu_new (S:=F64) gp (mz [:: [:: 2; 6]; [:: 1; 4]]) ;; lu_is_singular d) = Ok false /\
  (d <-- lu_new (S:=F64) gp (mz [:: [:: 4; 8]; [:: 3; 4]]) ;; lu_is_non_singular d) = Ok true /\
  (d <-- lu_new (S:=F64) gp (mz [:: [:: 4; 6]; [:: 2; 3]]) ;; lu_is_non_singular d) = Ok false.
Proof. by vm_compute. Qed.
Example lu_det_test :
  (d <-- lu_new (S:=F64) gp (mz [:: [:: 4; 8]; [:: 3; 4]]) ;; x <-- lu_det d ;; Ok (s_eqb x (f64_int (-8)))) = Ok true /\
  (d <-- lu_new (S:=F64) gp (mz [:: [:: 4; 8]; [:: 2; 4]]) ;; x <-- lu_det d ;; Ok (s_eqb x f64_zero)) = Ok true.
Proof. by vm_compute. Qed.
Example lu_det_test_not_square : (d <-- lu_new (S:=F64) gp (mz [:: [:: 1; 2; 3]; [:: 4; 5; 6]]) ;; lu_det d) = Err Panic.
Proof. by vm_compute. Qed.

(** ** src/decomp/qr.rs *)
Definition qr_prod (a : mat F64) : res bool :=
  d <-- qr_new (S:=F64) g a ;; q <-- qr_get_q d ;; r <-- qr_get_r g d ;; prod_approx q r a.
Example qr_test : qr_prod (mz [:: [:: 12; -51; 4]; [:: 6; 167; -68]; [:: -4; 24; -41]]) = Ok true.
Proof. by vm_compute. Qed.
Example qr_test_m_over_n : qr_prod (mz [:: [:: 1; 2]; [:: 3; 4]; [:: 5; 6]]) = Ok true.
Proof. by vm_compute. Qed.
Example qr_test_n_over_m : qr_prod (mz [:: [:: 1; 2; 3]; [:: 4; 5; 6]]) = Ok true.
Proof. by vm_compute. Qed.

(** ** src/decomp/svd.rs *)
Definition m33 := mz [:: [:: 1; 2; 3]; [:: 4; 5; 6]; [:: 7; 8; 9]].
Definition m43 := mz [:: [:: 1; 2; 3]; [:: 4; 5; 6]; [:: 7; 8; 9]; [:: 10; 11; 12]].
Definition m34 := mz [:: [:: 1; 2; 3; 4]; [:: 5; 6; 7; 8]; [:: 9; 10; 11; 12]].
Definition usv_approx (d : svd F64) (a : mat F64) : res bool :=
  us <-- mul (N:=F64) g (svd_u d) (svd_s d) ;; vt <-- t g (svd_v d) ;; prod_approx us vt a.
Definition svd_prod (a : mat F64) : res bool :=
  d <-- svd_new (S:=F64) 100 g g g g g g g g a ;; usv_approx d a.
Example svd_test : svd_prod m33 = Ok true. Proof. by vm_compute. Qed.
Example svd_test_m_over_n : svd_prod m43 = Ok true. Proof. by vm_compute. Qed.
Example svd_test_n_over_m : svd_prod m34 = Ok true. Proof. by vm_compute. Qed.
Definition direct_prod (a : mat F64) : res bool :=
  d <-- svd_direct (S:=F64) 100 gg gg gp g g a ;; usv_approx d a.
Example direct_test : direct_prod m33 = Ok true. Proof. by vm_compute. Qed.
Example direct_test_m_over_n : direct_prod m43 = Ok true. Proof. by vm_compute. Qed.
Example direct_test_n_over_m : direct_prod m34 = Ok true. Proof. by vm_compute. Qed.

(** ** src/decomp/eigen.rs *)
Definition ea := mz [:: [:: 3; 1; 6]; [:: 2; 1; 0]; [:: -1; 0; -3]].
Definition eigs_approx (a : mat F64) (r : mat F64) : res bool :=
  d <-- eigen_new (S:=F64) 100 g g g g g g g g a ;; v <-- vector (eg_d d) ;; approx_eq v r.
Example eigen_test_symmetric :
  (at_ <-- t g ea ;; ata <-- mul (N:=F64) g at_ ea ;;
   eigs_approx ata (m6 [:: [:: 56661209]; [:: 4301868]; [:: 36923]])) = Ok true.
Proof. by vm_compute. Qed.
Example eigen_test_asymmetric : eigs_approx ea (mz [:: [:: 3]; [:: -1]; [:: -1]]) = Ok true.
Proof. by vm_compute. Qed.

(** ** src/matrix.rs, the floating-point tests *)
Example test_trace :
  trace (mz [:: [:: 1; 2]; [:: 3; 4]]) = Ok (f64_int 5) /\
  trace (mz [:: [:: 1; 2]; [:: 3; 4]; [:: 5; 6]]) = Ok (f64_int 5) /\
  trace (mz [:: [:: 1; 2; 3]; [:: 4; 5; 6]]) = Ok (f64_int 6).
Proof. by vm_compute. Qed.
Definition m6710 := mz [:: [:: 6; -7; 10]; [:: 0; 3; -1]; [:: 0; 5; -7]].
Example test_det :
  (x <-- det (S:=F64) gp m6710 ;; Ok (s_leb (n_sub (n:=F64) x (f64_int (-96))) (f64_of 1 (-23)))) = Ok true.
Proof. by vm_compute. Qed.
Example test_det_not_square : det (S:=F64) gp (mz [:: [:: 6; -7; 10]; [:: 0; 3; -1]]) = Err Panic.
Proof. by vm_compute. Qed.
Example test_solve :
  (r <-- solve (S:=F64) gp g (mz [:: [:: 1; 1; 1]; [:: 1; -1; 4]; [:: 2; 3; -5]]) (mz [:: [:: 3]; [:: 4]; [:: 0]]) ;;
   Ok (match r with None => false | Some x => eqm x (mz [:: [:: 1]; [:: 1]; [:: 1]]) end)) = Ok true.
Proof. by vm_compute. Qed.
Example test_inverse :
  (r <-- inverse (S:=F64) gp g g m6710 ;;
   match r with None => Ok false | Some x =>
     approx_eq x (Mat 3 [seq SFdiv prec emax (f64_int z) (f64_int 96) | z <- [:: 16; -1; 23; 0; 42; -6; 0; 30; -18]]) end) = Ok true.
Proof. by vm_compute. Qed.
Example test_inverse_not_square : inverse (S:=F64) gp g g (mz [:: [:: 6; -7; 10]; [:: 0; 3; -1]]) = Err Panic.
Proof. by vm_compute. Qed.
Example test_inverse_singular : inverse (S:=F64) gp g g s26 = Ok None.
Proof. by vm_compute. Qed.
Example test_pinverse :
  (p <-- pinverse (S:=F64) gp g g g g g g g g (mz [:: [:: 1; 2]; [:: 3; 4]; [:: 5; 6]]) ;;
   i <-- id (N:=F64) g 2 2 ;; prod_approx p (mz [:: [:: 1; 2]; [:: 3; 4]; [:: 5; 6]]) i) = Ok true.
Proof. by vm_compute. Qed.
Example test_is_singular :
  is_singular (S:=F64) gp s26 = Ok true /\
  is_singular (S:=F64) gp (mz [:: [:: 1; 2; 3]; [:: 4; 5; 6]]) = Err Panic /\
  is_non_singular (S:=F64) gp (mz [:: [:: 2; 6]; [:: 6; 3]]) = Ok true.
Proof. by vm_compute. Qed.
Example test_is_symmetric :
  is_symmetric (mz [:: [:: 1; 2; 3]; [:: 2; 4; 5]; [:: 3; 5; 6]]) = Ok true /\
  is_symmetric (mz [:: [:: 1; 2]; [:: 3; 4]]) = Ok false /\
  is_symmetric (mz [:: [:: 1; 2; 3]; [:: 2; 4; 5]]) = Ok false.
Proof. by vm_compute. Qed.
Definition m22 := mz [:: [:: 1; 2]; [:: 3; 4]].
Definition half5 : F64 := f64_of 5 (-1).
Example test_norms :
  vector_euclidean_norm (mz [:: [:: 1]; [:: 2]; [:: 2]]) = Ok (f64_int 3) /\
  vector_euclidean_norm (mz [:: [:: -2]; [:: 2]; [:: 2]; [:: 2]]) = Ok (f64_int 4) /\
  vector_euclidean_norm m22 = Err Panic /\
  vector_1_norm (Mat 3 [:: f64_int (-3); f64_int 2; half5] : mat F64) = Ok (f64_of 15 (-1)) /\
  vector_1_norm (mz [:: [:: 6]; [:: 8]; [:: -2]; [:: 3]]) = Ok (f64_int 19) /\
  vector_1_norm (mz [:: [:: 1]]) = Ok (f64_int 1) /\
  vector_1_norm m22 = Err Panic.
Proof. by vm_compute. Qed.
Example test_inf_frobenius :
  vector_inf_norm (Mat 3 [:: f64_int (-3); f64_int 2; half5] : mat F64) = Ok (f64_int 3) /\
  vector_inf_norm (mz [:: [:: 6]; [:: 8]; [:: -2]; [:: 3]]) = Ok (f64_int 8) /\
  vector_inf_norm (mz [:: [:: 1]]) = Ok (f64_int 1) /\
  vector_inf_norm m22 = Err Panic /\
  frobenius_norm m22 = s_sqrt (s:=F64) (f64_int 30) /\
  frobenius_norm (mz [:: [:: 1]; [:: 2]; [:: 2]]) = Ok (f64_int 3).
Proof. by vm_compute. Qed.

(** ** src/internalutil.rs *)
Example hypot_test :
  all (fun p => match hypot (S:=F64) (f64_int p.1.1) (f64_int p.1.2) with Ok x => s_eqb (s:=F64) x (f64_int p.2) | _ => false end)
    [:: (3, 4, 5); (4, 3, 5); (4, 0, 4); (0, 4, 4); (-3, 4, 5); (4, -3, 5); (-4, -3, 5); (-4, 0, 4); (0, -4, 4)].
Proof. by vm_compute. Qed.
