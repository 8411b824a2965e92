(** * C15: uninitialised memory is never observable

    Only property theorems, each closed by a lemma of GarbageThms.v, and the
    Examples showing that their hypotheses are met.  Generated from GarbageThms.v by
    tools/genprops.py. *)
From mathcomp Require Import all_ssreflect all_algebra zify.
From Verif Require Import Base Scalar Hoare Rel ModelMatrix ModelLU ModelCholesky ModelQR ModelSVD ModelEigen Spec SpecGarbage MatrixProofs MatrixProofs2 MatrixThms B64 GarbageSvd GarbageEigen.
From Verif Require Import GarbageThms.

Set Implicit Arguments.
Unset Strict Implicit.
Unset Printing Implicit Defensive.



(** ** C15 uninitialised memory never reaches a result *)

(** C15: methods of every matrix, also the degenerate ones without rows. *)
Theorem garbage_any : forall T U (g g' : nat -> T) (h h' : nat -> U) (f : T -> U) (rnd : nat -> T) (M : mat T) r c,
  [/\ map_ h f M = map_ h' f M, t g M = t g' M, get_column g M c = get_column g' M c & random g rnd r c = random g' rnd r c].
Proof. exact: garbage_any_L. Qed.
Print Assumptions garbage_any.

(** C15: constructors and arithmetic, for every operand. *)
Theorem garbage_num : forall (N : numops) (g g' : nat -> N) (M M2 : mat N) (ds : seq N) k m n,
  [/\ [/\ id g m n = id g' m n, zero g m n = zero g' m n, zero_vector g m = zero_vector g' m & one_vector g m = one_vector g' m],
      diag g ds = diag g' ds /\ block_diag g m n ds = block_diag g' m n ds,
      neg g M = neg g' M /\ scale g M k = scale g' M k,
      [/\ add g M M2 = add g' M M2, sub g M M2 = sub g' M M2, elem_mul g M M2 = elem_mul g' M M2 & elem_div g M M2 = elem_div g' M M2] &
      mul g M M2 = mul g' M M2 /\ mmul g M M2 = mmul g' M M2].
Proof. exact: garbage_num_L. Qed.
Print Assumptions garbage_num.

(** C15: the methods that rearrange elements, for every matrix the API can construct. *)
Theorem garbage_shape : forall T (g g' : nat -> T) (M M2 : mat T) r c r0 c0 r1 c1 ks p sel,
  wf M -> wf M2 ->
  [/\ cr g M M2 = cr g' M M2 /\ bitor g M M2 = bitor g' M M2, cb g M M2 = cb g' M M2,
      minor g M r c = minor g' M r c, sub_matrix g M r0 c0 r1 c1 = sub_matrix g' M r0 c0 r1 c1 &
      [/\ permute_rows g M ks = permute_rows g' M ks, permute_columns g M ks = permute_columns g' M ks,
          filter_rows g p M = filter_rows g' p M, filter_columns g p M = filter_columns g' p M &
          select_rows g M sel = select_rows g' M sel /\ select_columns g M sel = select_columns g' M sel]].
Proof. exact: garbage_shape_L. Qed.
Print Assumptions garbage_shape.

(** C15: LU decomposition and everything built on it, any scalar type. *)
Theorem garbage_lu : forall (S : scalar) (gp gp' : nat -> nat) (g g' h h' : nat -> S) (a b : mat S) (d : lu_decomp S),
  [/\ lu_new gp a = lu_new gp' a,
      [/\ lu_get_l g d = lu_get_l g' d, lu_get_u g d = lu_get_u g' d & lu_get_p g h d = lu_get_p g' h' d],
      det gp a = det gp' a, is_non_singular gp a = is_non_singular gp' a /\ is_singular gp a = is_singular gp' a &
      solve gp g a b = solve gp' g' a b /\ inverse gp g h a = inverse gp' g' h' a].
Proof. exact: garbage_lu_L. Qed.
Print Assumptions garbage_lu.

(** C15: Cholesky decomposition, any scalar type. *)
Theorem garbage_chol : forall (S : scalar) (g g' : nat -> S) (a : mat S), chol_new g a = chol_new g' a.
Proof. exact: garbage_chol_L. Qed.
Print Assumptions garbage_chol.

(** C15: QR decomposition and the pseudo-inverse, any scalar type. *)
Theorem garbage_qr : forall (S : scalar) (gp gp' : nat -> nat) (g1 g2 g3 g4 g5 g6 g7 g8 h1 h2 h3 h4 h5 h6 h7 h8 : nat -> S)
    (a : mat S) (d : qr_decomp S),
  [/\ qr_new g1 a = qr_new h1 a, qr_get_h g1 d = qr_get_h h1 d, qr_get_r g1 d = qr_get_r h1 d &
      pinverse gp g1 g2 g3 g4 g5 g6 g7 g8 a = pinverse gp' h1 h2 h3 h4 h5 h6 h7 h8 a].
Proof. exact: garbage_qr_L. Qed.
Print Assumptions garbage_qr.

(** C15: the singular value decomposition, any scalar type, any number of iterations allowed. *)
Theorem garbage_svd : forall (S : scalar) fuel (g1 g2 g3 g4 g5 g6 g7 g8 h1 h2 h3 h4 h5 h6 h7 h8 : nat -> S) (a : mat S),
  svd_new fuel g1 g2 g3 g4 g5 g6 g7 g8 a = svd_new fuel h1 h2 h3 h4 h5 h6 h7 h8 a.
Proof. exact: garbage_svd_L. Qed.
Print Assumptions garbage_svd.

(** C15: the eigenvalue decomposition of a matrix that compares symmetric, any scalar type.  (The three
    shared arguments gz gr gs are not memory: they stand for the values that variables of the algorithm hold from
    earlier computations, ModelEigen.v, hqr2_back.) *)
Theorem garbage_eigen_symmetric : forall (S : scalar) fuel (g1 g2 g3 g4 g5 h1 h2 h3 h4 h5 gz gr gs : nat -> S) (a : mat S) n,
  cols a = Ok n ->
  (forall i j, i < n -> j < n -> exists x y, [/\ get a i j = Ok x, get a j i = Ok y & s_eqb x y]) ->
  eigen_new fuel g1 g2 g3 g4 g5 gz gr gs a = eigen_new fuel h1 h2 h3 h4 h5 gz gr gs a.
Proof. exact: garbage_eigen_symmetric_L. Qed.
Print Assumptions garbage_eigen_symmetric.

(** C15: the eigenvalue decomposition of any matrix, and its accessors. *)
Theorem garbage_eigen : forall (S : scalar) fuel (g1 g2 g3 g4 g5 h1 h2 h3 h4 h5 gz gr gs : nat -> S) (a : mat S) (d : eigen S),
  zero_sum S ->
  eigen_new fuel g1 g2 g3 g4 g5 gz gr gs a = eigen_new fuel h1 h2 h3 h4 h5 gz gr gs a /\
  eigen_get_d g1 d = eigen_get_d h1 d.
Proof. exact: garbage_eigen_L. Qed.
Print Assumptions garbage_eigen.

(** C15: SVD::direct. *)
Theorem garbage_direct : forall (S : scalar) fuel (ge ge' g g' : nat -> nat -> S) (gp gp' : nat -> nat) (g1 g2 h1 h2 : nat -> S) (a : mat S),
  zero_sum S -> (forall i, 4 < i -> ge i = ge' i) ->
  svd_direct fuel ge g gp g1 g2 a = svd_direct fuel ge' g' gp' h1 h2 a.
Proof. exact: garbage_direct_L. Qed.
Print Assumptions garbage_direct.

(** C15: the law that garbage_eigen and garbage_direct assume holds in exact arithmetic and for f64 (Flocq's binary64). *)
Theorem zero_sum_exact : forall (F : rcfType) (eps tiny : F), zero_sum (exactE eps tiny).
Proof. exact: zero_sum_exact_L. Qed.
Print Assumptions zero_sum_exact.

Theorem zero_sum_f64 : zero_sum B64.
Proof. exact: zero_sum_f64_L. Qed.
Print Assumptions zero_sum_f64.

(** the hypotheses of garbage_eigen_symmetric are met by a matrix of binary64 numbers *)
Example garbage_symmetric_example : let a := Mat 2 [:: s_ofnat B64 2; s_ofnat B64 1; s_ofnat B64 1; s_ofnat B64 5] : mat B64 in
  cols a = Ok 2 /\
  (forall i j, i < 2 -> j < 2 -> exists x y, [/\ get a i j = Ok x, get a j i = Ok y & s_eqb x y]).
Proof.
split=> // -[|[|i]] [|[|j]] // _ _; do 2 eexists; split; try reflexivity; by vm_compute.
Qed.
(** the hypothesis of garbage_shape is met, and fresh memory really is arbitrary *)
Example garbage_wf : wf (Mat 2 [:: 1; 2; 3; 4; 5; 6]). Proof. by []. Qed.
Example garbage_differs : alloc_dirty_vec (fun=> 1) 2 <> alloc_dirty_vec (fun=> 2) 2. Proof. by []. Qed.
