(** * C14, C17, C30-C34, C45: ring laws, trace, norms, symmetry, comparison, hypot

    Only property theorems, each closed by a lemma of MiscThms.v, and the
    Examples showing that their hypotheses are met.  Generated from MiscThms.v by
    tools/genprops.py. *)
From mathcomp Require Import all_ssreflect all_algebra zify ring.
From Verif Require Import Base Scalar Hoare ModelMatrix ModelLU ModelHypot Spec MatrixProofs MatrixProofs2 MatrixThms LUProofs LUThms.
From Verif Require Import MiscThms.

Set Implicit Arguments.
Unset Strict Implicit.
Unset Printing Implicit Defensive.
Import Order.TTheory GRing.Theory Num.Theory.
Local Open Scope ring_scope.

(** ** C14 laws of the ring operations *)

(** C14: (A*B)*C = A*(B*C), as API calls. *)
Theorem mul_assoc : forall (R : ringType) g1 g2 g3 g4 m n p q (A : 'M[R]_(m.+1, n.+1)) (B : 'M[R]_(n.+1, p.+1)) (C : 'M[R]_(p.+1, q.+1)),
  let N := ring_num R in
  bind (mul (N:=N) g1 (mat_of A) (mat_of B)) (fun AB => mul (N:=N) g2 AB (mat_of C)) =
  bind (mul (N:=N) g3 (mat_of B) (mat_of C)) (fun BC => mul (N:=N) g4 (mat_of A) BC).
Proof. exact: mul_assoc_L. Qed.
Print Assumptions mul_assoc.

(** C14: A*(B+C) = A*B + A*C and (A+B)*C = A*C + B*C. *)
Theorem mul_distr : forall (R : ringType) g1 g2 g3 g4 g5 m n p (A A' : 'M[R]_(m.+1, n.+1)) (B B' : 'M[R]_(n.+1, p.+1)),
  let N := ring_num R in
  bind (add (N:=N) g1 (mat_of B) (mat_of B')) (mul (N:=N) g2 (mat_of A)) =
    bind (mul (N:=N) g3 (mat_of A) (mat_of B)) (fun X => bind (mul (N:=N) g4 (mat_of A) (mat_of B')) (fun Y => add (N:=N) g5 X Y)) /\
  bind (add (N:=N) g1 (mat_of A) (mat_of A')) (fun X => mul (N:=N) g2 X (mat_of B)) =
    bind (mul (N:=N) g3 (mat_of A) (mat_of B)) (fun X => bind (mul (N:=N) g4 (mat_of A') (mat_of B)) (fun Y => add (N:=N) g5 X Y)).
Proof. exact: mul_distr_L. Qed.
Print Assumptions mul_distr.

(** C14: id is neutral on both sides. *)
Theorem mul_id : forall (R : ringType) g1 g2 g3 g4 m n (A : 'M[R]_(m.+1, n.+1)),
  let N := ring_num R in
  bind (id (N:=N) g1 m.+1 m.+1) (fun I => mul (N:=N) g2 I (mat_of A)) = Ok (mat_of A) /\
  bind (id (N:=N) g3 n.+1 n.+1) (mul (N:=N) g4 (mat_of A)) = Ok (mat_of A).
Proof. exact: mul_id_L. Qed.
Print Assumptions mul_id.

(** C14: (A*B)^T = B^T * A^T over a commutative ring. *)
Theorem mul_t : forall (R : comRingType) g1 g2 g3 g4 g5 m n p (A : 'M[R]_(m.+1, n.+1)) (B : 'M[R]_(n.+1, p.+1)),
  let N := ring_num R in
  bind (mul (N:=N) g1 (mat_of A) (mat_of B)) (t g2) =
  bind (t g3 (mat_of B)) (fun Bt => bind (t g4 (mat_of A)) (fun At => mul (N:=N) g5 Bt At)).
Proof. exact: mul_t_L. Qed.
Print Assumptions mul_t.

(** ** C17 trace *)

(** C17: for every element type: the sum, in order, of the elements that get(i,i) returns, i < min(rows, cols). *)
Theorem trace_eval : forall (S : scalar) m n (A : 'M[S]_(m.+1, n.+1)),
  exists ds : seq S, [/\ size ds = minn m.+1 n.+1,
    forall i, (i < minn m.+1 n.+1)%N -> get (mat_of A) i i = Ok (nth (n_zero S) ds i) &
    trace (mat_of A) = Ok (foldl (n_add (n:=S)) (n_zero S) ds)].
Proof. exact: trace_eval_L. Qed.
Print Assumptions trace_eval.

(** C17 in exact arithmetic. *)
Theorem trace_ok : forall (F : rcfType) (eps tiny : F) m n (A : 'M[F]_(m.+1, n.+1)),
  trace (S:=exactE eps tiny) (mat_of A) = Ok (\sum_(i < m.+1) \sum_(j < n.+1 | i == j :> nat) A i j).
Proof. exact: trace_ok_L. Qed.
Print Assumptions trace_ok.

(** C17: the trace of a square matrix. *)
Theorem trace_square : forall (F : rcfType) (eps tiny : F) n (A : 'M[F]_n.+1),
  trace (S:=exactE eps tiny) (mat_of A) = Ok (\tr A).
Proof. exact: trace_square_L. Qed.
Print Assumptions trace_square.

(** C45: trace(A*B) = trace(B*A), det(id) = 1. *)
Theorem trace_mul : forall (F : rcfType) (eps tiny : F) g1 g2 m n (A : 'M[F]_(m.+1, n.+1)) (B : 'M[F]_(n.+1, m.+1)),
  bind (mul (N:=exactE eps tiny) g1 (mat_of A) (mat_of B)) (@trace _) =
  bind (mul (N:=exactE eps tiny) g2 (mat_of B) (mat_of A)) (@trace _).
Proof. exact: trace_mul_L. Qed.
Print Assumptions trace_mul.

Theorem det_id : forall (F : rcfType) (eps tiny : F) g gp n,
  bind (id (N:=exactE eps tiny) g n.+1 n.+1) (det (S:=exactE eps tiny) gp) = Ok 1.
Proof. exact: det_id_L. Qed.
Print Assumptions det_id.

(** ** C30 norms *)

(** C30, any element type (f32/f64 included): the norms are the left-to-right sums below; the vector norms of a
  single column never panic on their own account (only sqrt may fail, in exact arithmetic). *)
Theorem norms_eval : forall (S : scalar) m n (A : 'M[S]_(m, n)) (v : 'cV[S]_m.+1),
  let sumsq := foldl (fun s i => n_add s (n_mul (v i ord0) (v i ord0))) (n_zero S) (enum 'I_m.+1) in
  [/\ vector_euclidean_norm (mat_of v) = s_sqrt sumsq,
      length_ (mat_of v) = s_sqrt sumsq,
      vector_2_norm (mat_of v) = s_sqrt sumsq,
      vector_1_norm (mat_of v) = Ok (foldl (fun s i => n_add s (s_abs (v i ord0))) (n_zero S) (enum 'I_m.+1)) &
      frobenius_norm (mat_of A) =
        s_sqrt (foldl (fun s i => foldl (fun s j => n_add s (n_mul (A i j) (A i j))) s (enum 'I_n)) (n_zero S) (enum 'I_m))].
Proof. exact: norms_eval_L. Qed.
Print Assumptions norms_eval.

(** C30: the vector norms panic on every matrix with more than one column, whatever the element type. *)
Theorem norms_panic : forall (S : scalar) powf p m n (A : 'M[S]_(m.+1, n.+2)),
  [/\ vector_euclidean_norm (mat_of A) = Err Panic, length_ (mat_of A) = Err Panic,
      vector_2_norm (mat_of A) = Err Panic, vector_1_norm (mat_of A) = Err Panic &
      vector_inf_norm (mat_of A) = Err Panic /\ vector_p_norm powf (mat_of A) p = Err Panic].
Proof. exact: norms_panic_L. Qed.
Print Assumptions norms_panic.

(** C30: exact values. *)
Theorem norms_ok : forall (F : rcfType) (eps tiny : F) m n (A : 'M[F]_(m, n)) (v : 'cV[F]_m.+1),
  let S := exactE eps tiny in
  [/\ vector_euclidean_norm (S:=S) (mat_of v) = Ok (Num.sqrt (\sum_i v i 0 ^+ 2)),
      vector_1_norm (S:=S) (mat_of v) = Ok (\sum_i `|v i 0|) &
      frobenius_norm (S:=S) (mat_of A) = Ok (Num.sqrt (\sum_i \sum_j A i j ^+ 2))].
Proof. exact: norms_ok_L. Qed.
Print Assumptions norms_ok.

(** C30: vector_inf_norm is the largest absolute value. *)
Theorem inf_norm_ok : forall (F : rcfType) (eps tiny : F) m (v : 'cV[F]_m.+1),
  exists x : F, [/\ vector_inf_norm (S:=exactE eps tiny) (mat_of v) = Ok x,
    (exists i, x = `|v i 0|) & forall i, `|v i 0| <= x].
Proof. exact: inf_norm_ok_L. Qed.
Print Assumptions inf_norm_ok.

(** C30: the four norms satisfy the norm axioms. *)
Theorem norms_axioms : forall (F : rcfType) (eps tiny : F) m n,
  let S := exactE eps tiny in
  [/\ exists N : 'cV[F]_m.+1 -> F, is_norm N /\ forall v, vector_euclidean_norm (S:=S) (mat_of v) = Ok (N v),
      exists N : 'cV[F]_m.+1 -> F, is_norm N /\ forall v, vector_1_norm (S:=S) (mat_of v) = Ok (N v),
      exists N : 'cV[F]_m.+1 -> F, is_norm N /\ forall v, vector_inf_norm (S:=S) (mat_of v) = Ok (N v) &
      exists N : 'M[F]_(m, n) -> F, is_norm N /\ forall A, frobenius_norm (S:=S) (mat_of A) = Ok (N A)].
Proof. exact: norms_axioms_L. Qed.
Print Assumptions norms_axioms.

(** C30: vector_p_norm for a natural exponent p, given a powf that computes natural powers and p-th roots of non-negative numbers. *)
Theorem p_norm_ok : forall (F : rcfType) (eps tiny : F) (powf : F -> F -> F) m (v : 'cV[F]_m.+1) p,
  (0 < p)%N ->
  (forall x, powf x p%:R = x ^+ p) ->
  (forall x, 0 <= x -> 0 <= powf x (1 / p%:R) /\ powf x (1 / p%:R) ^+ p = x) ->
  exists r, [/\ vector_p_norm (S:=exactE eps tiny) powf (mat_of v) p%:R = Ok r, 0 <= r & r ^+ p = \sum_i `|v i 0| ^+ p].
Proof. exact: p_norm_ok_L. Qed.
Print Assumptions p_norm_ok.

(** ** C31 symmetry test *)

(** C31, any element type: a square matrix is reported symmetric iff approx_eq accepts every pair below/above the diagonal; other shapes are not symmetric. Never a panic. *)
Theorem is_symmetric_eval : forall (S : scalar) m n (A : 'M[S]_(m.+1, n.+1)) (B : 'M[S]_n.+1),
  [/\ m <> n -> is_symmetric (mat_of A) = Ok false,
      m <> n -> is_non_symmetric (mat_of A) = Ok true,
      is_symmetric (mat_of B) =
        Ok [forall i : 'I_n.+1, forall j : 'I_n.+1, (j < i)%N ==> s_ltb (s_abs (n_sub (B i j) (B j i))) (s_approx S)] &
      is_non_symmetric (mat_of B) =
        Ok (~~ [forall i : 'I_n.+1, forall j : 'I_n.+1, (j < i)%N ==> s_ltb (s_abs (n_sub (B i j) (B j i))) (s_approx S)])].
Proof. exact: is_symmetric_eval_L. Qed.
Print Assumptions is_symmetric_eval.

(** C31 in exact arithmetic. *)
Theorem is_symmetric_ok : forall (F : rcfType) (eps tiny : F) n (A : 'M[F]_n.+1),
  exists b, is_symmetric (S:=exactE eps tiny) (mat_of A) = Ok b /\
    (b <-> forall i j, `|A i j - A j i| < (10 ^ 6)%:R^-1).
Proof. exact: is_symmetric_ok_L. Qed.
Print Assumptions is_symmetric_ok.

(** C31: a symmetric matrix is always reported symmetric. *)
Theorem is_symmetric_sound : forall (F : rcfType) (eps tiny : F) n (A : 'M[F]_n.+1),
  A^T = A -> is_symmetric (S:=exactE eps tiny) (mat_of A) = Ok true.
Proof. exact: is_symmetric_sound_L. Qed.
Print Assumptions is_symmetric_sound.

(** ** C32 approx_eq *)

(** C32, any element type. *)
Theorem approx_eq_eval : forall (S : scalar) m n m' n' (A B : 'M[S]_(m.+1, n.+1)) (C : 'M[S]_(m'.+1, n'.+1)),
  approx_eq (mat_of A) (mat_of B) =
    Ok [forall i, forall j, s_ltb (s_abs (n_sub (A i j) (B i j))) (s_approx S)] /\
  ((m, n) <> (m', n') -> approx_eq (mat_of A) (mat_of C) = Ok false).
Proof. exact: approx_eq_eval_L. Qed.
Print Assumptions approx_eq_eval.

(** C32 in exact arithmetic: what it means, and it is reflexive and symmetric. *)
Theorem approx_eq_ok : forall (F : rcfType) (eps tiny : F) m n (A B : 'M[F]_(m.+1, n.+1)),
  let S := exactE eps tiny in
  (exists b, approx_eq (S:=S) (mat_of A) (mat_of B) = Ok b /\ (b <-> forall i j, `|A i j - B i j| < (10 ^ 6)%:R^-1)) /\
  approx_eq (S:=S) (mat_of A) (mat_of A) = Ok true /\
  approx_eq (S:=S) (mat_of A) (mat_of B) = approx_eq (S:=S) (mat_of B) (mat_of A).
Proof. exact: approx_eq_ok_L. Qed.
Print Assumptions approx_eq_ok.

(** C32: approx_eq is not transitive, for any shape. *)
Theorem approx_eq_trans_refuted : forall (F : rcfType) (eps tiny : F) m n,
  exists A B C : 'M[F]_(m.+1, n.+1), let S := exactE eps tiny in
  [/\ approx_eq (S:=S) (mat_of A) (mat_of B) = Ok true, approx_eq (S:=S) (mat_of B) (mat_of C) = Ok true &
      approx_eq (S:=S) (mat_of A) (mat_of C) = Ok false].
Proof. exact: approx_eq_trans_refuted_L. Qed.
Print Assumptions approx_eq_trans_refuted.

(** ** C33 equality *)

(** C33, any element type with any ==: equal iff same shape and all elements ==. *)
Theorem mat_eq_ok : forall T (e : T -> T -> bool) m n m' n' (A B : 'M[T]_(m.+1, n.+1)) (C : 'M[T]_(m'.+1, n'.+1)),
  mat_eq e (mat_of A) (mat_of B) = [forall i, forall j, e (A i j) (B i j)] /\
  ((m, n) <> (m', n') -> mat_eq e (mat_of A) (mat_of C) = false).
Proof. exact: mat_eq_ok_L. Qed.
Print Assumptions mat_eq_ok.

(** C33: when the elements' == decides equality, so does the matrices' ==. *)
Theorem mat_eq_decides : forall (T : eqType) m n (A B : 'M[T]_(m.+1, n.+1)),
  mat_eq (fun x y => x == y) (mat_of A) (mat_of B) <-> A = B.
Proof. exact: mat_eq_decides_L. Qed.
Print Assumptions mat_eq_decides.

(** ** C34 hypot *)

(** C34 *)
Theorem hypot_ok : forall (F : rcfType) (eps tiny a b : F),
  hypot (S:=exactE eps tiny) a b = Ok (Num.sqrt (a ^+ 2 + b ^+ 2)).
Proof. exact: hypot_ok_L. Qed.
Print Assumptions hypot_ok.

(** the hypotheses of p_norm_ok are met for p = 2 *)
Example p_norm_hyps (F : rcfType) : let powf (x y : F) := if y == 2%:R then x ^+ 2 else Num.sqrt x in
  (forall x, powf x 2%:R = x ^+ 2) /\
  (forall x, 0 <= x -> 0 <= powf x (1 / 2%:R) /\ powf x (1 / 2%:R) ^+ 2 = x).
Proof.
rewrite /=; split=> [x|x x0]; first by rewrite eqxx.
have -> : (1 / 2%:R == 2%:R :> F) = false.
  apply/negP => /eqP /(congr1 (fun z => z * 2%:R)); rewrite mulfVK ?pnatr_eq0 // -natrM => /eqP.
  by rewrite -[1]/(1%:R) eqr_nat.
by rewrite sqrtr_ge0 sqr_sqrtr.
Qed.
(** length of (3, 4) is 5 *)
Example length_3_4 (F : rcfType) (eps tiny : F) :
  vector_euclidean_norm (S:=exactE eps tiny) (Mat 2 [:: 3%:R; 4%:R]) = Ok 5%:R.
Proof.
have -> : Mat 2 [:: 3%:R; 4%:R] = mat_of (\matrix_(i < 2, j < 1) (if i == 0 then 3%:R else 4%:R)) :> mat F.
  apply: (@rep_mat_of F 2 1 _ (fun i _ => if i == 0%N then 3%:R else 4%:R)); last by move=> i j; rewrite mxE.
  split=> //; split=> // i j; by case: i => [|[|i]] // _; case: j.
have [-> _ _] := @norms_ok F eps tiny 1 0 0 (\matrix_(i < 2, j < 1) (if i == 0 then 3%:R else 4%:R)).
congr Ok; rewrite big_ord_recl big_ord1 !mxE /= -!natrX -natrD.
by rewrite -[(3 ^ 2 + 4 ^ 2)%N]/(5 ^ 2)%N natrX sqrtr_sqr ger0_norm ?ler0n.
Qed.
(** a matrix that is not symmetric but is reported so *)
Example nearly_symmetric (F : rcfType) (eps tiny : F) :
  let A := \matrix_(i < 2, j < 2) ((i < j)%N%:R / (10 ^ 7)%:R : F) in
  A^T <> A /\ is_symmetric (S:=exactE eps tiny) (mat_of A) = Ok true.
Proof.
move=> A; split.
  move/matrixP/(_ 0 1); rewrite !mxE /= mul0r mul1r => /esym/eqP; by rewrite invr_eq0 pnatr_eq0.
have [b [-> Hb]] := @is_symmetric_ok F eps tiny 1 A; congr Ok; apply/Hb => i j; rewrite !mxE -mulrBl normrM.
rewrite [X in _ * X < _]gtr0_norm ?invr_gt0 ?ltr0n //; apply: (@le_lt_trans _ _ (10 ^ 7)%:R^-1).
  rewrite ler_pimull ?invr_ge0 ?ler0n //; case: ltngtP => _; by rewrite ?subrr ?subr0 ?sub0r ?normrN ?normr1 ?normr0 ?ler01.
rewrite ltf_pinv ?posrE ?ltr0n // ltr_nat; by rewrite ltn_exp2l.
Qed.
