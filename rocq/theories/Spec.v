(** * Spec: what the Rust values mean, independently of how the methods work.

    A mathematical matrix is mathcomp's ['M[T]_(m, n)].  [mat_of A] is the
    Rust value that represents it: m rows, and the elements row by row. *)
From mathcomp Require Import all_ssreflect all_algebra zify.
From mathcomp Require Import fingroup perm.
From Verif Require Import Base Hoare ModelMatrix.

Set Implicit Arguments.
Unset Strict Implicit.
Unset Printing Implicit Defensive.

Definition mat_of T m n (A : 'M[T]_(m, n)) : mat T :=
  Mat m [seq A i j | i <- enum 'I_m, j <- enum 'I_n].

(** The values the public constructors can produce (matrix.rs:26-40): at
    least one row and one column, and a rectangular data vector. *)
Definition wf T (M : mat T) : bool :=
  [&& 0 < no_rows M, 0 < size (data M) & no_rows M %| size (data M)].

(** A permutation as the index list the API uses (get_piv, permute_rows): entry i is s(i) *)
Definition perm_list m (s : 'S_m) : seq nat := [seq val (s i) | i <- enum 'I_m].

(** ** Views by functions on nat indices (proof device) *)
Section View.
Variable T : Type.

(** [M] has m rows, n columns and element (i,j) is [f i j]. *)
Definition rep m n (M : mat T) (f : nat -> nat -> T) : Prop :=
  no_rows M = m /\ repr m n (data M) f.

(** nat-indexed view of a matrix, with a default value outside. *)
Definition fn (x0 : T) m n (A : 'M[T]_(m, n)) (i j : nat) : T :=
  match insub i, insub j with
  | Some i', Some j' => A i' j'
  | _, _ => x0
  end.

Lemma fnE x0 m n (A : 'M[T]_(m, n)) (i : 'I_m) (j : 'I_n) : fn x0 A i j = A i j.
Proof. by rewrite /fn !valK. Qed.

Lemma fn_lt x0 m n (A : 'M[T]_(m, n)) i j (hi : i < m) (hj : j < n) :
  fn x0 A i j = A (Ordinal hi) (Ordinal hj).
Proof. by rewrite -[RHS](fnE x0). Qed.

Lemma size_mat_of m n (A : 'M[T]_(m, n)) : size (data (mat_of A)) = m * n.
Proof. by rewrite size_allpairs !size_enum_ord. Qed.

Lemma mat_of_vget m n (A : 'M[T]_(m, n)) (i : 'I_m) (j : 'I_n) :
  vget (data (mat_of A)) (i * n + j) = Ok (A i j).
Proof.
have hi := ltn_ord i; have hj := ltn_ord j.
rewrite (vgetE (A i j)) ?size_mat_of ?idx_lt //=.
have gen : forall (s : seq 'I_m) k x0, k < size s ->
    nth (A i j) [seq A i j | i <- s, j <- enum 'I_n] (k * n + j) = A (nth x0 s k) j.
  elim=> [|a s IH] [|k] x0 //= hk; rewrite nth_cat size_map size_enum_ord.
    by rewrite mul0n add0n hj (nth_map j) ?size_enum_ord // nth_ord_enum.
  by rewrite ltnNge mulSn -addnA leq_addr /= addKn; apply: IH.
by rewrite (gen _ _ i) ?size_enum_ord // nth_ord_enum.
Qed.

Lemma mat_of_rep x0 m n (A : 'M[T]_(m, n)) : rep m n (mat_of A) (fn x0 A).
Proof.
split=> //; split=> [|i j hi hj]; first exact: size_mat_of.
by rewrite (fn_lt _ _ hi hj) -(mat_of_vget A).
Qed.

Lemma rep_mat_of m n M f (A : 'M[T]_(m, n)) :
  rep m n M f -> (forall (i : 'I_m) (j : 'I_n), f i j = A i j) -> M = mat_of A.
Proof.
case: M => r d [/= -> H] fA; congr Mat.
case: H => sz H.
apply: vget_ext; first by rewrite size_mat_of.
move=> k; rewrite sz => hk; have [e hi hj] := idx_divmod hk.
rewrite e (H _ _ hi hj) (fA (Ordinal hi) (Ordinal hj)).
by rewrite -(mat_of_vget A).
Qed.

Lemma rep_ext m n M f f' : rep m n M f ->
  (forall i j, i < m -> j < n -> f i j = f' i j) -> rep m n M f'.
Proof. by case=> e H ff'; split=> //; apply: repr_ext H ff'. Qed.

Lemma mat_of_inj m n (A B : 'M[T]_(m, n)) : mat_of A = mat_of B -> A = B.
Proof.
move=> e; apply/matrixP => i j.
by have := mat_of_vget B i j; rewrite -e mat_of_vget => -[].
Qed.

Lemma rep_matrix m n M f : rep m n M f -> M = mat_of (\matrix_(i < m, j < n) f i j)%R.
Proof. by move=> H; apply: rep_mat_of H _ => i j; rewrite mxE. Qed.

Lemma wp_mat_of m n (c : res (mat T)) f (A : 'M[T]_(m, n)) :
  wp c (fun M => rep m n M f) -> (forall (i : 'I_m) (j : 'I_n), f i j = A i j) ->
  c = Ok (mat_of A).
Proof. by case/wp_ex => M -> H fA; congr Ok; apply: rep_mat_of H fA. Qed.

(** Every value that satisfies the shape invariant represents a matrix. *)
Lemma mat_of_surj (M : mat T) : wf M ->
  exists m n (A : 'M[T]_(m.+1, n.+1)), M = mat_of A.
Proof.
case: M => r d /and3P[/= r0 d0 /dvdnP[n e]].
case: r r0 e => // m _; case: n => [|n] e; first by rewrite e in d0.
case: d d0 e => // x0 d _ e.
exists m, n; exists (\matrix_(i < m.+1, j < n.+1) nth x0 (x0 :: d) (i * n.+1 + j)%N)%R.
apply: (@rep_mat_of m.+1 n.+1 _ (fun i j => nth x0 (x0 :: d) (i * n.+1 + j))).
  by split=> //; apply: repr_nth; rewrite /= in e *; rewrite e mulnC.
by move=> i j; rewrite mxE.
Qed.

Lemma wf_mat_of m n (A : 'M[T]_(m, n)) : wf (mat_of A) = (0 < m) && (0 < n).
Proof.
rewrite /wf size_mat_of /= muln_gt0 dvdn_mulr // andbT.
by case: m {A} => [|m].
Qed.

Lemma rep_wf m n M f : rep m n M f -> 0 < m -> 0 < n -> wf M.
Proof. by move=> /rep_matrix -> m0 n0; rewrite wf_mat_of m0. Qed.

(** columns *)
Lemma rep_cols m n M f : rep m n M f -> 0 < m -> cols M = Ok n.
Proof. by case=> e [sz _] m0; rewrite /cols /udiv e -leqn0 leqNgt m0 sz mulKn. Qed.

Lemma rep_cols0 n M f : rep 0 n M f -> cols M = Err Panic.
Proof. by case=> e _; rewrite /cols /udiv e. Qed.

Lemma rep_Mat m n d f : repr m n d f -> rep m n (Mat m d) f.
Proof. by []. Qed.

Lemma rep_no_rows m n M f : rep m n M f -> no_rows M = m.
Proof. by case. Qed.

Lemma rep_size m n M f : rep m n M f -> size (data M) = m * n.
Proof. by case=> _; apply: repr_size. Qed.

Lemma rep_vget m n M f i j : rep m n M f -> i < m -> j < n ->
  vget (data M) (i * n + j) = Ok (f i j).
Proof. by case=> _; apply: repr_get. Qed.

Lemma rep_get m n M f i j : rep m n M f ->
  get M i j = if (i < m) && (j < n) then Ok (f i j) else Err Panic.
Proof.
move=> H; rewrite /get (rep_no_rows H); case: (ltnP i m) => //= im.
rewrite (rep_cols H) /=; last by lia.
by rewrite /require; case: ifP => // jn; rewrite (rep_vget H).
Qed.

Lemma rep_get_ref m n M f i j : rep m n M f ->
  get_ref M i j = if (i < m) && (j < n) then Ok (f i j) else Err Panic.
Proof. exact: rep_get. Qed.

End View.

(** ** Shapes of triangular factors *)
Section Triangular.
Import GRing.Theory.
Local Open Scope ring_scope.
Variable R : ringType.

(** ones on the diagonal, zeros above it *)
Definition unit_lower m n (L : 'M[R]_(m, n)) : Prop :=
  forall (i : 'I_m) (j : 'I_n), ((i < j)%N -> L i j = 0) /\ (i = j :> nat -> L i j = 1).
(** zeros below the diagonal *)
Definition upper m n (U : 'M[R]_(m, n)) : Prop :=
  forall (i : 'I_m) (j : 'I_n), (j < i)%N -> U i j = 0.
(** zeros above the diagonal *)
Definition lower m n (L : 'M[R]_(m, n)) : Prop :=
  forall (i : 'I_m) (j : 'I_n), (i < j)%N -> L i j = 0.
(** columns of length one, orthogonal to each other *)
Definition orthonormal_cols m n (Q : 'M[R]_(m, n)) : Prop := Q^T *m Q = 1%:M.
End Triangular.

(** ** Positive definite matrices and their Cholesky factors *)
Section PosDef.
Import GRing.Theory Num.Theory.
Local Open Scope ring_scope.
Variable F : rcfType.

(** symmetric, and x A x^T > 0 for every non-zero row vector x *)
Definition posdef n (A : 'M[F]_n) : Prop :=
  A^T = A /\ forall x : 'rV[F]_n, x != 0 -> 0 < (x *m A *m x^T) 0 0.

(** L is lower triangular with positive diagonal and L L^T = A *)
Definition chol_factor n (A L : 'M[F]_n) : Prop :=
  [/\ lower L, (forall i, 0 < L i i) & L *m L^T = A].
End PosDef.

(** ** The Moore-Penrose inverse and Householder reflections *)
Section Penrose.
Import GRing.Theory.
Local Open Scope ring_scope.
Variable F : fieldType.

(** the four Penrose conditions (real case) *)
Definition moore_penrose m n (A : 'M[F]_(m, n)) (X : 'M[F]_(n, m)) : Prop :=
  [/\ A *m X *m A = A, X *m A *m X = X, (A *m X)^T = A *m X & (X *m A)^T = X *m A].

(** the reflection in the hyperplane orthogonal to v: I - 2 v v^T / (v^T v); the identity if v = 0 *)
Definition reflector m (v : 'cV[F]_m) : 'M[F]_m :=
  if v == 0 then 1%:M else 1%:M - (2%:R / (v^T *m v) 0 0) *: (v *m v^T).

(** the product, in order, of the reflections given by the columns of H *)
Definition reflect_cols m n (H : 'M[F]_(m, n)) : 'M[F]_m :=
  \big[mulmx/1%:M]_(j < n) reflector (col j H).
End Penrose.

(** ** Norms *)
Section Norm.
Import GRing.Theory Num.Theory.
Local Open Scope ring_scope.
Variable F : rcfType.
(** the axioms of a norm on m x n matrices *)
Definition is_norm m n (N : 'M[F]_(m, n) -> F) : Prop :=
  [/\ forall A, 0 <= N A, forall A, N A = 0 <-> A = 0,
      forall k A, N (k *: A) = `|k| * N A & forall A B, N (A + B) <= N A + N B].
End Norm.
