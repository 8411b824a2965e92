(** * SpecDecomp: vocabulary of the statements about SVD and eigenvalues. *)
From mathcomp Require Import all_ssreflect all_algebra.

Set Implicit Arguments.
Unset Strict Implicit.
Unset Printing Implicit Defensive.
Import GRing.Theory Num.Theory.
Local Open Scope ring_scope.

Section Spec.
Variable F : rcfType.

(** the transpose is the inverse *)
Definition orthogonal n (V : 'M[F]_n) : Prop := V^T *m V = 1%:M /\ V *m V^T = 1%:M.

(** the Frobenius norm *)
Definition fro m n (A : 'M[F]_(m, n)) : F := Num.sqrt (\sum_i \sum_j A i j ^+ 2).

(** the square diagonal matrix with the entries of a list *)
Definition diag_of n (d : seq F) : 'M[F]_n := \matrix_(i, j) (nth 0 d i *+ (i == j)).

(** the rectangular diagonal matrix with the entries of a list *)
Definition rdiag m n (d : seq F) : 'M[F]_(m, n) :=
  \matrix_(i, j) (if i == j :> nat then nth 0 d i else 0).

(** the number of entries of a list above a threshold *)
Definition count_above (t : F) (s : seq F) : nat := count (fun x => t < x) s.

(** symmetric tridiagonal matrix: diagonal d, element (i-1,i) and (i,i-1) is e_i *)
Definition tridiag n (d e : nat -> F) : 'M[F]_n :=
  \matrix_(i, j) (if i == j then d i else if (j == i.+1 :> nat) then e j
                  else if (i == j.+1 :> nat) then e i else 0).

(** zero below the first subdiagonal *)
Definition hessenberg n (H : 'M[F]_n) : Prop :=
  forall i j : 'I_n, (j.+1 < i)%N -> H i j = 0.

(** ** Eigenvalues d_i + i e_i of a real matrix *)

(** complex eigenvalues come as adjacent conjugate pairs, the one with positive
    imaginary part first *)
Definition conj_pairs n (d e : seq F) : Prop :=
  [/\ size d = n, size e = n & forall i, (i < n)%N ->
    [\/ nth 0 e i = 0,
        [/\ 0 < nth 0 e i, (i.+1 < n)%N, nth 0 d i.+1 = nth 0 d i & nth 0 e i.+1 = - nth 0 e i] |
        [/\ nth 0 e i < 0, (0 < i)%N, nth 0 d i.-1 = nth 0 d i & nth 0 e i.-1 = - nth 0 e i]]].

(** no two conjugate pairs are the same *)
Definition distinct_pairs n (d e : seq F) : Prop := forall i j, (i < n)%N -> (j < n)%N ->
  0 < nth 0 e i -> 0 < nth 0 e j -> nth 0 d i = nth 0 d j -> nth 0 e i = nth 0 e j -> i = j.

(** block diagonal matrix: [d] for a real eigenvalue, [d e; -e d] for a pair d + ie, d - ie *)
Definition pair_blocks n (d e : seq F) : 'M[F]_n :=
  \matrix_(i, j) (if i == j then nth 0 d i
                  else if ((j == i.+1 :> nat) && (0 < nth 0 e i))
                       || ((i == j.+1 :> nat) && (nth 0 e i < 0)) then nth 0 e i else 0).

(** the polynomial whose roots are these numbers: (X - d) for a real one,
    (X - d)^2 + e^2 = (X - (d + ie)) (X - (d - ie)) for a pair *)
Definition eig_poly n (d e : seq F) : {poly F} :=
  \prod_(i < n) (if nth 0 e i == 0 then 'X - (nth 0 d i)%:P
                 else if 0 < nth 0 e i then ('X - (nth 0 d i)%:P) ^+ 2 + (nth 0 e i ^+ 2)%:P
                 else 1).

End Spec.
