(** * C16: programs over several matrices

    Only property theorems, each closed by a lemma of OpsThms.v, and the
    Examples showing that their hypotheses are met.  Generated from OpsThms.v by
    tools/genprops.py. *)
From mathcomp Require Import all_ssreflect all_algebra zify.
From Verif Require Import Base Scalar Hoare ModelMatrix Spec SpecOps MatrixProofs MatrixProofs2 MtProofs MatrixThms.
From Verif Require Import OpsThms.

Set Implicit Arguments.
Unset Strict Implicit.
Unset Printing Implicit Defensive.



(** ** C16 programs over matrix variables *)

(** C16: any program, started in variables that hold constructed matrices, finishes exactly when its abstract
    meaning does, and then every variable again holds the abstract value (shape, data length and every element);
    it panics exactly when the abstract meaning panics.  The only excluded programs are those in which some call
    produces a matrix without rows or columns.  The element type is arbitrary; its division may only fail by a
    panic. *)
Theorem program_refines : forall (N : numops) (gs : nat -> nat -> N) (cs : seq (call N)) (s : store N) (a : astore N),
  (forall (x y : N) e, n_div x y = Err e -> e = Panic) ->
  holds_all s a ->
  match run_a a cs with
  | Finished a' => exists2 s', run_c gs s cs = Ok s' & holds_all s' a'
  | Panicked => run_c gs s cs = Err Panic
  | LeftDomain => True
  end.
Proof. exact: program_refines_L. Qed.
Print Assumptions program_refines.

(** C16: the shape invariant: whatever prefix of a program has run, each variable has data of length rows * cols, both positive. *)
Theorem program_invariant : forall (N : numops) (gs : nat -> nat -> N) (cs : seq (call N)) (s s' : store N) (a : astore N),
  (forall (x y : N) e, n_div x y = Err e -> e = Panic) ->
  holds_all s a -> run_a a cs <> LeftDomain N -> run_c gs s cs = Ok s' ->
  forall k, exists n, [/\ cols (s' k) = Ok n, 0 < rows (s' k), 0 < n & size (get_data (s' k)) = rows (s' k) * n].
Proof. exact: program_invariant_L. Qed.
Print Assumptions program_invariant.

(** C16: what the constructors return can be used as an initial variable. *)
Theorem constructed_holds : forall (N : numops) m n (A : 'M[N]_(m.+1, n.+1)),
  holds (mat_of A) (AMat m.+1 n.+1 (fun i j => nth (n_zero N) (get_data (mat_of A)) (i * n.+1 + j))).
Proof. exact: constructed_holds_L. Qed.
Print Assumptions constructed_holds.

(** Hypotheses are met: integer division only fails by a panic, every
    variable initially holds the 1 x 2 matrix (2 3), and this program
    finishes; running it gives X1 = X0^T (2 x 1), X2 = X1 * X0 (2 x 2),
    X2 := X2 + X2, and the element (1, 0) of X2 is 12. *)
Lemma int_div_panics (x y : int_num) e : n_div x y = Err e -> e = Panic.
Proof. by rewrite /=; case: eqP => // _ [<-]. Qed.
Definition ops_A : mat int_num := mat_of (\matrix_(i < 1, j < 2) (2 + j : int))%R.
Definition ops_prog : seq (call int_num) := [:: CT _ 1 0; CMul _ 2 1 0; CMadd _ 2 2].
Example program_hyps : holds_all (fun _ => ops_A) (fun _ => AMat 1 2 (fun i j => nth (n_zero int_num) (get_data ops_A) (i * 2 + j))) /\
  exists a', run_a (fun _ => AMat 1 2 (fun i j => nth (n_zero int_num) (get_data ops_A) (i * 2 + j))) ops_prog = Finished a'.
Proof. by split; [move=> k; exact: constructed_holds_L | eexists]. Qed.
