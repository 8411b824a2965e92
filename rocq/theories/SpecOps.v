(** * SpecOps: programs over several matrices, for C16.

    A program is a list of method calls on numbered matrix variables.  Its
    abstract meaning works on mathematical matrices (a shape and a function of
    two indices); its concrete meaning calls the modelled methods. *)
From mathcomp Require Import all_ssreflect all_algebra.
From Verif Require Import Base Scalar ModelMatrix.

Set Implicit Arguments.
Unset Strict Implicit.
Unset Printing Implicit Defensive.

Section Ops.
Variable N : numops.

(** One method call.  [x], [y], [d] are variables; mutating calls change [x],
    the others assign their result to [d]. *)
Inductive call :=
  (* mutating *)
  | CSet (x i j : nat) (v : N)                (* x.set(i, j, v) *)
  | CMmap (x : nat) (f : N -> N)              (* x.mmap(f) *)
  | CMneg (x : nat) | CMscale (x : nat) (k : N)
  | CMadd (x y : nat) | CMsub (x y : nat) | CMelemMul (x y : nat) | CMelemDiv (x y : nat)
  | CMmul (x y : nat) | CMt (x : nat)
  (* producing a new matrix *)
  | CClone (d x : nat)
  | CNew (d r c : nat) (v : seq N) | CVector (d : nat) (v : seq N) | CRowVector (d : nat) (v : seq N)
  | CId (d r c : nat) | CZero (d r c : nat) | CDiag (d : nat) (v : seq N) | CBlockDiag (d r c : nat) (v : seq N)
  | CMap (d x : nat) (f : N -> N) | CReduce (d x : nat) (init : seq N) (f : N -> N -> N)
  | CNeg (d x : nat) | CScale (d x : nat) (k : N)
  | CAdd (d x y : nat) | CSub (d x y : nat) | CElemMul (d x y : nat) | CElemDiv (d x y : nat)
  | CMul (d x y : nat) | CT (d x : nat) | CCr (d x y : nat) | CCb (d x y : nat)
  | CMinor (d x i j : nat) | CGetColumn (d x j : nat)
  | CPermuteRows (d x : nat) (ks : seq nat) | CPermuteColumns (d x : nat) (ks : seq nat)
  | CFilterRows (d x : nat) (p : nat -> bool) | CFilterColumns (d x : nat) (p : nat -> bool)
  | CSelectRows (d x : nat) (sel : seq bool) | CSelectColumns (d x : nat) (sel : seq bool).

(** ** Concrete meaning: the modelled method; [g] is the memory it is given *)
Definition store := nat -> mat N.
Definition update A (s : nat -> A) (d : nat) (v : A) : nat -> A :=
  fun k => if k == d then v else s k.

Definition call_c (g : nat -> N) (s : store) (c : call) : res store :=
  match c with
  | CSet x i j v => M <-- set (s x) i j v ;; Ok (update s x M)
  | CMmap x f => M <-- mmap f (s x) ;; Ok (update s x M)
  | CMneg x => M <-- mneg (s x) ;; Ok (update s x M)
  | CMscale x k => M <-- mscale (s x) k ;; Ok (update s x M)
  | CMadd x y => M <-- madd (s x) (s y) ;; Ok (update s x M)
  | CMsub x y => M <-- msub (s x) (s y) ;; Ok (update s x M)
  | CMelemMul x y => M <-- melem_mul (s x) (s y) ;; Ok (update s x M)
  | CMelemDiv x y => M <-- melem_div (s x) (s y) ;; Ok (update s x M)
  | CMmul x y => M <-- mmul g (s x) (s y) ;; Ok (update s x M)
  | CMt x => M <-- mt (s x) ;; Ok (update s x M)
  | CClone d x => Ok (update s d (s x))
  | CNew d r c v => M <-- new r c v ;; Ok (update s d M)
  | CVector d v => M <-- vector v ;; Ok (update s d M)
  | CRowVector d v => M <-- row_vector v ;; Ok (update s d M)
  | CId d r c => M <-- id g r c ;; Ok (update s d M)
  | CZero d r c => M <-- zero g r c ;; Ok (update s d M)
  | CDiag d v => M <-- diag g v ;; Ok (update s d M)
  | CBlockDiag d r c v => M <-- block_diag g r c v ;; Ok (update s d M)
  | CMap d x f => M <-- map_ g f (s x) ;; Ok (update s d M)
  | CReduce d x i f => M <-- reduce i f (s x) ;; Ok (update s d M)
  | CNeg d x => M <-- neg g (s x) ;; Ok (update s d M)
  | CScale d x k => M <-- scale g (s x) k ;; Ok (update s d M)
  | CAdd d x y => M <-- add g (s x) (s y) ;; Ok (update s d M)
  | CSub d x y => M <-- sub g (s x) (s y) ;; Ok (update s d M)
  | CElemMul d x y => M <-- elem_mul g (s x) (s y) ;; Ok (update s d M)
  | CElemDiv d x y => M <-- elem_div g (s x) (s y) ;; Ok (update s d M)
  | CMul d x y => M <-- mul g (s x) (s y) ;; Ok (update s d M)
  | CT d x => M <-- t g (s x) ;; Ok (update s d M)
  | CCr d x y => M <-- cr g (s x) (s y) ;; Ok (update s d M)
  | CCb d x y => M <-- cb g (s x) (s y) ;; Ok (update s d M)
  | CMinor d x i j => M <-- minor g (s x) i j ;; Ok (update s d M)
  | CGetColumn d x j => M <-- get_column g (s x) j ;; Ok (update s d M)
  | CPermuteRows d x ks => M <-- permute_rows g (s x) ks ;; Ok (update s d M)
  | CPermuteColumns d x ks => M <-- permute_columns g (s x) ks ;; Ok (update s d M)
  | CFilterRows d x p => M <-- filter_rows g (fun _ => p) (s x) ;; Ok (update s d M)
  | CFilterColumns d x p => M <-- filter_columns g (fun _ => p) (s x) ;; Ok (update s d M)
  | CSelectRows d x sel => M <-- select_rows g (s x) sel ;; Ok (update s d M)
  | CSelectColumns d x sel => M <-- select_columns g (s x) sel ;; Ok (update s d M)
  end.

(** Call number k is given the memory [gs k]. *)
Fixpoint run_c (gs : nat -> nat -> N) (s : store) (cs : seq call) : res store :=
  match cs with
  | [::] => Ok s
  | c :: cs' => s' <-- call_c (gs 0) s c ;; run_c (fun k => gs k.+1) s' cs'
  end.

(** ** Abstract meaning *)
Record amat := AMat { am : nat; an : nat; af : nat -> nat -> N }.
Definition astore := nat -> amat.

(** Outcome of a call: a new value for one variable, a panic, or a matrix
    without rows or without columns (which the constructors reject, but which
    id, zero, permute, filter and select can produce). *)
Inductive outcome := Assign (d : nat) (v : amat) | Panics | Empty.

Definition mk (d m n : nat) (f : nat -> nat -> N) : outcome :=
  if (0 < m) && (0 < n) then Assign d (AMat m n f) else Empty.

Definition zipa (d : nat) (h : N -> N -> N) (a b : amat) : outcome :=
  if (am a == am b) && (an a == an b) then mk d (am a) (an a) (fun i j => h (af a i j) (af b i j)) else Panics.

(** element-wise division panics as soon as one of the divisions does *)
Definition div_or (x y : N) : N := if n_div x y is Ok z then z else x.
Definition div_fails (x y : N) : bool := if n_div x y is Ok _ then false else true.
Definition diva (d : nat) (a b : amat) : outcome :=
  if (am a == am b) && (an a == an b) then
    if has (fun i => has (fun j => div_fails (af a i j) (af b i j)) (iota 0 (an a))) (iota 0 (am a)) then Panics
    else mk d (am a) (an a) (fun i j => div_or (af a i j) (af b i j))
  else Panics.

(** row times column: 0 + a_0 b_0 + a_1 b_1 + ... *)
Definition prod_entry (a b : amat) (i j : nat) : N :=
  foldl (fun s k => n_add s (n_mul (af a i k) (af b k j))) (n_zero N) (iota 0 (an a)).
Definition mula (d : nat) (a b : amat) : outcome :=
  if an a == am b then mk d (am a) (an b) (prod_entry a b) else Panics.

(** index of the k-th element that satisfies p *)
Definition picked (p : nat -> bool) (n : nat) : seq nat := [seq k <- iota 0 n | p k].

Definition call_a (s : astore) (c : call) : outcome :=
  let z := n_zero N in
  match c with
  | CSet x i j v => let a := s x in
      if (i < am a) && (j < an a) then
        mk x (am a) (an a) (fun i' j' => if (i' == i) && (j' == j) then v else af a i' j')
      else Panics
  | CMmap x f => mk x (am (s x)) (an (s x)) (fun i j => f (af (s x) i j))
  | CMap d x f => mk d (am (s x)) (an (s x)) (fun i j => f (af (s x) i j))
  | CMneg x => mk x (am (s x)) (an (s x)) (fun i j => n_neg (af (s x) i j))
  | CNeg d x => mk d (am (s x)) (an (s x)) (fun i j => n_neg (af (s x) i j))
  | CMscale x k => mk x (am (s x)) (an (s x)) (fun i j => n_mul k (af (s x) i j))
  | CScale d x k => mk d (am (s x)) (an (s x)) (fun i j => n_mul k (af (s x) i j))
  | CMadd x y => zipa x (fun u v => n_add u v) (s x) (s y)
  | CAdd d x y => zipa d (fun u v => n_add u v) (s x) (s y)
  | CMsub x y => zipa x (fun u v => n_sub u v) (s x) (s y)
  | CSub d x y => zipa d (fun u v => n_sub u v) (s x) (s y)
  | CMelemMul x y => zipa x (fun u v => n_mul u v) (s x) (s y)
  | CElemMul d x y => zipa d (fun u v => n_mul u v) (s x) (s y)
  | CMelemDiv x y => diva x (s x) (s y)
  | CElemDiv d x y => diva d (s x) (s y)
  | CMmul x y => mula x (s x) (s y)
  | CMul d x y => mula d (s x) (s y)
  | CMt x => mk x (an (s x)) (am (s x)) (fun i j => af (s x) j i)
  | CT d x => mk d (an (s x)) (am (s x)) (fun i j => af (s x) j i)
  | CClone d x => Assign d (s x)
  | CNew d r c v => if [&& r * c == size v, 0 < r & 0 < c] then mk d r c (fun i j => nth z v (i * c + j)) else Panics
  | CVector d v => if v is [::] then Panics else mk d (size v) 1 (fun i _ => nth z v i)
  | CRowVector d v => if v is [::] then Panics else mk d 1 (size v) (fun _ j => nth z v j)
  | CId d r c => mk d r c (fun i j => if i == j then n_one N else z)
  | CZero d r c => mk d r c (fun _ _ => z)
  | CDiag d v => if v is [::] then Panics else mk d (size v) (size v) (fun i j => if i == j then nth z v i else z)
  | CBlockDiag d r c v => if [&& size v == minn r c, 0 < r & 0 < c] then mk d r c (fun i j => if i == j then nth z v i else z) else Panics
  | CReduce d x v f => if size v == an (s x) then
        mk d 1 (an (s x)) (fun _ j => foldl f (nth z v j) [seq af (s x) i j | i <- iota 0 (am (s x))]) else Panics
  | CCr d x y => if am (s x) == am (s y) then
        mk d (am (s x)) (an (s x) + an (s y)) (fun i j => if j < an (s x) then af (s x) i j else af (s y) i (j - an (s x))) else Panics
  | CCb d x y => if an (s x) == an (s y) then
        mk d (am (s x) + am (s y)) (an (s x)) (fun i j => if i < am (s x) then af (s x) i j else af (s y) (i - am (s x)) j) else Panics
  | CMinor d x r c => let a := s x in
      if [&& r < am a, c < an a, 1 < am a & 1 < an a] then
        mk d (am a).-1 (an a).-1 (fun i j => af a (if i < r then i else i.+1) (if j < c then j else j.+1))
      else Panics
  | CGetColumn d x c => if c < an (s x) then mk d (am (s x)) 1 (fun i _ => af (s x) i c) else Panics
  | CPermuteRows d x ks => if all (fun k => k < am (s x)) ks then
        mk d (size ks) (an (s x)) (fun i j => af (s x) (nth 0 ks i) j) else Panics
  | CPermuteColumns d x ks => if all (fun k => k < an (s x)) ks then
        mk d (am (s x)) (size ks) (fun i j => af (s x) i (nth 0 ks j)) else Panics
  | CFilterRows d x p => let ks := picked p (am (s x)) in mk d (size ks) (an (s x)) (fun i j => af (s x) (nth 0 ks i) j)
  | CFilterColumns d x p => let ks := picked p (an (s x)) in mk d (am (s x)) (size ks) (fun i j => af (s x) i (nth 0 ks j))
  | CSelectRows d x sel => if size sel == am (s x) then
        let ks := picked (nth false sel) (am (s x)) in mk d (size ks) (an (s x)) (fun i j => af (s x) (nth 0 ks i) j) else Panics
  | CSelectColumns d x sel => if size sel == an (s x) then
        let ks := picked (nth false sel) (an (s x)) in mk d (am (s x)) (size ks) (fun i j => af (s x) i (nth 0 ks j)) else Panics
  end.

(** Result of a program: the final variables, a panic, or some call produced
    a matrix without elements. *)
Inductive result := Finished (s : astore) | Panicked | LeftDomain.
Fixpoint run_a (s : astore) (cs : seq call) : result :=
  match cs with
  | [::] => Finished s
  | c :: cs' => match call_a s c with
                | Assign d v => run_a (update s d v) cs'
                | Panics => Panicked
                | Empty => LeftDomain
                end
  end.

(** The matrix variable holds exactly this mathematical matrix: shape, data
    length and every element. *)
Definition holds (M : mat N) (a : amat) : Prop :=
  [/\ 0 < am a, 0 < an a, rows M = am a, cols M = Ok (an a) & size (get_data M) = am a * an a] /\
  forall i j, get M i j = if (i < am a) && (j < an a) then Ok (af a i j) else Err Panic.
Definition holds_all (s : store) (a : astore) : Prop := forall k, holds (s k) (a k).
End Ops.
