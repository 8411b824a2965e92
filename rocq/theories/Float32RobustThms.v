(** * (generated by tools/gen32.py from FloatRobustThms.v) Float32RobustThms: SVD::new and EigenDecomposition::new on arbitrary f32 data (C60) *)
From Coq Require Import ZArith Reals.
From Flocq Require Import Core BinarySingleNaN.
From mathcomp Require Import all_ssreflect all_algebra zify.
From Verif Require Import Base Scalar Hoare ModelMatrix ModelHypot ModelSVD ModelEigen Spec MatrixProofs MatrixThms EigenProofs B32 SpecFloat32 Float32Base Float32Chol Float32CholThms Float32QRThms Safe SafeSvd.

Set Implicit Arguments.
Unset Strict Implicit.
Unset Printing Implicit Defensive.

Lemma div_tot (x y : B32) : exists q, n_div x y = Ok q. Proof. by eexists. Qed.
Lemma sqrt_tot (x : B32) : exists r, s_sqrt x = Ok r. Proof. by eexists. Qed.
Lemma ltb_zero (y : b32) : (is_nan y = false -> Bsign y = true -> exists s, y = B754_zero s) ->
  Bltb y b32_zero = false /\ Bltb b32_zero (Bopp y) = false.
Proof.
case: y => [[]|[]||[] m e B] h //.
- by have [s] := h erefl erefl.
by have [s] := h erefl erefl.
Qed.
Lemma sqrt_nneg (x : b32) : is_nan (Bsqrt mode_NE x) = false -> Bsign (Bsqrt mode_NE x) = true -> exists s, Bsqrt mode_NE x = B754_zero s.
Proof.
case: x => [s|[]||[] m e B]; try (by exists s); try by [].
have [_ [_ H]] := Bsqrt_correct b_prec b_emax b_prec_gt0 b_prec_lt mode_NE (B754_finite false m e B : b32).
by move=> nn; rewrite (H nn).
Qed.
Lemma sqrt_sign (x z : B32) : s_sqrt x = Ok z -> s_ltb z (n_zero B32) = false /\ s_ltb (n_zero B32) (n_neg z) = false.
Proof. by rewrite bsqrt_tot => -[<-]; exact: (ltb_zero (@sqrt_nneg x)). Qed.

Lemma shaped_mat m n (M : mat B32) : shaped m n M -> exists A : 'M[b32]_(m, n), M = mat_of A.
Proof.
move=> [h1 h2]; exists (mxn m n (fun i j => nth b32_zero (data M) (i * n + j))).
by apply: rep_mat_of; [split; [exact: h1|exact: sz_rep]|move=> i j; rewrite mxE].
Qed.

(*@section C62 (C60 in f32) no panic on any f32 input @*)

(*@doc C62 (C60 in f32): for every f32 matrix, NaN and infinities included, SVD::new does not panic: it returns factors of the right
  shapes, or the iteration goes on for longer than the given number of rounds.  There are no other outcomes. *)
Lemma svd_new_no_panic_f32_L : forall m n (A : 'M[b32]_(m.+1, n.+1)) fuel (gs gu gv ge gw gb gt1 gt2 : nat -> B32),
  (exists U Sg V, svd_new (S:=B32) fuel gs gu gv ge gw gb gt1 gt2 (mat_of A) =
     Ok (@SVDec B32 (@mat_of b32 m.+1 m.+1 U) (@mat_of b32 m.+1 n.+1 Sg) (@mat_of b32 n.+1 n.+1 V))) \/
  svd_new (S:=B32) fuel gs gu gv ge gw gb gt1 gt2 (mat_of A) = Err OutOfFuel.
Proof.
move=> m n A fuel gs gu gv ge gw gb gt1 gt2.
have := @svd_new_s B32 (fun e => e = OutOfFuel) div_tot sqrt_tot erefl fuel gs gu gv ge gw gb gt1 gt2 _ m.+1 n.+1 _ (mat_of_rep b32_zero A) erefl erefl.
case: (svd_new _ _ _ _ _ _ _ _ _ _) => [[u s v] [/= h1 h2 h3]|e -> /=]; last by right.
left; have [U ->] := shaped_mat h1; have [Sg ->] := shaped_mat h2; have [V ->] := shaped_mat h3.
by exists U, Sg, V.
Qed.

(*@doc C62 (C60 in f32): the same for EigenDecomposition::new, if the square matrix is not symmetric (elements compared by ==, so a
  matrix holding a NaN is never symmetric); get_d does not panic on the result either. *)
Lemma eigen_new_no_panic_f32_L : forall n (A : 'M[b32]_n.+1) fuel (gv gd ge gh gort gz gr gs g : nat -> B32),
  (exists i j, Beqb (A i j) (A j i) = false) ->
  (exists d e V, eigen_new (S:=B32) fuel gv gd ge gh gort gz gr gs (mat_of A) = Ok (@Eigen B32 n.+1 d e (@mat_of b32 n.+1 n.+1 V)) /\
     size d = n.+1 /\ size e = n.+1 /\
     exists D, eigen_get_d g (@Eigen B32 n.+1 d e (mat_of V)) = Ok (@mat_of b32 n.+1 n.+1 D)) \/
  eigen_new (S:=B32) fuel gv gd ge gh gort gz gr gs (mat_of A) = Err OutOfFuel.
Proof.
move=> n A fuel gv gd ge gh gort gz gr gs g [i [j ij]].
have sy : symb (S:=B32) n.+1 (fn b32_zero A) = false.
  apply/negP => /allP /(_ (j : nat)); rewrite mem_iota add0n ltn_ord => /(_ isT) /allP /(_ (i : nat)).
  rewrite mem_iota add0n ltn_ord => /(_ isT); rewrite !fnE => h.
  have e : Beqb (A i j) (A j i) = true := h; by rewrite ij in e.
have := @eigen_new_s B32 (fun e => e = OutOfFuel) div_tot sqrt_tot erefl sqrt_sign erefl fuel gv gd ge gh gort gz gr gs _ n.+1 _ (mat_of_rep b32_zero A) erefl sy.
case: (eigen_new _ _ _ _ _ _ _ _ _ _) => [[nn d e v] [/= -> h1 h2 h3]|x -> /=]; last by right.
left; have [V ->] := shaped_mat h3; exists d, e, V; split=> //; split=> //; split; first by case: h2.
have := @eigen_get_d_s B32 (fun e => False) erefl g (@Eigen B32 n.+1 d e (mat_of V)) n.+1 erefl erefl h1 h2.
by case: (eigen_get_d _ _) => // D /shaped_mat [D' ->]; exists D'.
Qed.

(*@example
(** both outcomes of SVD::new and EigenDecomposition::new occur; a matrix holding a NaN is a case of the hypothesis *)
Definition svd_run : bool :=
  match svd_new (S:=B32) 30 (fun=> B754_nan) (fun=> B754_nan) (fun=> B754_nan) (fun=> B754_nan) (fun=> B754_nan) (fun=> B754_nan)
    (fun=> B754_nan) (fun=> B754_nan) (Mat 2 [seq b32_int (Z.of_nat k) | k <- [:: 1; 2; 3; 4; 5; 7]%N]) with
  | Ok d => all (fun x : b32 => is_finite x) (data (svd_s d) ++ data (svd_u d) ++ data (svd_v d)) | Err _ => false end.
Lemma svd_run_ok : svd_run = true. Proof. vm_cast_no_check (erefl true). Qed.
Definition eig_run : bool :=
  match eigen_new (S:=B32) 60 (fun=> B754_nan) (fun=> B754_nan) (fun=> B754_nan) (fun=> B754_nan) (fun=> B754_nan) (fun=> B754_nan)
    (fun=> B754_nan) (fun=> B754_nan) (Mat 3 [seq b32_int (Z.of_nat k) | k <- [:: 1; 2; 3; 4; 5; 6; 7; 8; 9]%N]) with
  | Ok d => all (fun x : b32 => is_finite x) (eg_d d ++ eg_e d ++ data (eg_v d)) | Err _ => false end.
Lemma eig_run_ok : eig_run = true. Proof. vm_cast_no_check (erefl true). Qed.
Lemma eig_hyp_met : let A : 'M[b32]_2 := mxn 2 2 (fun _ _ => B754_nan) in exists i j, Beqb (A i j) (A j i) = false.
Proof. by exists ord0, ord0; rewrite !mxE. Qed.
@*)

(*@section C62 (C60 in f32) finite data near the overflow threshold @*)

(** ** loops that never end *)
Lemma loop_inv A R (I : A -> Prop) (body : A -> res (ctl A R)) s fuel : I s ->
  (forall s, I s -> exists s', body s = Ok (Next s') /\ I s') -> loop_ fuel body s = Err OutOfFuel.
Proof.
move=> I0 step; elim: fuel s I0 => [//|f IH] s /step [s' [e I']].
by rewrite [loop_ _ _ _]/= e; apply: IH.
Qed.
Fixpoint iterk A R (k : nat) (body : A -> res (ctl A R)) (s : A) : res A :=
  match k with 0 => Ok s | k'.+1 => c <-- body s ;; match c with Next s' => iterk k' body s' | Stop _ => Err Panic end end.
Lemma loop_pre A R (I : A -> Prop) k (body : A -> res (ctl A R)) s s' fuel : iterk k body s = Ok s' -> I s' ->
  (forall s, I s -> exists s', body s = Ok (Next s') /\ I s') -> loop_ fuel body s = Err OutOfFuel.
Proof.
move=> + I0 step; elim: k s fuel => [|k IH] s fuel /=.
  by move=> [->]; apply: (loop_inv _ I0).
case: fuel => [//|fuel] /=; case: (body s) => //= -[s''|r] //; exact: IH.
Qed.

(** the part of SVD::new before the iteration *)
Definition svd_pre (m n : nat) (gs gu gv ge gw : nat -> B32) (l : seq B32) : res (sweep B32) :=
  let nct := minn (m - 1) n in
  let nrt := minn (n - 2) m in
  st <-- for_ 0 (maxn nct nrt) (svd_bidiag_step m n nct nrt)
     (Bidiag l (alloc_dirty_vec gs (minn m n)) (alloc_dirty_vec gu (m * m)) (alloc_dirty_vec gv (n * n)) (alloc_dirty_vec ge n) (alloc_dirty_vec gw m)) ;;
  let p := minn n (m + 1) in
  '(sdata, edata) <-- svd_final_bidiag m n nct nrt p (b_a st) (b_s st) (b_e st) ;;
  udata <-- svd_gen_u m nct sdata (b_u st) ;;
  vdata <-- svd_gen_v n nrt edata (b_v st) ;;
  Ok (Sweep sdata edata udata vdata p).
Lemma svd_hang n (l : seq B32) fuel gs gu gv ge gw gb gt1 gt2 k st : 0 < n -> size l = n * n ->
  (x <-- svd_pre n n gs gu gv ge gw l ;; iterk k (svd_iter n n (n - 1)) x) = Ok st ->
  svd_iter n n (n - 1) st = Ok (Next st) ->
  svd_new (S:=B32) fuel gs gu gv ge gw gb gt1 gt2 (Mat n l) = Err OutOfFuel.
Proof.
move=> n0 sl pre stuck; rewrite /svd_new /svd_tall.
have -> : cols (Mat n l) = Ok n.
  by rewrite /cols /udiv; cbn [data no_rows]; rewrite sl eqn0Ngt n0 mulnK.
cbn [bind no_rows rows]; rewrite ltnn leqnn /require /usub n0.
move: pre; rewrite /svd_pre; cbn [bind get_data data].
have -> : minn n (n + 1) = n by lia.
rewrite n0; cbn [bind].
case: (for_ _ _ _ _) => [b|//]; cbn [bind].
case: (svd_final_bidiag _ _ _ _ _ _ _ _) => [[s e]|//]; cbn [bind].
case: (svd_gen_u _ _ _ _) => [u|//]; cbn [bind].
case: (svd_gen_v _ _ _ _) => [v|//]; cbn [bind] => pre.
by rewrite (loop_pre (I := fun x => x = st) fuel pre erefl) // => s' ->; exists st.
Qed.

Definition nan : b32 := B754_nan.
(** 2^127 *)
Definition big : b32 := b32_of 1 127.
Definition mx_lit n (l : seq b32) : 'M[b32]_n := mxn n n (fun i j => nth b32_zero l (i * n + j)).
Lemma mx_lit_mat n l : size l = n * n -> mat_of (mx_lit n l) = Mat n l.
Proof.
move=> sl; apply/esym/(@rep_mat_of _ n n _ (fun i j => nth b32_zero l (i * n + j))); last by move=> i j; rewrite mxE.
by split=> //; exact: repr_nth.
Qed.

Definition svd_hang_data : seq b32 := [:: b32_int 1; big; big; b32_zero; b32_int 1; big; b32_zero; b32_zero; b32_int 1].
Definition nans k : seq b32 := nseq k nan.
Definition svd_stuck : sweep B32 := @Sweep B32 (nans 3) (nans 3) (nans 9) (nans 9) 3.
Lemma svd_stuck_step : svd_iter (S:=B32) 3 3 2 svd_stuck = Ok (Next svd_stuck).
Proof. vm_cast_no_check (erefl (Ok (Next svd_stuck) : res (ctl (sweep B32) (sweep B32)))). Qed.
Lemma svd_stuck_pre gs gu gv ge gw :
  (x <-- svd_pre 3 3 gs gu gv ge gw svd_hang_data ;; iterk 10 (svd_iter 3 3 2) x) = Ok svd_stuck.
Proof. vm_cast_no_check (erefl (Ok svd_stuck : res (sweep B32))). Qed.

Lemma lit_finite n (l : seq b32) : size l = n * n -> all (fun x => is_finite x) l -> forall i j, finite (mx_lit n l i j).
Proof.
move=> sl h i j; rewrite mxE; have : (i * n + j < size l)%N by rewrite sl; apply: idx_lt.
by move: (i * n + j)%N h => k; elim: l k {sl} => [//|x l IH] [|k] /= /andP [h1 h2] //; apply: IH.
Qed.

(** ** SVD *)
Definition svd_zero_data : seq b32 := [:: b32_int 1; big; b32_zero; b32_int 1].
Definition zerob (x : b32) : bool := match x with B754_zero _ => true | _ => false end.
Definition svd_zero_check fuel gs gu gv ge gw gb gt1 gt2 : bool :=
  match svd_new (S:=B32) (10 + fuel) gs gu gv ge gw gb gt1 gt2 (Mat 2 svd_zero_data) with
  | Ok d => match data (svd_s d) with [:: a; b; c; e] => [&& zerob a, zerob b, zerob c & zerob e] | _ => false end
  | Err _ => false
  end.
Lemma svd_zero_ok fuel gs gu gv ge gw gb gt1 gt2 : svd_zero_check fuel gs gu gv ge gw gb gt1 gt2 = true.
Proof. vm_cast_no_check (erefl true). Qed.

(** NaN *)
Definition svd_nan_data : seq b32 := [:: nan; b32_zero; b32_zero; b32_int 1].
Definition oneb (x : b32) : bool := Beqb x (b32_int 1).
Definition svd_nan_check fuel gs gu gv ge gw gb gt1 gt2 : bool :=
  match svd_new (S:=B32) (10 + fuel) gs gu gv ge gw gb gt1 gt2 (Mat 2 svd_nan_data) with
  | Ok d => match data (svd_s d) with [:: a; b; c; e] => [&& oneb a, zerob b, zerob c & zerob e] | _ => false end &&
       match data (svd_u d), data (svd_v d) with [:: a; b; c; e], [:: a'; b'; c'; e'] => 
         [&& is_finite (a : b32), is_finite (b : b32), is_finite (c : b32), is_finite (e : b32), is_finite (a' : b32), is_finite (b' : b32), is_finite (c' : b32) & is_finite (e' : b32)] | _, _ => false end
  | Err _ => false
  end.
Lemma svd_nan_ok fuel gs gu gv ge gw gb gt1 gt2 : svd_nan_check fuel gs gu gv ge gw gb gt1 gt2 = true.
Proof. vm_cast_no_check (erefl true). Qed.

(** ** eigenvalues: matrices that are not symmetric *)
Definition hqr_pre (n : nat) (gv gd ge gh gort : nat -> B32) (l : seq B32) : res (B32 * hq B32) :=
  h <-- eigen_copy_t n (Mat n l) (alloc_dirty_vec gh (n * n)) ;;
  '(h, v) <-- orthes n gort h (alloc_dirty_vec gv (n * n)) ;;
  nrm <-- hqr2_norm n h ;;
  Ok (nrm, HQ (alloc_dirty_vec gd n) (alloc_dirty_vec ge n) h v (n_zero B32) n 0).
Definition eig_hang_data : seq b32 := [:: b32_int 1; big; b32_zero; b32_int 1; b32_int 1; big; b32_zero; b32_int 1; b32_int 1].
Definition eig_stuck (d e : seq B32) ex it : hq B32 := HQ d e (nans 9 : seq B32) (nans 9 : seq B32) ex 3 it.
Lemma eig_stuck_pre gv gd ge gh gort :
  ('(nrm, x) <-- hqr_pre 3 gv gd ge gh gort eig_hang_data ;; y <-- iterk 5 (hqr2_iter 3 nrm) x ;; Ok (nrm, y)) =
  Ok ((nan : B32), eig_stuck (alloc_dirty_vec gd 3) (alloc_dirty_vec ge 3) (b32_zero : B32) 5).
Proof. vm_cast_no_check (erefl (Ok ((nan : B32), eig_stuck (alloc_dirty_vec gd 3) (alloc_dirty_vec ge 3) (b32_zero : B32) 5))). Qed.
Lemma eig_stuck_step d e ex it : exists ex', hqr2_iter (S:=B32) 3 nan (eig_stuck d e ex it) = Ok (Next (eig_stuck d e ex' (it + 1))).
Proof.
rewrite /hqr2_iter /eig_stuck /hqr2_more /hqr2_shift; cbn [hq_n1 hq_h hq_iter hq_ex hq_d hq_e hq_v].
exists (if it == 10 then n_add ex (nan : B32) else ex).
case: (it == 10); case: (it == 30).
- vm_cast_no_check (erefl (Ok (Next (eig_stuck d e (n_add ex (nan : B32)) (it + 1))) : res (ctl (hq B32) (hq B32)))).
- vm_cast_no_check (erefl (Ok (Next (eig_stuck d e (n_add ex (nan : B32)) (it + 1))) : res (ctl (hq B32) (hq B32)))).
- vm_cast_no_check (erefl (Ok (Next (eig_stuck d e ex (it + 1))) : res (ctl (hq B32) (hq B32)))).
- vm_cast_no_check (erefl (Ok (Next (eig_stuck d e ex (it + 1))) : res (ctl (hq B32) (hq B32)))).
Qed.
Lemma eigen_hang n (l : seq B32) fuel gv gd ge gh gort gz gr gs k nrm st (I : hq B32 -> Prop) : 0 < n -> size l = n * n ->
  eigen_symmetric n (Mat n l) = Ok false ->
  ('(nrm, x) <-- hqr_pre n gv gd ge gh gort l ;; y <-- iterk k (hqr2_iter n nrm) x ;; Ok (nrm, y)) = Ok (nrm, st) ->
  I st -> (forall s, I s -> exists s', hqr2_iter n nrm s = Ok (Next s') /\ I s') ->
  eigen_new (S:=B32) fuel gv gd ge gh gort gz gr gs (Mat n l) = Err OutOfFuel.
Proof.
move=> n0 sl sy pre I0 stuck; rewrite /eigen_new.
have -> : cols (Mat n l) = Ok n.
  by rewrite /cols /udiv; cbn [data no_rows]; rewrite sl eqn0Ngt n0 mulnK.
cbn [bind]; rewrite sy; cbn [bind].
move: pre; rewrite /hqr_pre; cbn [bind].
case: (eigen_copy_t _ _ _) => [h|//]; cbn [bind].
case: (orthes _ _ _ _) => [[h' v]|//]; cbn [bind].
rewrite /hqr2; case: (hqr2_norm _ _) => [nr|//]; cbn [bind].
case e : (iterk _ _ _) => [y|//]; cbn [bind] => -[e1 e2].
by rewrite e1 e2 in e *; rewrite (loop_pre fuel e I0 stuck).
Qed.
Lemma eig_hang_sym : eigen_symmetric (S:=B32) 3 (Mat 3 eig_hang_data) = Ok false.
Proof. vm_cast_no_check (erefl (Ok false : res bool)). Qed.

(** M times the cyclic permutation *)
Definition eig_zero_data : seq b32 := [:: b32_zero; big; b32_zero; b32_zero; b32_zero; big; big; b32_zero; b32_zero].
Definition eig_zero_check fuel gv gd ge gh gort gz gr gs : bool :=
  match eigen_new (S:=B32) (10 + fuel) gv gd ge gh gort gz gr gs (Mat 3 eig_zero_data) with
  | Ok x => (eg_n x == 3) && match eg_d x, eg_e x with [:: a; b; c], [:: a'; b'; c'] => [&& zerob a, zerob b, zerob c, zerob a', zerob b' & zerob c'] | _, _ => false end
  | Err _ => false
  end.
Lemma eig_zero_ok fuel gv gd ge gh gort gz gr gs : eig_zero_check fuel gv gd ge gh gort gz gr gs = true.
Proof. vm_cast_no_check (erefl true). Qed.

(** ** eigenvalues: symmetric matrices *)
Definition sym_panic_data : seq b32 := [:: b32_zero; b32_of 15 124; b32_of 15 124; b32_zero].
Definition sym_panic_check fuel gv gd ge gh gort gz gr gs : bool :=
  match eigen_new (S:=B32) (10 + fuel) gv gd ge gh gort gz gr gs (Mat 2 sym_panic_data) with Err Panic => true | _ => false end.
Lemma sym_panic_ok fuel gv gd ge gh gort gz gr gs : sym_panic_check fuel gv gd ge gh gort gz gr gs = true.
Proof. vm_cast_no_check (erefl true). Qed.

Definition mbig : b32 := b32_of (-1) 127.
Definition sym_hang_data : seq b32 := [:: big; big; big; mbig].
(** up to the iteration for the first eigenvalue *)
Definition tql_pre (n : nat) (gv gd ge : nat -> B32) (l : seq B32) : res (nat * B32 * (seq B32 * seq B32 * seq B32 * B32)) :=
  v <-- eigen_copy n (Mat n l) (alloc_dirty_vec gv (n * n)) ;;
  '(d, v, e) <-- tred2 n (alloc_dirty_vec gd n) v (alloc_dirty_vec ge n) ;;
  e <-- tql2_shift n e ;;
  dl <-- vget d 0 ;;
  el <-- vget e 0 ;;
  let bound := n_mul (s_eps B32) (s_max (n_zero B32) (n_add (s_abs dl) (s_abs el))) in
  m <-- tql2_find n 0 bound e ;;
  Ok (m, bound, (e, d, v, n_zero B32)).
Definition sym_stuck : seq B32 * seq B32 * seq B32 * B32 := ((nans 2 : seq B32), (nans 2 : seq B32), (nans 4 : seq B32), (nan : B32)).
Lemma sym_stuck_pre gv gd ge :
  ('(m, b, x) <-- tql_pre 2 gv gd ge sym_hang_data ;; y <-- iterk 5 (tql2_iter 2 0 m b) x ;; Ok (m, b, y)) = Ok (1, (b32_zero : B32), sym_stuck).
Proof. vm_cast_no_check (erefl (Ok (1, (b32_zero : B32), sym_stuck))). Qed.
Lemma sym_stuck_step : tql2_iter (S:=B32) 2 0 1 b32_zero sym_stuck = Ok (Next sym_stuck).
Proof. vm_cast_no_check (erefl (Ok (Next sym_stuck) : res (ctl (seq B32 * seq B32 * seq B32 * B32) (seq B32 * seq B32 * seq B32 * B32)))). Qed.
Lemma sym_hang_sym : eigen_symmetric (S:=B32) 2 (Mat 2 sym_hang_data) = Ok true.
Proof. vm_cast_no_check (erefl (Ok true : res bool)). Qed.
Lemma for_err A n (f : nat -> A -> res A) s e : f 0 s = Err e -> for_ 0 n.+1 f s = Err e.
Proof. by move=> h; rewrite /for_ /= h. Qed.
Lemma sym_hang fuel gv gd ge gh gort gz gr gs : eigen_new (S:=B32) fuel gv gd ge gh gort gz gr gs (Mat 2 sym_hang_data) = Err OutOfFuel.
Proof.
rewrite /eigen_new; have -> : cols (Mat 2 sym_hang_data) = Ok 2 by [].
cbn [bind]; rewrite sym_hang_sym; cbn [bind].
have := sym_stuck_pre gv gd ge; rewrite /tql_pre.
case: (eigen_copy _ _ _) => [v|//]; cbn [bind].
case: (tred2 _ _ _ _) => [[[d v'] e]|//]; cbn [bind].
rewrite /tql2; case: (tql2_shift _ _) => [e'|//]; cbn [bind].
move=> pre; rewrite (@for_err _ 1 (tql2_step fuel 2) _ OutOfFuel) //; move: pre; rewrite /tql2_step.
case: (vget d 0) => [dl|//]; cbn [bind].
case: (vget e' 0) => [el|//]; cbn [bind].
move: (n_mul (s_eps B32) (s_max (n_zero B32) (n_add (s_abs dl) (s_abs el)))) => bound.
case: (tql2_find _ _ _ _) => [m|//]; cbn [bind].
case ei : (iterk _ _ _) => [y|//]; cbn [bind] => -[e1 e2 e3].
rewrite e1 e2 e3 in ei *; rewrite (loop_pre (I := fun x => x = sym_stuck) fuel ei erefl) // => s' ->.
by exists sym_stuck; split=> //; exact: sym_stuck_step.
Qed.

(** ** the statements *)
Lemma ord2 (P : 'I_2 -> 'I_2 -> Prop) : P ord0 ord0 -> P ord0 ord_max -> P ord_max ord0 -> P ord_max ord_max -> forall i j, P i j.
Proof.
move=> h1 h2 h3 h4 i j.
have e (k : 'I_2) : k = ord0 \/ k = ord_max by case: k => [[|[|k]] hk] //; [left|right]; apply: val_inj.
by case: (e i) => ->; case: (e j) => ->.
Qed.
Lemma zerob_val x : zerob x -> B2R x = R0.
Proof. by case: x. Qed.
Lemma oneb_val x : oneb x -> finite x /\ B2R x = R1.
Proof.
rewrite /oneb; have := rv_int1; have : is_finite (b32_int 1) = true by vm_compute.
rewrite /finite /rv; move: (b32_int 1) => o f1 v1.
case: (boolP (is_finite x)) => fx; last by case: x fx => [s|[]||s m e B] //; case: o f1 {v1}.
by rewrite (Beqb_correct _ _ x o fx f1) v1; case: Req_bool_spec => // e _; split.
Qed.

(*@doc C62 (C60 in f32): SVD::new does not return for this finite upper triangular matrix with unit diagonal, however long it runs. *)
Lemma svd_new_hangs_f32_L : let M := b32_of 1 127 in exists A : 'M[b32]_3,
  (forall i j : 'I_3, A i j = if (j < i)%N then b32_zero else if i == j then b32_int 1 else M) /\ finite M /\
  forall fuel (gs gu gv ge gw gb gt1 gt2 : nat -> B32), svd_new (S:=B32) fuel gs gu gv ge gw gb gt1 gt2 (mat_of A) = Err OutOfFuel.
Proof.
exists (mx_lit 3 svd_hang_data); split; last split=> //.
  by move=> [[|[|[|i]]] hi] [[|[|[|j]]] hj] //; rewrite mxE.
move=> fuel gs gu gv ge gw gb gt1 gt2; rewrite mx_lit_mat //.
exact: (@svd_hang 3 svd_hang_data fuel gs gu gv ge gw gb gt1 gt2 10 svd_stuck erefl erefl (svd_stuck_pre gs gu gv ge gw) svd_stuck_step).
Qed.

(*@doc C62 (C60 in f32): for the finite matrix [1 M; 0 1], M = 2^127, of determinant 1, SVD::new returns the singular values 0 and 0. *)
Lemma svd_new_wrong_f32_L : let M := b32_of 1 127 in exists A : 'M[b32]_2,
  (forall i j : 'I_2, A i j = if (j < i)%N then b32_zero else if i == j then b32_int 1 else M) /\ finite M /\
  forall fuel (gs gu gv ge gw gb gt1 gt2 : nat -> B32), (10 <= fuel)%N ->
    exists U V Sg, svd_new (S:=B32) fuel gs gu gv ge gw gb gt1 gt2 (mat_of A) =
      Ok (@SVDec B32 (@mat_of b32 2 2 U) (@mat_of b32 2 2 Sg) (@mat_of b32 2 2 V)) /\
      forall i j, B2R (Sg i j) = R0.
Proof.
exists (mx_lit 2 svd_zero_data); split; last split=> //.
  by move=> [[|[|i]] hi] [[|[|j]] hj] //; rewrite mxE.
move=> fuel gs gu gv ge gw gb gt1 gt2 fl.
have := svd_zero_ok (fuel - 10) gs gu gv ge gw gb gt1 gt2; rewrite /svd_zero_check (subnKC fl).
rewrite -(mx_lit_mat (n:=2) (l:=svd_zero_data)) //.
have [[U [Sg [V ->]]]|-> //] := svd_new_no_panic_f32_L (mx_lit 2 svd_zero_data) fuel gs gu gv ge gw gb gt1 gt2.
cbn [svd_s]; rewrite mat2E => /and4P [h1 h2 h3 h4].
exists U, V, Sg; split=> //.
by apply: ord2; [move: h1|move: h2|move: h3|move: h4]; case: (Sg _ _).
Qed.

(*@doc C62 (C60 in f32): a NaN in the data can be lost: SVD::new of diag(NaN, 1) returns finite U and V and the singular values 1 and 0. *)
Lemma svd_new_nan_f32_L : exists A : 'M[b32]_2, A ord0 ord0 = B754_nan /\
  (forall i j, (i, j) != (ord0, ord0) -> A i j = if i == j then b32_int 1 else b32_zero) /\
  forall fuel (gs gu gv ge gw gb gt1 gt2 : nat -> B32), (10 <= fuel)%N ->
    exists U V Sg, svd_new (S:=B32) fuel gs gu gv ge gw gb gt1 gt2 (mat_of A) =
      Ok (@SVDec B32 (@mat_of b32 2 2 U) (@mat_of b32 2 2 Sg) (@mat_of b32 2 2 V)) /\
      (forall i j, finite (U i j) /\ finite (V i j) /\ finite (Sg i j)) /\
      B2R (Sg ord0 ord0) = R1 /\ forall i j, (i, j) != (ord0, ord0) -> B2R (Sg i j) = R0.
Proof.
exists (mx_lit 2 svd_nan_data); split; [by rewrite mxE|split].
  by move=> [[|[|i]] hi] [[|[|j]] hj] //; rewrite mxE.
move=> fuel gs gu gv ge gw gb gt1 gt2 fl.
have := svd_nan_ok (fuel - 10) gs gu gv ge gw gb gt1 gt2; rewrite /svd_nan_check (subnKC fl).
rewrite -(mx_lit_mat (n:=2) (l:=svd_nan_data)) //.
have [[U [Sg [V ->]]]|-> //] := svd_new_no_panic_f32_L (mx_lit 2 svd_nan_data) fuel gs gu gv ge gw gb gt1 gt2.
cbn [svd_s svd_u svd_v]; rewrite !mat2E => /andP [/and4P [h1 h2 h3 h4] /and5P [a1 a2 a3 a4 /and4P [b1 b2 b3 b4]]].
have [f1 v1] := oneb_val h1.
exists U, V, Sg; split=> //; split; last split=> //.
  apply: ord2; do 2 (split=> //); try exact: f1; [move: h2|move: h3|move: h4]; by case: (Sg _ _).
apply: ord2 => // _; [move: h2|move: h3|move: h4]; by case: (Sg _ _).
Qed.

(*@doc C62 (C60 in f32): EigenDecomposition::new does not return for the finite tridiagonal matrix [1 M 0; 1 1 M; 0 1 1]. *)
Lemma eigen_new_hangs_f32_L : let M := b32_of 1 127 in exists A : 'M[b32]_3,
  (forall i j : 'I_3, A i j = if (j == i.+1 :> nat) then M else if (i == j :> nat) || (i == j.+1 :> nat) then b32_int 1 else b32_zero) /\ finite M /\
  forall fuel (gv gd ge gh gort gz gr gs : nat -> B32), eigen_new (S:=B32) fuel gv gd ge gh gort gz gr gs (mat_of A) = Err OutOfFuel.
Proof.
exists (mx_lit 3 eig_hang_data); split; last split=> //.
  by move=> [[|[|[|i]]] hi] [[|[|[|j]]] hj] //; rewrite mxE.
move=> fuel gv gd ge gh gort gz gr gs; rewrite mx_lit_mat //.
apply: (@eigen_hang 3 eig_hang_data fuel gv gd ge gh gort gz gr gs 5 nan _
  (fun s => exists ex it, s = eig_stuck (alloc_dirty_vec gd 3) (alloc_dirty_vec ge 3) ex it) erefl erefl eig_hang_sym (eig_stuck_pre gv gd ge gh gort)).
  by eexists; eexists.
move=> s [ex [it ->]]; have [ex' e] := eig_stuck_step (alloc_dirty_vec gd 3) (alloc_dirty_vec ge 3) ex it.
by exists (eig_stuck (alloc_dirty_vec gd 3) (alloc_dirty_vec ge 3) ex' (it + 1)); split=> //; eexists; eexists.
Qed.

(*@doc C62 (C60 in f32): for the finite matrix [0 M 0; 0 0 M; M 0 0] (M times a cyclic permutation, so invertible) EigenDecomposition::new
  returns the eigenvalue 0 three times. *)
Lemma eigen_new_wrong_f32_L : let M := b32_of 1 127 in exists A : 'M[b32]_3,
  (forall i j : 'I_3, A i j = if (j == i.+1 %% 3 :> nat)%N then M else b32_zero) /\ finite M /\
  forall fuel (gv gd ge gh gort gz gr gs : nat -> B32), (10 <= fuel)%N ->
    exists d e V, eigen_new (S:=B32) fuel gv gd ge gh gort gz gr gs (mat_of A) = Ok (@Eigen B32 3 d e V) /\
      map (fun x : b32 => B2R x) d = [:: R0; R0; R0] /\ map (fun x : b32 => B2R x) e = [:: R0; R0; R0].
Proof.
exists (mx_lit 3 eig_zero_data); split; last split=> //.
  by move=> [[|[|[|i]]] hi] [[|[|[|j]]] hj] //; rewrite mxE.
move=> fuel gv gd ge gh gort gz gr gs fl; rewrite mx_lit_mat //.
have := eig_zero_ok (fuel - 10) gv gd ge gh gort gz gr gs; rewrite /eig_zero_check (subnKC fl).
case: (eigen_new _ _ _ _ _ _ _ _ _ _) => [[n d e v]|//]; cbn [eg_n eg_d eg_e].
case: d => [|a [|b [|c [|? ?]]]]; try (by rewrite andbF); case: e => [|a' [|b' [|c' [|? ?]]]]; try (by rewrite andbF).
move=> /andP [/eqP -> /and4P [h1 h2 h3 /and3P [h4 h5 h6]]]; exists [:: a; b; c], [:: a'; b'; c'], v.
by split; [|cbn [map]; rewrite (zerob_val h1) (zerob_val h2) (zerob_val h3) (zerob_val h4) (zerob_val h5) (zerob_val h6)].
Qed.

(*@doc C62 (C60 in f32): EigenDecomposition::new panics on the finite symmetric matrix [0 L; L 0], L = 15 * 2^124 (its eigenvalues L and -L
  are representable): an index runs out of bounds. *)
Lemma eigen_new_sym_panics_f32_L : let L := b32_of 15 124 in exists A : 'M[b32]_2,
  (forall i j : 'I_2, A i j = if i == j then b32_zero else L) /\ finite L /\
  forall fuel (gv gd ge gh gort gz gr gs : nat -> B32), (10 <= fuel)%N ->
    eigen_new (S:=B32) fuel gv gd ge gh gort gz gr gs (mat_of A) = Err Panic.
Proof.
exists (mx_lit 2 sym_panic_data); split; last split=> //.
  by move=> [[|[|i]] hi] [[|[|j]] hj] //; rewrite mxE.
move=> fuel gv gd ge gh gort gz gr gs fl; rewrite mx_lit_mat //.
have := sym_panic_ok (fuel - 10) gv gd ge gh gort gz gr gs; rewrite /sym_panic_check (subnKC fl).
by case: (eigen_new _ _ _ _ _ _ _ _ _ _) => // -[].
Qed.

(*@doc C62 (C60 in f32): EigenDecomposition::new does not return for the finite symmetric matrix [M M; M -M], M = 2^127. *)
Lemma eigen_new_sym_hangs_f32_L : let M := b32_of 1 127 in exists A : 'M[b32]_2,
  (forall i j : 'I_2, A i j = if (i == ord_max) && (j == ord_max) then Bopp M else M) /\ finite M /\
  forall fuel (gv gd ge gh gort gz gr gs : nat -> B32), eigen_new (S:=B32) fuel gv gd ge gh gort gz gr gs (mat_of A) = Err OutOfFuel.
Proof.
exists (mx_lit 2 sym_hang_data); split; last split=> //.
  move=> [[|[|i]] hi] [[|[|j]] hj] //; rewrite mxE //.
  by apply: B2SF_inj; vm_compute.
by move=> fuel gv gd ge gh gort gz gr gs; rewrite mx_lit_mat //; exact: sym_hang.
Qed.
