(** * GarbageThms: C15, the contents of uninitialised memory never reach a
    result.  Every statement is for an arbitrary element type / scalar: no law
    of arithmetic is used, so it covers f32 and f64, NaN included. *)
From mathcomp Require Import all_ssreflect all_algebra zify.
From Verif Require Import Base Scalar Hoare Rel ModelMatrix ModelLU ModelCholesky ModelQR ModelSVD ModelEigen Spec SpecGarbage MatrixProofs MatrixProofs2 MatrixThms B64 GarbageSvd GarbageEigen.

Set Implicit Arguments.
Unset Strict Implicit.
Unset Printing Implicit Defensive.

Lemma rep_indep T m n (c c' : res (mat T)) f :
  wp c (fun M => rep m n M f) -> wp c' (fun M => rep m n M f) -> c = c'.
Proof.
case/wp_ex => M -> HM /wp_ex [M' -> HM'].
by rewrite (rep_matrix HM) (rep_matrix HM').
Qed.

(*@section C15 uninitialised memory never reaches a result @*)
(*@doc C15: methods of every matrix, also the degenerate ones without rows. *)
Lemma garbage_any_L : forall T U (g g' : nat -> T) (h h' : nat -> U) (f : T -> U) (rnd : nat -> T) (M : mat T) r c,
  [/\ map_ h f M = map_ h' f M, t g M = t g' M, get_column g M c = get_column g' M c & random g rnd r c = random g' rnd r c].
Proof.
move=> T U g g' h h' f rnd M r c; split.
- rewrite /map_; congr bind.
  by apply: (rfill (c := fun i => bind (vget (data M) i) (fun x => Ok (f x)))) => i d hi; case: (vget _ _).
- apply/rres_eq; rewrite /t; set elems := size _.
  apply: (rbind (Q := fun a b => a = b)); last by move=> a b ->; apply: rres_refl.
  apply: rres_mono.
    apply: (rfor (I := fun i a b => agree elems (fun k => k < i) a.1 b.1 /\ a.2 = b.2)).
      by split=> //; apply: agree_alloc.
    move=> i [a k] [b k'] hi /= [Hab <-]; apply: rbind_same => x _.
    apply: (rbind (Q := agree elems (fun k => k < i.+1))).
      by apply: rset Hab _ => l hl; lia.
    move=> a' b' Hab'; apply: rbind_same => n _; by case: ifP.
  move=> [a k] [b k'] /= [Hab ->]; congr pair; apply: agree_full Hab _; rewrite max0n; lia.
- apply/rres_eq; rewrite /get_column; apply: rbind_same => n _; apply: rrequire => _.
  apply: (rbind (Q := fun a b => a = b)); last by move=> a b ->; apply: rres_refl.
  apply: rres_mono.
    apply: (rfor (I := fun i a b => agree (no_rows M) (fun k => k < i) a.1 b.1 /\ a.2 = b.2)).
      by split=> //; apply: agree_alloc.
    move=> i [a k] [b k'] hi /= [Hab <-]; apply: rbind_same => x _.
    apply: (rbind (Q := agree (no_rows M) (fun k => k < i.+1))) => //.
    by apply: rset Hab _ => l hl; lia.
  move=> [a k] [b k'] /= [Hab ->]; congr pair; apply: agree_full Hab _; rewrite max0n; lia.
- rewrite /random; congr bind; exact: (rfill (c := fun i => Ok (rnd i))).
Qed.

(*@doc C15: constructors and arithmetic, for every operand. *)
Lemma garbage_num_L : forall (N : numops) (g g' : nat -> N) (M M2 : mat N) (ds : seq N) k m n,
  [/\ [/\ id g m n = id g' m n, zero g m n = zero g' m n, zero_vector g m = zero_vector g' m & one_vector g m = one_vector g' m],
      diag g ds = diag g' ds /\ block_diag g m n ds = block_diag g' m n ds,
      neg g M = neg g' M /\ scale g M k = scale g' M k,
      [/\ add g M M2 = add g' M M2, sub g M M2 = sub g' M M2, elem_mul g M M2 = elem_mul g' M M2 & elem_div g M M2 = elem_div g' M M2] &
      mul g M M2 = mul g' M M2 /\ mmul g M M2 = mmul g' M M2].
Proof.
move=> N g g' M M2 ds k m n.
have fl x e : fill x e (alloc_dirty_vec g e) = fill x e (alloc_dirty_vec g' e).
  exact: (rfill (c := fun i => Ok x)).
have p1 h : pointwise1 g h M = pointwise1 g' h M.
  rewrite /pointwise1; congr bind.
  by apply: (rfill (c := fun i => bind (vget (data M) i) (fun x => Ok (h x)))) => i d hi; case: (vget _ _).
have p2 h : pointwise2 g h M M2 = pointwise2 g' h M M2.
  apply/rres_eq; rewrite /pointwise2; apply: rrequire => _; apply: rbind_same => n1 _; apply: rbind_same => n2 _.
  apply: rrequire => _; apply/rres_eq; congr bind.
  apply: (rfill (c := fun i => bind (vget (data M) i) (fun x => bind (vget (data M2) i) (fun y => h x y)))).
  by move=> i d hi; case: (vget _ _) => //= x; case: (vget _ _).
have md : mul_data g M M2 = mul_data g' M M2.
  apply/rres_eq; rewrite /mul_data; apply: rbind_same => n1 _; apply: rbind_same => n2 _; apply/rres_eq.
  exact: (rfill2 (c := fun row col => for_ 0 n1 (fun idx s =>
              bind (get_ref M row idx) (fun x => bind (get_ref M2 idx col) (fun y => Ok (n_add s (n_mul x y))))) (n_zero N))).
split.
- by split; rewrite /id /zero /zero_vector /one_vector fl.
- by rewrite /diag /block_diag !fl.
- by rewrite /neg /scale !p1.
- by rewrite /add /sub /elem_mul /elem_div !p2.
- by rewrite /mul /mmul md.
Qed.

(*@doc C15: the methods that rearrange elements, for every matrix the API can construct. *)
Lemma garbage_shape_L : forall T (g g' : nat -> T) (M M2 : mat T) r c r0 c0 r1 c1 ks p sel,
  wf M -> wf M2 ->
  [/\ cr g M M2 = cr g' M M2 /\ bitor g M M2 = bitor g' M M2, cb g M M2 = cb g' M M2,
      minor g M r c = minor g' M r c, sub_matrix g M r0 c0 r1 c1 = sub_matrix g' M r0 c0 r1 c1 &
      [/\ permute_rows g M ks = permute_rows g' M ks, permute_columns g M ks = permute_columns g' M ks,
          filter_rows g p M = filter_rows g' p M, filter_columns g p M = filter_columns g' p M &
          select_rows g M sel = select_rows g' M sel /\ select_columns g M sel = select_columns g' M sel]].
Proof.
move=> T g g' M M2 r c r0 c0 r1 c1 ks p sel /mat_of_surj [m [n [A ->]]] /mat_of_surj [m2 [n2 [B ->]]].
have HA := mat_of_rep (A ord0 ord0) A.
have pr rs : permute_rows g (mat_of A) rs = permute_rows g' (mat_of A) rs.
  case: (boolP (all (fun k => k < m.+1) rs)) => h; last by rewrite !(permute_rows_panic _ HA).
  exact: rep_indep (rep_permute_rows g HA _ h) (rep_permute_rows g' HA _ h).
have pc cs : permute_columns g (mat_of A) cs = permute_columns g' (mat_of A) cs.
  case: (boolP (all (fun k => k < n.+1) cs)) => h; last by rewrite !(permute_columns_panic _ HA).
  exact: rep_indep (rep_permute_columns g HA _ h) (rep_permute_columns g' HA _ h).
split.
- have E : cr g (mat_of A) (mat_of B) = cr g' (mat_of A) (mat_of B).
    case: (eqVneq m.+1 m2.+1) => [[e]|ne]; last by rewrite !cr_panics_L.
    by move: e B => <- B; rewrite !(proj1 (cr_ok_L _ _ _ _)).
  by rewrite /bitor E.
- case: (eqVneq n.+1 n2.+1) => [[e]|ne]; last by rewrite !cb_panics_L.
  by move: e B => <- B; rewrite !cb_ok_L.
- case: (boolP [&& r < m.+1, c < n.+1, 1 < m.+1 & 1 < n.+1]) => h; last by rewrite !minor_panics_L.
  case/and4P: h => hr hc h1 h2.
  by have := minor_ok_L g' A (Ordinal hr) (Ordinal hc) h1 h2; have := minor_ok_L g A (Ordinal hr) (Ordinal hc) h1 h2 => /= -> ->.
- have := sub_matrix_exact_L g A r0 c0 r1 c1 (ltn0Sn m); have := sub_matrix_exact_L g' A r0 c0 r1 c1 (ltn0Sn m) => /=.
  case: ifP => _; last by move=> -> ->.
  case=> B1 -> H1 [B2 -> H2]; congr (Ok (mat_of _)); apply/matrixP => i j.
  by rewrite (H1 _ _ (A ord0 ord0)) (H2 _ _ (A ord0 ord0)).
split=> //; rewrite /filter_rows /filter_columns /select_rows /select_columns.
- by case: (for_ _ _ _ _) => //=.
- by case: (cols _) => //= nc; case: (for_ _ _ _ _) => //=.
split.
- by case: (_ == _) => //=; case: (for_ _ _ _ _) => //=.
- by case: (cols _) => //= nc; case: (_ == _) => //=; case: (for_ _ _ _ _) => //=.
Qed.

(** the row permutation of an LU decomposition keeps its length *)
Lemma lu_new_piv (S : scalar) gp (a : mat S) d : lu_new gp a = Ok d -> size (piv d) = rows (lu d).
Proof.
pose any (e : err) := True.
suff : wpe any (lu_new gp a) (fun d => size (piv d) = rows (lu d)) by case: (lu_new gp a) => //= d' h [<-].
rewrite /lu_new; set m := rows a.
have same A (x : res A) (k : A -> res (lu_decomp S)) Q : (forall y, wpe any (k y) Q) -> wpe any (bind x k) Q.
  by case: x => //=.
apply: (same) => n; apply: (wpe_bind2 (P := fun v => size v = m)).
  case: (leqP 0 m) => // _; apply: (wpe_for (fun _ v => size v = m)) => //; first by rewrite size_alloc.
  by move=> i s hi sz; rewrite /vset; case: ifP => //= _; rewrite size_upd.
move=> pv spv; apply: (wpe_bind2 (P := fun st => size st.1.2 = m)).
  apply: (wpe_for (fun _ (st : seq S * seq nat * bool) => size st.1.2 = m)) => //.
  move=> j [[ld pd] sg] hj /= sz; rewrite /lu_step.
  case: (lu_column _ _ _ _) => //= ld1; case: (lu_pivot _ _ _ _) => //= p.
  set c := (if _ then _ else _).
  suff : wpe any c (fun st => size st.1.2 = m).
    by case: c => //= -[[l2 p2] s2] /= h; case: (lu_divide _ _ _ _).
  rewrite /c; case: ifP => //= _; case: (lu_swap_rows _ _ _ _) => //= l2.
  rewrite /lu_swap_piv; case: (vget _ _) => //= x; case: (vget _ _) => //= y.
  by rewrite /vset; case: ifP => //= _; case: ifP => //= _; rewrite !size_upd.
move=> [[ld pd] sg] /= sz; rewrite /new; case: (_ == _) => //=; case: (_ && _) => //=.
Qed.

Lemma lu_solve_garbage (S : scalar) (g g' : nat -> S) d' b' : size (piv d') = rows (lu d') -> lu_solve g d' b' = lu_solve g' d' b'.
Proof.
move=> sp; apply/rres_eq; rewrite /lu_solve; apply: rbind_same => n _; apply: rrequire => _.
apply: rbind_same => ns _; case: ifP => // _; apply: rbind_same => nx _.
set m := rows (lu d') in sp *.
apply: (rbind (Q := fun x y => x = y)); last by move=> x y ->; apply: rres_refl.
rewrite /lu_copy_rhs; apply: (rbind (Q := fun x y => x.1 = y.1)); last by move=> [x ?] [y ?] /= ->.
apply: rres_mono.
  apply: (rfor (I := fun i x y => agree (m * nx) (fun k => k < i * nx) x.1 y.1 /\ x.2 = i * nx /\ y.2 = i * nx)).
    by split=> //; apply: agree_alloc.
  move=> i x y hi Hxy; apply: rres_mono.
    apply: (rfor (I := fun j x y => agree (m * nx) (fun k => k < i * nx + j) x.1 y.1 /\ x.2 = i * nx + j /\ y.2 = i * nx + j)).
      by rewrite addn0.
    move=> j [x' k] [y' k'] hj /= [H [-> ->]]; apply: rbind_same => p _; apply: rbind_same => z _.
    apply: (rbind (Q := agree (m * nx) (fun k => k < i * nx + j.+1))); first by apply: rset H _ => l hl; lia.
    by move=> x'' y'' H''; split=> //; split; rewrite ?addnS ?addn1 /=; lia.
  by rewrite max0n mulSn addnC.
move=> [x k] [y k'] /= [H _]; apply: agree_full H _; rewrite max0n sp; lia.
Qed.

(*@doc C15: LU decomposition and everything built on it, any scalar type. *)
Lemma garbage_lu_L : forall (S : scalar) (gp gp' : nat -> nat) (g g' h h' : nat -> S) (a b : mat S) (d : lu_decomp S),
  [/\ lu_new gp a = lu_new gp' a,
      [/\ lu_get_l g d = lu_get_l g' d, lu_get_u g d = lu_get_u g' d & lu_get_p g h d = lu_get_p g' h' d],
      det gp a = det gp' a, is_non_singular gp a = is_non_singular gp' a /\ is_singular gp a = is_singular gp' a &
      solve gp g a b = solve gp' g' a b /\ inverse gp g h a = inverse gp' g' h' a].
Proof.
move=> S gp gp' g g' h h' a b d.
have LN : lu_new gp a = lu_new gp' a.
  rewrite /lu_new; case: (cols a) => //= n; congr bind; exact: (rfill (c := fun i => Ok i)).
split=> //.
- split.
  + apply/rres_eq; rewrite /lu_get_l; apply: rbind_same => c _; apply/rres_eq; congr bind.
    set n := if _ then _ else _.
    exact: (rfill2 (c := fun i j => if j < i then vget (get_data (lu d)) (i * c + j)
               else if i == j then Ok (n_one S) else Ok (n_zero S))).
  + apply/rres_eq; rewrite /lu_get_u; apply: rbind_same => c _; apply/rres_eq; congr bind.
    exact: (rfill2 (c := fun i j => if i <= j then vget (get_data (lu d)) (i * c + j) else Ok (n_zero S))).
  + rewrite /lu_get_p !id_ok_L /bind; set I := (X in mat_of X).
    case: (size (piv d)) I => [|n] I; first by rewrite /permute_rows.
    have WI : wf (mat_of I) by rewrite wf_mat_of.
    by have [_ _ _ _ [-> _ _ _ _]] := garbage_shape_L h h' 0 0 0 0 0 0 (piv d) (fun _ _ => true) [::] WI WI.
- by rewrite /det; case: (cols a) => //= n; rewrite LN.
- have E : is_non_singular gp a = is_non_singular gp' a.
    by rewrite /is_non_singular; case: (cols a) => //= n; rewrite LN.
  by rewrite /is_singular E.
split.
- rewrite /solve LN; case E: (lu_new gp' a) => [d'|] //=; apply: lu_solve_garbage; exact: lu_new_piv E.
- rewrite /inverse LN; case: (cols a) => //= n; case: (_ == _) => //=.
  case E: (lu_new gp' a) => [d'|] //=.
  rewrite !(@id_ok_L S) /bind; apply: lu_solve_garbage; exact: lu_new_piv E.
Qed.

(*@doc C15: Cholesky decomposition, any scalar type. *)
Lemma garbage_chol_L : forall (S : scalar) (g g' : nat -> S) (a : mat S), chol_new g a = chol_new g' a.
Proof.
move=> S g g' a; apply/rres_eq; rewrite /chol_new; apply: rbind_same => c _; case: ifP => // _.
set n := rows a.
apply: (rbind (Q := fun x y => x = y)); last by move=> x y ->; apply: rres_refl.
apply: rres_mono.
  apply: (rforc (I := fun j => agree (n * n) (fun k => k < j * n))); first exact: agree_alloc.
  move=> j x y /andP[_ hj] Hxy; rewrite /chol_step.
  apply: (rbind (Q := fun c d => match c, d with
     | Next a', Next b' => agree (n * n) (fun k => k < j * n + j) a'.1 b'.1 /\ a'.2 = b'.2
     | Stop r, Stop r' => r = r' | _, _ => False end)); last first.
    move=> [[x' d]|r] [[y' d']|r'] //= [H <-]; apply: rbind_same => ajj _; case: ifP => // _.
    apply: rbind_same => r _.
    apply: (rbind (Q := agree (n * n) (fun k => k < j * n + j.+1))).
      by apply: rset H _ => k hk; lia.
    move=> x2 y2 H2; apply: (rbind (Q := agree (n * n) (fun k => k < j.+1 * n))); last by move=> ? ? ?.
    apply: rres_mono.
      apply: (rfor (I := fun l => agree (n * n) (fun k => k < j * n + l))); first by rewrite addn1.
      by move=> l x3 y3 hl H3; apply: rset H3 _ => k hk; lia.
    move=> x3 y3 H3; apply: agree_mono H3 _ => k _; rewrite mulSn; lia.
  rewrite /chol_row; apply: rres_mono.
    apply: (rforc (I := fun k (x y : seq S * S) => agree (n * n) (fun l => l < j * n + k) x.1 y.1 /\ x.2 = y.2)).
      by rewrite addn0.
    move=> k [x' d] [y' d'] hk /= [H <-].
    have -> : for_ 0 k (fun i s => bind (vget x' (k * n + i)) (fun x0 => bind (vget x' (j * n + i)) (fun y0 => Ok (n_add s (n_mul x0 y0))))) (n_zero S)
            = for_ 0 k (fun i s => bind (vget y' (k * n + i)) (fun x0 => bind (vget y' (j * n + i)) (fun y0 => Ok (n_add s (n_mul x0 y0))))) (n_zero S).
      apply: for_eq => i s hi; rewrite !(agree_get H) //; last by nia.
      by lia.
    apply: rbind_same => s _; apply: rbind_same => ajk _; rewrite (agree_get H); last by nia.
    apply: rbind_same => lkk _; apply: rbind_same => s' _.
    apply: (rbind (Q := agree (n * n) (fun l => l < j * n + k.+1))); first by apply: rset H _ => l hl; lia.
    move=> x2 y2 H2; apply: rbind_same => akj _; apply: rbind_same => ajk' _; by case: ifP.
  by move=> [x'|r] [y'|r'] //=; rewrite max0n.
move=> [x|r] [y|r'] //=; last by move=> ->.
rewrite max0n => H; congr Next; exact: agree_full H _.
Qed.

(*@doc C15: QR decomposition and the pseudo-inverse, any scalar type. *)
Lemma garbage_qr_L : forall (S : scalar) (gp gp' : nat -> nat) (g1 g2 g3 g4 g5 g6 g7 g8 h1 h2 h3 h4 h5 h6 h7 h8 : nat -> S)
    (a : mat S) (d : qr_decomp S),
  [/\ qr_new g1 a = qr_new h1 a, qr_get_h g1 d = qr_get_h h1 d, qr_get_r g1 d = qr_get_r h1 d &
      pinverse gp g1 g2 g3 g4 g5 g6 g7 g8 a = pinverse gp' h1 h2 h3 h4 h5 h6 h7 h8 a].
Proof.
move=> S gp gp' g1 g2 g3 g4 g5 g6 g7 g8 h1 h2 h3 h4 h5 h6 h7 h8 a d.
have Q : qr_new g1 a = qr_new h1 a.
  apply/rres_eq; rewrite /qr_new; apply: rbind_same => n _.
  set m := rows a; set k := minn m n.
  apply: (rbind (Q := fun x y => x = y)); last by move=> x y ->; apply: rres_refl.
  apply: rres_mono.
    apply: (rfor (I := fun i (x y : seq S * seq S) => x.1 = y.1 /\ agree k (fun l => l < i) x.2 y.2)).
      by split=> //; apply: agree_alloc.
    move=> i [x r] [y r'] hi /= [<- H]; rewrite /perform_householder_reflection.
    apply: rbind_same => nn _; apply: rbind_same => xx _; apply: rbind_same => rr _.
    apply: (rbind (Q := agree k (fun l => l < i.+1))); first by apply: rset H _ => l hl; lia.
    move=> r2 r2' H2; case: ifP => //= _.
    by apply: rbind_same => x2 _; apply: rbind_same => q2 _; apply: rbind_same => q3 _.
  move=> [x r] [y r'] /= [-> H]; congr pair; apply: agree_full H _; rewrite max0n; lia.
have R (d' : qr_decomp S) g h : qr_get_r g d' = qr_get_r h d'.
  apply/rres_eq; rewrite /qr_get_r; apply: rbind_same => n _; apply/rres_eq; congr bind.
  exact: (rfill2 (c := fun i j => if i < j then vget (get_data (qr d')) (i * n + j)
               else if i == j then vget (rdiag d') i else Ok (n_zero S))).
split=> //.
  apply/rres_eq; rewrite /qr_get_h; apply: rbind_same => n _; apply/rres_eq; congr bind.
  exact: (rfill2 (c := fun i j => if j <= i then vget (get_data (qr d)) (i * n + j) else Ok (n_zero S))).
have tt g h (M : mat S) : t g M = t h M by have [_ ->] := garbage_any_L g h g h (fun x => x) g M 0 0.
have mm g h (M M2 : mat S) : mul (N:=S) g M M2 = mul (N:=S) h M M2.
  by have [_ _ _ _ [-> _]] := @garbage_num_L S g h M M2 [::] (n_zero S) 0 0.
rewrite /pinverse Q; case: (qr_new h1 a) => //= q; rewrite (R q g2 h2); case: (qr_get_r h2 q) => //= r.
rewrite (tt g3 h3); case: (t h3 r) => //= rt; rewrite (mm g4 h4); case: (mul _ _ _) => //= rtr.
have [_ _ _ _ [_ ->]] := garbage_lu_L gp gp' g5 h5 g6 h6 rtr rtr (LUDecomposition rtr true [::]).
case: (inverse _ _ _ _) => //= -[i|] //=; rewrite (tt g7 h7); case: (t h7 a) => //= at_; exact: mm.
Qed.

(*@doc C15: the singular value decomposition, any scalar type, any number of iterations allowed. *)
Lemma garbage_svd_L : forall (S : scalar) fuel (g1 g2 g3 g4 g5 g6 g7 g8 h1 h2 h3 h4 h5 h6 h7 h8 : nat -> S) (a : mat S),
  svd_new fuel g1 g2 g3 g4 g5 g6 g7 g8 a = svd_new fuel h1 h2 h3 h4 h5 h6 h7 h8 a.
Proof.
move=> S fuel g1 g2 g3 g4 g5 g6 g7 g8 h1 h2 h3 h4 h5 h6 h7 h8 a.
have B m n ds : block_diag (N:=S) g6 m n ds = block_diag (N:=S) h6 m n ds.
  by have [_ [_ ->]] := @garbage_num_L S g6 h6 a a ds (n_zero S) m n.
have tt g h (M : mat S) : t g M = t h M by have [_ ->] := garbage_any_L g h g h (fun x => x) g M 0 0.
have T := svd_tall_agree fuel g1 g2 g3 g4 g5 h1 h2 h3 h4 h5 _ B.
rewrite /svd_new; case: (cols a) => //= n; case: ifP => _; last exact: T.
by rewrite (tt g7 h7); case: (t h7 a) => //= a'; rewrite T; case: (svd_tall _ _ _ _ _ _ _ _) => //= d; rewrite (tt g8 h8).
Qed.

(*@doc C15: the eigenvalue decomposition of a matrix that compares symmetric, any scalar type.  (The three
    shared arguments gz gr gs are not memory: they stand for the values that variables of the algorithm hold from
    earlier computations, ModelEigen.v, hqr2_back.) *)
Lemma garbage_eigen_symmetric_L : forall (S : scalar) fuel (g1 g2 g3 g4 g5 h1 h2 h3 h4 h5 gz gr gs : nat -> S) (a : mat S) n,
  cols a = Ok n ->
  (forall i j, i < n -> j < n -> exists x y, [/\ get a i j = Ok x, get a j i = Ok y & s_eqb x y]) ->
  eigen_new fuel g1 g2 g3 g4 g5 gz gr gs a = eigen_new fuel h1 h2 h3 h4 h5 gz gr gs a.
Proof.
move=> S fuel g1 g2 g3 g4 g5 h1 h2 h3 h4 h5 gz gr gs a n Ec H.
apply: (eigen_new_agree _ _ _ _ _ _ _ _ _ _ _ _ _ _ Ec); left.
suff : wp (eigen_symmetric n a) (fun b => b) by case: (eigen_symmetric n a) => //= -[].
rewrite /eigen_symmetric; apply: (wpe_for (fun _ b => is_true b)) => // j s hj ->.
apply: (wpe_for (fun _ b => is_true b)) => // i s' hi ->.
by have [|//|x [y [-> -> E]]] := H i j; [lia|].
Qed.

(*@doc C15: the eigenvalue decomposition of any matrix, and its accessors. *)
Lemma garbage_eigen_L : forall (S : scalar) fuel (g1 g2 g3 g4 g5 h1 h2 h3 h4 h5 gz gr gs : nat -> S) (a : mat S) (d : eigen S),
  zero_sum S ->
  eigen_new fuel g1 g2 g3 g4 g5 gz gr gs a = eigen_new fuel h1 h2 h3 h4 h5 gz gr gs a /\
  eigen_get_d g1 d = eigen_get_d h1 d.
Proof.
move=> S fuel g1 g2 g3 g4 g5 h1 h2 h3 h4 h5 gz gr gs a d law; split.
  case Ec: (cols a) => [n|e]; last by rewrite /eigen_new Ec.
  by apply: (eigen_new_agree _ _ _ _ _ _ _ _ _ _ _ _ _ _ Ec); right.
rewrite /eigen_get_d; congr bind; set n := eg_n d; apply/rres_eq; apply: rres_mono.
  apply: (rfor (I := fun i => agree2 n n (fun r _ => r < i))); first exact: agree2_alloc.
  move=> i x y hi A; apply: (rbind (Q := agree2 n n (fun r _ => r < i.+1))).
    apply: rres_mono.
      apply: (rfor (I := fun j => agree2 n n (fun r c => r < i \/ r = i /\ c < j))); first by apply: agree2_mono A _ => *; lia.
      by move=> j x1 y1 hj A1; apply: rset2 A1 _ _ _ => *; lia.
    by move=> x1 y1 A1; apply: agree2_mono A1 _ => *; lia.
  move=> x1 y1 A1.
  have keep k z u w : agree2 n n (fun r _ => r < i.+1) u w -> rres (agree2 n n (fun r _ => r < i.+1)) (vset u k z) (vset w k z).
    case=> s1 s2 HA; rewrite /vset s1 s2; case: ifP => //= hk; split; rewrite ?size_upd // => r c hr hc hri.
    by rewrite !vget_upd ?s1 ?s2 //; case: ifP => // _; apply: HA.
  apply: rbind_same => di _; apply: (rbind (Q := agree2 n n (fun r _ => r < i.+1))); first exact: keep.
  move=> x2 y2 A2; apply: rbind_same => ei _; case: ifP => _; first exact: keep.
  by case: ifP => // _; apply: rbind_same => i1 _; exact: keep.
by move=> x y A; apply: agree2_full A _ => *; lia.
Qed.

Lemma cb_garbage T (g g' : nat -> T) (M M2 : mat T) : cb g M M2 = cb g' M M2.
Proof.
apply/rres_eq; rewrite /cb; apply: rbind_same => n1 _; apply: rbind_same => n2 _; apply: rrequire => _.
set k1 := size (data M); set k2 := size (data M2).
apply: (rbind (Q := agree (k1 + k2) (fun i => i < k1))).
  apply: rres_mono.
    apply: (rfor (I := fun i => agree (k1 + k2) (fun j => j < i))); first exact: agree_alloc.
    by move=> i x y hi A; apply: rbind_same => z _; apply: rset A _ => *; lia.
  by move=> x y; rewrite max0n.
move=> x y A; apply: (rbind (Q := eq)); last by move=> ? ? ->.
apply: rres_mono.
  apply: (rfor (I := fun i => agree (k1 + k2) (fun j => j < k1 + i))); first by rewrite addn0.
  by move=> i x1 y1 hi A1; apply: rbind_same => z _; apply: rset A1 _ => *; lia.
by move=> x1 y1; rewrite max0n => A1; apply: agree_full A1 _.
Qed.

Lemma new_wf T r c (d : seq T) M : new r c d = Ok M -> wf M /\ no_rows M = r.
Proof.
rewrite /new; case: eqP => //= E; case: andP => //= -[r0 c0] [<-]; split=> //; rewrite /wf /= -E r0 muln_gt0 r0 c0.
by rewrite dvdn_mulr.
Qed.

(*@doc C15: SVD::direct. *)
Lemma garbage_direct_L : forall (S : scalar) fuel (ge ge' g g' : nat -> nat -> S) (gp gp' : nat -> nat) (g1 g2 h1 h2 : nat -> S) (a : mat S),
  zero_sum S -> (forall i, 4 < i -> ge i = ge' i) ->
  svd_direct fuel ge g gp g1 g2 a = svd_direct fuel ge' g' gp' h1 h2 a.
Proof.
move=> S fuel ge ge' g g' gp gp' g1 g2 h1 h2 a law Hge.
have tt x y (M : mat S) : t x M = t y M by have [_ ->] := garbage_any_L x y x y (fun x => x) x M 0 0.
have mm x y (M M2 : mat S) : mul (N:=S) x M M2 = mul (N:=S) y M M2.
  by have [_ _ _ _ [-> _]] := @garbage_num_L S x y M M2 [::] (n_zero S) 0 0.
have B x y m n ds : block_diag (N:=S) x m n ds = block_diag (N:=S) y m n ds.
  by have [_ [_ ->]] := @garbage_num_L S x y a a ds (n_zero S) m n.
have Z x y m n : zero (N:=S) x m n = zero (N:=S) y m n.
  by have [[_ -> _ _] _] := @garbage_num_L S x y a a [::] (n_zero S) m n.
have T (M : mat S) : svd_direct_tall fuel ge g gp M = svd_direct_tall fuel ge' g' gp' M.
  rewrite /svd_direct_tall (tt _ (g' 0)); case: (t _ M) => //= Mt; rewrite (mm _ (g' 1)); case: (mul _ _ _) => //= ata.
  rewrite (Hge 5) // (Hge 6) // (Hge 7) //; have [-> _] := garbage_eigen_L fuel (ge 0) (ge 1) (ge 2) (ge 3) (ge 4) (ge' 0) (ge' 1) (ge' 2) (ge' 3) (ge' 4)
     (ge' 5) (ge' 6) (ge' 7) ata (Eigen 0 [::] [::] ata) law.
  case: (eigen_new _ _ _ _ _ _ _ _ _ _) => //= edc; case: (sqrt_all _) => //= sv; rewrite (B _ (g' 2)); case: (block_diag _ _ _ _) => //= s.
  have [_ _ _ _ [_ ->]] := garbage_lu_L gp gp' (g 3) (g' 3) (g 4) (g' 4) s s (LUDecomposition s true [::]).
  case Ei: (inverse _ _ _ _) => [[si|]|] //=; case: (cols M) => //= n.
  apply/rres_eq; apply: (rbind (Q := eq)); last first.
    move=> [sa sia] _ <-; apply/rres_eq; rewrite (mm _ (g' 10)); case: (mul _ _ _) => //= av.
    by rewrite (mm _ (g' 11)).
  apply/rres_eq.
  case: ifP => // nE; rewrite /usub; case: ifP => //= nM; case: (cols s) => //= sc.
  rewrite (Z _ (g' 6)); case: (zero _ _ _) => //= z1; rewrite (cb_garbage _ (g' 7)); case: (cb _ _ _) => //= s'.
  rewrite (Z _ (g' 8)); case Ez: (zero _ _ _) => [z2|] //=.
  suff -> : cr (g 9) si z2 = cr (g' 9) si z2 by [].
  have [wi _] : wf si /\ no_rows si = no_rows si.
    move: Ei; rewrite /inverse; case: (cols s) => //= ns; case: (_ == _) => //=; case: (lu_new _ _) => //= lud.
    case: (id _ _ _) => //= ii; rewrite /lu_solve; case: (cols _) => //= nn; case: (_ == _) => //=.
    case: (lu_is_non_singular _) => //= -[] //=; case: (cols _) => //= nx; case: (lu_copy_rhs _ _ _ _) => //= x1.
    case: (lu_forward _ _ _ _) => //= x2; case: (lu_backward _ _ _ _) => //= x3.
    by case En: (new _ _ _) => [x4|] //= [<-]; have [] := new_wf En.
  have wz : wf z2.
    have := rep_zero (N:=S) (g' 8) (rows si) (rows M - n); rewrite Ez /=.
    by move=> Hz; rewrite (rep_matrix Hz) wf_mat_of; case/and3P: wi => w1 _ _; rewrite w1 /=; move/eqP: nE => nE; rewrite subn_gt0 ltn_neqAle nM andbT; apply/eqP => E; apply: nE.
  by have [[-> _] _ _ _ _] := garbage_shape_L (g 9) (g' 9) 0 0 0 0 0 0 [::] (fun _ _ => true) [::] wi wz.
rewrite /svd_direct; case: (cols a) => //= n; case: ifP => _; last exact: T.
by rewrite (tt _ h1); case: (t h1 a) => //= a'; rewrite T; case: (svd_direct_tall _ _ _ _ _) => //= d; rewrite (tt _ h2).
Qed.

(*@doc C15: the law that garbage_eigen and garbage_direct assume holds in exact arithmetic and for f64 (Flocq's binary64). *)
Lemma zero_sum_exact_L : forall (F : rcfType) (eps tiny : F), zero_sum (exactE eps tiny).
Proof.
move=> F eps tiny x ys /=; rewrite GRing.add0r => /eqP E; rewrite -Num.Theory.normr_le0 -E; move: `|x|%R {E} => s.
elim: ys s => //= y ys IH s; apply: Order.POrderTheory.le_trans (IH _); by rewrite Num.Theory.ler_addl Num.Theory.normr_ge0.
Qed.

Lemma zero_sum_f64_L : zero_sum B64.
Proof. exact: b64_zero_sum. Qed.

(*@example
(** the hypotheses of garbage_eigen_symmetric are met by a matrix of binary64 numbers *)
Example garbage_symmetric_example : let a := Mat 2 [:: s_ofnat B64 2; s_ofnat B64 1; s_ofnat B64 1; s_ofnat B64 5] : mat B64 in
  cols a = Ok 2 /\
  (forall i j, i < 2 -> j < 2 -> exists x y, [/\ get a i j = Ok x, get a j i = Ok y & s_eqb x y]).
Proof.
split=> // -[|[|i]] [|[|j]] // _ _; do 2 eexists; split; try reflexivity; by vm_compute.
Qed.
(** the hypothesis of garbage_shape is met, and fresh memory really is arbitrary *)
Example garbage_wf : wf (Mat 2 [:: 1; 2; 3; 4; 5; 6]). Proof. by []. Qed.
Example garbage_differs : alloc_dirty_vec (fun=> 1) 2 <> alloc_dirty_vec (fun=> 2) 2. Proof. by []. Qed.
@*)
