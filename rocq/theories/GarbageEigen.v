(** * GarbageEigen: the eigenvalue decomposition does not depend on the
    contents of uninitialised memory (used by GarbageThms2, C15). *)
From mathcomp Require Import all_ssreflect all_algebra zify.
From Verif Require Import Base Scalar Hoare Rel ModelMatrix ModelHypot ModelSVD ModelEigen SpecGarbage GarbageSvd.

Set Implicit Arguments.
Unset Strict Implicit.
Unset Printing Implicit Defensive.

Section S.
Variable S : scalar.
Implicit Types (v w d e h ort : seq S).

Lemma eigen_copy_agree n (a : mat S) g g' :
  eigen_copy n a (alloc_dirty_vec g (n * n)) = eigen_copy n a (alloc_dirty_vec g' (n * n)).
Proof. exact: (rfill2 (c := fun i j => get a i j)). Qed.

Lemma eigen_copy_t_agree n (a : mat S) g g' :
  eigen_copy_t n a (alloc_dirty_vec g (n * n)) = eigen_copy_t n a (alloc_dirty_vec g' (n * n)).
Proof.
apply/rres_eq; rewrite /eigen_copy_t; apply: rres_mono.
  apply: (rfor (I := fun j => agree2 n n (fun _ c => c < j))); first by apply: agree2_alloc.
  move=> j x y hj A; apply: rres_mono.
    apply: (rfor (I := fun i => agree2 n n (fun r c => c < j \/ (c = j /\ r < i)))).
      by apply: agree2_mono A _ => *; lia.
    by move=> i x1 y1 hi A1; apply: rbind_same => z _; apply: rset2 A1 _ _ _ => *; lia.
  by move=> x1 y1 A1; apply: agree2_mono A1 _ => *; lia.
by move=> x y A; apply: agree2_full A _ => *; lia.
Qed.

Lemma orthes_id_agree n g g' :
  orthes_id (S:=S) n (alloc_dirty_vec g (n * n)) = orthes_id n (alloc_dirty_vec g' (n * n)).
Proof. exact: (rfill2 (c := fun i j => Ok (if i == j then n_one S else n_zero S))). Qed.

Lemma tred2_agree n v (g g' h h' : nat -> S) :
  tred2 n (alloc_dirty_vec g n) v (alloc_dirty_vec h n) = tred2 n (alloc_dirty_vec g' n) v (alloc_dirty_vec h' n).
Proof.
apply/rres_eq; rewrite /tred2.
have -> : tred2_init n (alloc_dirty_vec g n) v = tred2_init n (alloc_dirty_vec g' n) v.
  exact: (rfill (c := fun j => vget v ((n - 1) * n + j))).
apply: rbind_same => d _; case: (posnP n) => [->|n0]; first by [].
apply: (rbind (Q := fun a b => [/\ a.1.1 = b.1.1, a.1.2 = b.1.2 & exists n', agree n' (fun j => 0 < j) a.2 b.2])); last first.
  move=> [[d1 v1] e1] [[d1' v1'] e1'] /= [<- <- [n' A]]; apply: rbind_same => n1 _; apply: rbind_same => -[d2 v2] _.
  apply: rbind_same => -[d3 v3] _; apply: rbind_same => v4 _; apply: (rbind (Q := eq)); last by move=> ? ? ->.
  apply: rres_mono (rset (P' := fun=> True) _ A _) _ => [i hi _|x y A1]; first by lia.
  exact: agree_full A1 _.
apply: rres_mono.
  apply: (rforr (I := fun i (a b : seq S * seq S * seq S) => [/\ a.1.1 = b.1.1, a.1.2 = b.1.2 & exists n', agree n' (fun j => i <= j) a.2 b.2])) => //.
    by split=> //=; exists n; split; rewrite ?size_alloc // => i hi; rewrite !vget_oob // size_alloc.
  move=> i [[d1 v1] e1] [[d1' v1'] e1'] hi /= [<- <- [n' A]].
  apply: rbind_same => sc _.
  pose Q (a b : seq S * seq S * seq S * S) := [/\ a.1.1 = b.1.1, exists n', agree n' (fun j => i <= j) a.1.2 b.1.2 & a.2 = b.2].
  apply: (rbind (Q := Q)); last first.
    by move=> [[[d2 v2] e2] h2] [[[d2' v2'] e2'] h2'] [/= [<- <-] A2 <-]; apply: rbind_same => d3 _.
  case: ifP => _.
    rewrite /tred2_skip; case: (vget d1 (i - 1)) => //= x.
    apply: (rbind (Q := fun a b => a.1 = b.1 /\ agree n' (fun j => i <= j) a.2 b.2)); last first.
      by move=> [[d2 v2] e2] [[d2' v2'] e2'] /= [[<- <-] A2]; split=> //; exists n'.
    apply: (rbind (Q := agree n' (fun j => i <= j))); first by apply: rset A _ => *; lia.
    by move=> e2 e2' A2; apply: rbind_same => -[d2 v2] _.
  apply: rbind_same => -[d2 h2] _; apply: rbind_same => f _; apply: rbind_same => g2 _.
  apply: (rbind (Q := agree n' (fun j => i <= j))); first by apply: rset A _ => *; lia.
  move=> e2 e2' A2; apply: rbind_same => d3 _; apply: (rbind (Q := eq)).
    apply: rres_mono.
      apply: (rfor (I := fun k => agree n' (fun j => i <= j \/ j < k))); first by apply: agree_mono A2 _ => *; lia.
      by move=> k x y hk A3; apply: rset A3 _ => *; lia.
    by move=> x y A3; apply: agree_full A3 _ => *; lia.
  move=> e3 _ <-.
  (* from here on both runs have the same data *)
  set c := bind _ _; case: c => //= -[[[d4 v4] e4] h4]; split=> //=; by exists (size e4).
by move=> [[d1 v1] e1] [[d1' v1'] e1'] /= [<- <- A].
Qed.

Lemma orthes_scale_zero n m h sc : zero_sum S -> m < n -> orthes_scale n m h = Ok sc -> s_eqb sc (n_zero S) ->
  exists2 x, vget h (m * n + (m - 1)) = Ok x & s_eqb x (n_zero S).
Proof.
move=> law mn; rewrite /orthes_scale for_recl //; case E: (vget h (m * n + (m - 1))) => [x|] //= H z.
exists x => //.
suff [ys Eq] : exists ys, sc = foldl (fun sc y => n_add sc (s_abs y)) (n_add (n_zero S) (s_abs x)) ys.
  by apply: (law x ys); rewrite -Eq.
move: (n_add _ _) H; rewrite /for_ => s0; move: (n - m.+1) => k; move: m.+1 (m - 1) => i c; clear E z mn.
elim: k i s0 => [|k IH] i s0 /=; first by case=> <-; exists [::].
case: (vget h _) => //= y /IH [ys ->]; by exists (y :: ys).
Qed.

(** the columns left of m are not touched by the transformations of step m *)
Definition same_left n m (h h' : seq S) := forall i j, j < m -> j < n -> vget h' (i * n + j) = vget h (i * n + j).

Lemma same_left_set n m h h' i j x : j < n -> m <= j -> same_left n m h h' ->
  wpe (fun=> True) (vset h' (i * n + j) x) (same_left n m h).
Proof.
move=> jn mj H; rewrite /vset; case: ifP => //= hl i' j' h1 h2; rewrite vget_upd //; case: eqP => [E|_]; last exact: H.
by move/eqP: E; rewrite idx_inj // => /andP[_ /eqP]; lia.
Qed.

Lemma orthes_left_frame n m x ort h : wpe (fun=> True) (orthes_left n m x ort h) (same_left n m h).
Proof.
case: (leqP m n) => [mn|nm]; last by rewrite /orthes_left for_nil //; lia.
rewrite /orthes_left; apply: (wpe_for (fun _ => same_left n m h)) => // j h1 hj H1.
apply: wpe_bind; case: (for_rev _ _ _ _) => //= f; apply: wpe_bind; case: (n_div _ _) => //= f2.
apply: (wpe_for (fun _ => same_left n m h)) => // i h2 hi H2.
case: (vget h2 _) => //= y; case: (vget ort _) => //= u; apply: same_left_set => //; lia.
Qed.

Lemma orthes_right_frame n m x ort h : wpe (fun=> True) (orthes_right n m x ort h) (same_left n m h).
Proof.
rewrite /orthes_right; apply: (wpe_for (fun _ => same_left n m h)) => // j h1 hj H1.
apply: wpe_bind; case: (for_rev _ _ _ _) => //= f; apply: wpe_bind; case: (n_div _ _) => //= f2.
case: (leqP m n) => [mn|nm]; last by rewrite for_nil //; lia.
apply: (wpe_for (fun _ => same_left n m h)) => // i h2 hi H2.
case: (vget h2 _) => //= y; case: (vget ort _) => //= u; apply: same_left_set => //; lia.
Qed.

(** what the two scratch vectors of orthes have in common *)
Definition ort_ok n m h ort ort' := [/\ size ort = n, size ort' = n & forall i, 0 < i < m ->
  (exists2 x, vget h (i * n + (i - 1)) = Ok x & s_eqb x (n_zero S)) \/ vget ort i = vget ort' i].

Lemma orthes_step_agree n m h ort ort' : zero_sum S -> 0 < m -> m < n -> ort_ok n m h ort ort' ->
  rres (fun a b => a.1 = b.1 /\ ort_ok n m.+1 a.1 a.2 b.2) (orthes_step n m (h, ort)) (orthes_step n m (h, ort')).
Proof.
move=> law m0 mn [s1 s2 H]; rewrite /orthes_step; apply: rbind_same => sc Esc; case: ifP => [_|/negbFE z]; last first.
  split=> //=; split=> // i hi; case: (eqVneq i m) => [->|ne]; last by apply: H; lia.
  by left; apply: orthes_scale_zero Esc z.
pose P i := m <= i \/ (0 < i < m /\ vget ort i = vget ort' i).
have A0 : agree n (fun i => 0 < i < m /\ vget ort i = vget ort' i) ort ort' by split=> // i [].
apply: (rbind (Q := fun a b => agree n P a.1 b.1 /\ a.2 = b.2)).
  apply: rres_mono.
    apply: (rforr (I := fun k a b => agree n (fun i => k <= i \/ (0 < i < m /\ vget ort i = vget ort' i)) a.1 b.1 /\ a.2 = b.2)); first lia.
      by split=> //; apply: agree_mono A0 _ => i hi [] //; lia.
    move=> i [o x] [o' x'] hi /= [A <-]; apply: rbind_same => y _; apply: rbind_same => q _.
    apply: (rbind (Q := agree n (fun j => i <= j \/ (0 < j < m /\ vget ort j = vget ort' j)))); last by move=> ? ? ?.
    by apply: rset A _ => j hj [h1|h1]; [case: (eqVneq j i); [left | right; left; lia] | right; right].
  by [].
move=> [o1 x1] [o1' x1'] /= [A1 <-]; rewrite (agree_get A1); last by left.
apply: rbind_same => om _; apply: rbind_same => g _.
apply: (rbind (Q := agree n P)); first by apply: rset A1 _ => *; right.
move=> o2 o2' A2.
have EL hh (x : S) : orthes_left n m x o2 hh = orthes_left n m x o2' hh.
  have E f i : m <= i -> bind (vget o2 i) f = bind (vget o2' i) f :> res S by move=> mi; rewrite (agree_get A2) //; left.
  apply: for_eq => j h1 hj.
  have -> : for_rev m n (fun i f => bind (vget o2 i) (fun u => bind (vget h1 (i * n + j)) (fun x => Ok (n_add f (n_mul u x))))) (n_zero S)
     = for_rev m n (fun i f => bind (vget o2' i) (fun u => bind (vget h1 (i * n + j)) (fun x => Ok (n_add f (n_mul u x))))) (n_zero S).
    apply/rres_eq; apply: (rforr (I := fun=> eq)) => [|//|i f _ hi <-]; first lia.
    by apply/rres_eq; rewrite E //; lia.
  case: (for_rev _ _ _ _) => //= f; case: (n_div _ _) => //= f2; apply: for_eq => i h2 hi.
  by rewrite (agree_get A2) //; left; lia.
have ER hh (x : S) : orthes_right n m x o2 hh = orthes_right n m x o2' hh.
  have E f i : m <= i -> bind (vget o2 i) f = bind (vget o2' i) f :> res S by move=> mi; rewrite (agree_get A2) //; left.
  apply: for_eq => j h1 hj.
  have -> : for_rev m n (fun i f => bind (vget o2 i) (fun u => bind (vget h1 (j * n + i)) (fun x => Ok (n_add f (n_mul u x))))) (n_zero S)
     = for_rev m n (fun i f => bind (vget o2' i) (fun u => bind (vget h1 (j * n + i)) (fun x => Ok (n_add f (n_mul u x))))) (n_zero S).
    apply/rres_eq; apply: (rforr (I := fun=> eq)) => [|//|i f _ hi <-]; first lia.
    by apply/rres_eq; rewrite E //; lia.
  case: (for_rev _ _ _ _) => //= f; case: (n_div _ _) => //= f2; apply: for_eq => i h2 hi.
  by rewrite (agree_get A2) //; left; lia.
rewrite EL; apply: rbind_same => h1 E1; rewrite ER; apply: rbind_same => h2 E2.
rewrite (agree_get A2); last by left.
apply: rbind_same => om2 _; apply: (rbind (Q := agree n P)); first by apply: rset A2 _ => *; right.
move=> o3 o3' A3; apply: rbind_same => h3 E3; split=> //=; have [z1 z2 A4] := A3; split=> // i hi.
case: (eqVneq i m) => [->|ne]; first by right; apply: A4; left.
have [|[x Ex zx]|E4] := H i; [by lia | left | by right; apply: A4; right; split=> //; lia].
exists x => //; rewrite -Ex.
have F1 := orthes_left_frame n m (n_sub x1 (n_mul om (if s_ltb (n_zero S) om then n_neg g else g))) o2' h; rewrite E1 /= in F1.
have F2 := orthes_right_frame n m (n_sub x1 (n_mul om (if s_ltb (n_zero S) om then n_neg g else g))) o2' h1; rewrite E2 /= in F2.
rewrite -F1; [|lia..]; rewrite -F2; [|lia..].
move: E3; rewrite /vset; case: ifP => // hl [<-]; rewrite vget_upd //; case: eqP => // E.
move/eqP: E; rewrite idx_inj; lia.
Qed.

Lemma orthes_acc_agree n m h ort ort' v : 0 < m -> m < n -> ort_ok n m.+1 h ort ort' ->
  rres (fun a b => a.2 = b.2 /\ ort_ok n m h a.1 b.1) (orthes_acc n h m (ort, v)) (orthes_acc n h m (ort', v)).
Proof.
move=> m0 mn [s1 s2 H]; rewrite /orthes_acc; apply: rbind_same => x Ex; case: ifP => [nz|_]; last first.
  by split=> //; split=> // i hi; apply: H; lia.
have Em : vget ort m = vget ort' m.
  case: (H m) => [|[y Ey zy]|] //; first lia.
  by move: Ey zy nz; rewrite Ex => -[->] ->.
pose P i := m <= i \/ (i < m /\ vget ort i = vget ort' i).
apply: (rbind (Q := agree n P)).
  apply: rres_mono.
    apply: (rfor (I := fun k => agree n (fun i => m < i < k \/ (i <= m /\ vget ort i = vget ort' i)))).
      by split=> // i [|[]] //; lia.
    move=> i o o' hi A; apply: rbind_same => y _; apply: rset A _ => j hj [h1|h1]; [|by right; right].
    by case: (eqVneq j i); [left | right; left; lia].
  move=> o o' A; apply: agree_mono A _ => i hi [h1|[h1 h2]]; last by right; split=> //; lia.
  by case: (eqVneq i m) => [->|ne]; [right | left; lia].
move=> o1 o1' A1.
have E i f : m <= i -> bind (vget o1 i) f = bind (vget o1' i) f :> res S by move=> mi; rewrite (agree_get A1) //; left.
set c := for_ m n _ v; set c' := for_ m n _ v.
have -> : c = c'.
  apply: for_eq => j v1 hj.
  have -> : for_ m n (fun i g => bind (vget o1 i) (fun u => bind (vget v1 (i * n + j)) (fun x => Ok (n_add g (n_mul u x))))) (n_zero S)
     = for_ m n (fun i g => bind (vget o1' i) (fun u => bind (vget v1 (i * n + j)) (fun x => Ok (n_add g (n_mul u x))))) (n_zero S).
    by apply: for_eq => i g hi; rewrite E //; lia.
  case: (for_ _ _ _ _) => //= g; rewrite (agree_get A1); last by left.
  case: (vget o1' m) => //= om; case: (n_div _ _) => //= g2; case: (vget h _) => //= hm; case: (n_div _ _) => //= g3.
  by apply: for_eq => i v2 hi; rewrite (agree_get A1) //; left; lia.
apply: rbind_same => v1 _; split=> //=; have [z1 z2 A2] := A1; split=> // i hi.
case: (H i) => [|L|R]; [lia | by left | right; apply: A2; right; split=> //; lia].
Qed.

Lemma orthes_agree n (g g' : nat -> S) h (gv gv' : nat -> S) : zero_sum S ->
  orthes n g h (alloc_dirty_vec gv (n * n)) = orthes n g' h (alloc_dirty_vec gv' (n * n)).
Proof.
move=> law; apply/rres_eq; rewrite /orthes; apply: rbind_same => hi Eh.
have {Eh} [-> n0] : hi = n - 1 /\ 0 < n by move: Eh; rewrite /usub; case: ifP => // h0 [<-].
apply: (rbind (Q := fun a b => a.1 = b.1 /\ ort_ok n (maxn 1 (n - 1)) a.1 a.2 b.2)).
  apply: (rfor (I := fun m (a b : seq S * seq S) => a.1 = b.1 /\ ort_ok n m a.1 a.2 b.2)).
    by split=> //; split; rewrite ?size_alloc //; lia.
  by move=> m [h1 o] [h1' o'] hm /= [<- A]; apply: orthes_step_agree => //; lia.
move=> [h1 o] [h1' o'] /= [<- A]; rewrite (orthes_id_agree n gv gv'); apply: rbind_same => v1 _.
apply: (rbind (Q := fun a b => a.2 = b.2)); last by move=> [? ?] [? ?] /= ->.
case: (leqP n 1) => n1.
  by have -> : n - 1 = 0 by lia.
apply: rres_mono.
  apply: (rforr (I := fun m (a b : seq S * seq S) => a.2 = b.2 /\ ort_ok n m h1 a.1 b.1)); first lia.
    by split=> //; move: A; have -> : maxn 1 (n - 1) = n - 1 by lia.
  by move=> m [o1 v2] [o1' v2'] hm /= [<- A1]; apply: orthes_acc_agree => //; lia.
by move=> [? ?] [? ?] /= [].
Qed.

Definition hq_rel nn (a b : hq S) := [/\ agree nn (fun i => hq_n1 a <= i) (hq_d a) (hq_d b), agree nn (fun i => hq_n1 a <= i) (hq_e a) (hq_e b),
  hq_h a = hq_h b /\ hq_v a = hq_v b, hq_ex a = hq_ex b & hq_n1 a = hq_n1 b /\ hq_iter a = hq_iter b].

Lemma hqr2_agree fuel n gz gr gs (g g' h h' : nat -> S) hd v :
  hqr2 fuel n gz gr gs (alloc_dirty_vec g n) (alloc_dirty_vec h n) hd v =
  hqr2 fuel n gz gr gs (alloc_dirty_vec g' n) (alloc_dirty_vec h' n) hd v.
Proof.
apply/rres_eq; rewrite /hqr2; apply: rbind_same => norm _.
apply: (rbind (Q := eq)); last by move=> st _ <-; apply: rres_refl.
have al (f f' : nat -> S) : agree n (fun i => n <= i) (alloc_dirty_vec f n) (alloc_dirty_vec f' n).
  by split=> [||i hi]; rewrite ?size_alloc // !vget_oob // size_alloc.
apply: (rloop (I := hq_rel n)); first by split=> //=.
move=> [d e x y ex n1 it] [d' e' x' y' ex' n1' it'] [/= Ad Ae [<- <-] <- [<- <-]]; rewrite /hqr2_iter /=.
case: eqP => [n10|/eqP n1p].
  have -> : d = d' by apply: agree_full Ad _ => *; lia.
  by have -> : e = e' by apply: agree_full Ae _ => *; lia.
apply: rbind_same => l _; case: eqP => [El|nl].
  apply: (rbind (Q := hq_rel n)); last by [].
  rewrite /hqr2_one /=; apply: rbind_same => a _; apply: rbind_same => h1 _; apply: rbind_same => b _.
  apply: (rbind (Q := agree n (fun i => n1 - 1 <= i))); first by apply: rset Ad _ => *; lia.
  move=> d1 d1' Ad1; apply: (rbind (Q := agree n (fun i => n1 - 1 <= i))); first by apply: rset Ae _ => *; lia.
  by move=> e1 e1' Ae1.
case: eqP => [El|nl2]; last first.
  by apply: (rbind (Q := hq_rel n)); [rewrite /hqr2_more /=; apply: rbind_same => -[[[[? ?] ?] ?] ?] _; apply: rbind_same => -[[[? ?] ?] ?] _; apply: rbind_same => ? _; apply: rbind_same => -[? ?] _ |].
have n2 : 1 < n1 by lia.
pose P i := n1 - 2 <= i.
apply: (rbind (Q := hq_rel n)); last by [].
rewrite /hqr2_two /=; do 4! (apply: rbind_same => ? _); apply: rbind_same => p _; apply: rbind_same => z _.
apply: rbind_same => h1 _; apply: rbind_same => a _; apply: rbind_same => h2 _; apply: rbind_same => a2 _.
case: ifP => _.
  apply: (rbind (Q := agree n (fun i => i = n1 - 1 - 1 \/ n1 <= i))); first by apply: rset Ad _ => *; lia.
  move=> d1 d1' Ad1; rewrite (agree_get Ad1); last by left.
  apply: rbind_same => dn _; apply: (rbind (Q := agree n P)); first by apply: rset Ad1 _; rewrite /P => *; lia.
  move=> d2 d2' Ad2; apply: (rbind (Q := agree n P)).
    by case: ifP => // _; apply: rbind_same => wz _; apply: rset Ad2 _ => *; right.
  move=> d3 d3' Ad3; apply: (rbind (Q := agree n (fun i => i = n1 - 1 - 1 \/ n1 <= i))); first by apply: rset Ae _ => *; lia.
  move=> e1 e1' Ae1; apply: (rbind (Q := agree n P)); first by apply: rset Ae1 _; rewrite /P => *; lia.
  move=> e2 e2' Ae2; do 9! (apply: rbind_same => ? _); split=> //=; first by apply: agree_mono Ad3 _; rewrite /P => *; lia.
  by apply: agree_mono Ae2 _; rewrite /P => *; lia.
apply: (rbind (Q := agree n (fun i => i = n1 - 1 - 1 \/ n1 <= i))); first by apply: rset Ad _ => *; lia.
move=> d1 d1' Ad1; apply: (rbind (Q := agree n P)); first by apply: rset Ad1 _; rewrite /P => *; lia.
move=> d2 d2' Ad2; apply: (rbind (Q := agree n (fun i => i = n1 - 1 - 1 \/ n1 <= i))); first by apply: rset Ae _ => *; lia.
move=> e1 e1' Ae1; apply: (rbind (Q := agree n P)); first by apply: rset Ae1 _; rewrite /P => *; lia.
move=> e2 e2' Ae2; split=> //=; first by apply: agree_mono Ad2 _; rewrite /P => *; lia.
by apply: agree_mono Ae2 _; rewrite /P => *; lia.
Qed.

(** EigenDecomposition::new.  [gz], [gr], [gs] are not memory: they stand for
    values left over from earlier computations, so both runs share them. *)
Lemma eigen_new_agree fuel gv gd ge gh gort gv' gd' ge' gh' gort' gz gr gs (a : mat S) n :
  cols a = Ok n -> eigen_symmetric n a = Ok true \/ zero_sum S ->
  eigen_new fuel gv gd ge gh gort gz gr gs a = eigen_new fuel gv' gd' ge' gh' gort' gz gr gs a.
Proof.
move=> Ec law; rewrite /eigen_new Ec; cbn [bind].
case Es: (eigen_symmetric n a) law => [[|]|] //= law; cbn [bind].
  by rewrite (eigen_copy_agree n a gv gv'); case: (eigen_copy _ _ _) => //= v; rewrite (tred2_agree n v gd gd' ge ge').
case: law => // law.
rewrite (eigen_copy_t_agree n a gh gh'); case: (eigen_copy_t _ _ _) => //= h.
rewrite (orthes_agree n gort gort' h gv gv' law); case: (orthes _ _ _ _) => //= -[h1 v].
by rewrite (hqr2_agree fuel n gz gr gs gd gd' ge ge').
Qed.
End S.
