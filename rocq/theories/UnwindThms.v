(** * UnwindThms: C69, proofs. *)
From mathcomp Require Import all_ssreflect all_algebra zify.
From Verif Require Import Base Scalar Hoare ModelMatrix Spec SpecInt MatrixProofs MtProofs ModelUnwind SpecUnwind.

Set Implicit Arguments.
Unset Strict Implicit.
Unset Printing Implicit Defensive.

(** ** Lists *)
Section Lists.
Variable A : Type.
Implicit Types l a b : seq A.

Lemma vget_cat a x b : vget (a ++ x :: b) (size a) = Ok x.
Proof. by elim: a. Qed.

Lemma vset_cat a x b y : vset (a ++ x :: b) (size a) y = Ok (rcons a y ++ b).
Proof.
have -> : rcons a y ++ b = upd (a ++ x :: b) (size a) y by elim: a => //= z a ->.
by rewrite /vset size_cat /= addnS ltnS leq_addr.
Qed.
End Lists.

Section Calls.
Variables W A B : Type.
Variable f : W -> A -> W * option B.

Lemma size_calls w l : size (calls f w l).1.2 <= size l.
Proof.
elim: l w => //= x l IH w; case: (f w x) => w' [y|] //=.
by move: (IH w'); case: (calls f w' l) => [[w'' ys] ok] /=.
Qed.

Lemma size_calls_ok w l : (calls f w l).2 -> size (calls f w l).1.2 = size l.
Proof.
elim: l w => //= x l IH w; case: (f w x) => w' [y|] //=.
by move: (IH w'); case: (calls f w' l) => [[w'' ys] ok] /= h /h ->.
Qed.
End Calls.

Lemma size_upto A (l : seq (res A)) : size (upto l).1 <= size l.
Proof. by elim: l => //= -[y|e] l //=; case: (upto l). Qed.

(** ** The loops *)
Section Loops.
Variables W T : Type.
Implicit Types M : mat T.

Lemma map_loop S (f : W -> T -> W * option S) (src : seq T) : forall (todo done_ : seq T) (w : W) (ys rest : seq S),
  src = done_ ++ todo -> size ys = size done_ -> size rest = size todo ->
  for_u (size todo) (size done_) (fun i st =>
      let '(w, d) := st in
      x <~ vget src i or st ;;
      let '(w, y) := f w x in
      match y with
      | None => ((w, d), false)
      | Some y => d' <~ vset d i y or (w, d) ;; ((w, d'), true)
      end) (w, ys ++ rest) =
  let '(w', zs, ok) := calls f w todo in ((w', ys ++ overwrite rest zs), ok).
Proof.
elim=> [|x todo IH] done_ w ys rest es sy sr.
  by case: rest sr => //= _; rewrite /overwrite.
case: rest sr => // r rest [sr].
rewrite [for_u _ _ _ _]/= es vget_cat /= -es.
case: (f w x) => w' [y|] //=.
rewrite -sy vset_cat /= sy.
have -> : (size done_).+1 = size (rcons done_ x) by rewrite size_rcons.
rewrite (IH (rcons done_ x)) ?size_rcons ?sy ?cat_rcons //.
by case: (calls f w' todo) => [[w'' zs] ok]; rewrite /overwrite /= cat_rcons.
Qed.

Lemma mmap_loop (f : W -> T -> W * option T) : forall (todo : seq T) (w : W) (ys : seq T),
  for_u (size todo) (size ys) (fun i st =>
      let '(w, d) := st in
      x <~ vget d i or st ;;
      let '(w, y) := f w x in
      match y with
      | None => ((w, d), false)
      | Some y => d' <~ vset d i y or (w, d) ;; ((w, d'), true)
      end) (w, ys ++ todo) =
  let '(w', zs, ok) := calls f w todo in ((w', ys ++ overwrite todo zs), ok).
Proof.
elim=> [|x todo IH] w ys; first by rewrite /overwrite.
rewrite [for_u _ _ _ _]/= vget_cat /=.
case: (f w x) => w' [y|] //=.
rewrite vset_cat /=.
have -> : (size ys).+1 = size (rcons ys y) by rewrite size_rcons.
rewrite IH.
by case: (calls f w' todo) => [[w'' zs] ok]; rewrite /overwrite /= cat_rcons.
Qed.

Lemma inplace_loop (f : nat -> T -> res T) : forall (todo : seq T) (ys : seq T),
  for_u (size todo) (size ys) (fun i d =>
      x <~ vget d i or d ;;
      z <~ f i x or d ;;
      d' <~ vset d i z or d ;; (d', true)) (ys ++ todo) =
  let '(zs, ok) := upto [seq f p.1 p.2 | p <- zip (iota (size ys) (size todo)) todo] in (ys ++ overwrite todo zs, ok).
Proof.
elim=> [|x todo IH] ys; first by rewrite /overwrite.
rewrite [for_u _ _ _ _]/= vget_cat /=.
case: (f (size ys) x) => [y|e] //=.
rewrite vset_cat /=.
have -> : (size ys).+1 = size (rcons ys y) by rewrite size_rcons.
rewrite IH.
by case: (upto _) => zs ok; rewrite /overwrite /= cat_rcons.
Qed.
End Loops.

(** ** Proofs about the methods *)
Lemma overwrite_all A (l ys : seq A) : size ys = size l -> overwrite l ys = ys.
Proof. by move=> e; rewrite /overwrite e drop_size cats0. Qed.

Lemma size_overwrite A (l ys : seq A) : size ys <= size l -> size (overwrite l ys) = size l.
Proof. by move=> h; rewrite /overwrite size_cat size_drop subnKC. Qed.

Section InPlace.
Variable N : pnum.
Implicit Types M : mat N.

Lemma inplace1E (f : N -> res N) M :
  inplace1 f M = let '(ys, ok) := upto [seq f x | x <- data M] in (Mat (no_rows M) (overwrite (data M) ys), ok).
Proof.
rewrite /inplace1 (@inplace_loop _ (fun _ => f) (data M) [::]) /= /overwrite.
have -> : [seq f p.2 | p <- zip (iota 0 (size (data M))) (data M)] = [seq f x | x <- data M].
  by rewrite -[in RHS](@unzip2_zip _ _ (iota 0 (size (data M))) (data M)) ?size_iota // -map_comp.
by case: (upto _).
Qed.

Lemma inplace2E (f : N -> N -> res N) M M2 n : 0 < no_rows M ->
  size (data M) = no_rows M * n -> size (data M2) = no_rows M2 * n -> no_rows M = no_rows M2 ->
  inplace2 f M M2 = let '(ys, ok) := upto [seq f p.1 p.2 | p <- zip (data M) (data M2)] in
                    (Mat (no_rows M) (overwrite (data M) ys), ok).
Proof.
move=> r0 s1 s2 er.
have c1 : cols M = Ok n by rewrite /cols /udiv s1 eqn0Ngt r0 mulKn.
have c2 : cols M2 = Ok n by rewrite /cols /udiv s2 -er eqn0Ngt r0 mulKn.
rewrite /inplace2 er eqxx /= c1 /= c2 /= eqxx /=.
have sz : size (data M) = size (data M2) by rewrite s1 s2 er.
case ed: (data M) => [|x0 d].
  have -> : data M2 = [::] by apply: size0nil; rewrite -sz ed.
  by [].
rewrite -ed.
pose h i x := y <-- vget (data M2) i ;; f x y.
have -> : for_u (size (data M)) 0 (fun i d =>
      x <~ vget d i or d ;; y <~ vget (data M2) i or d ;; z <~ f x y or d ;;
      d' <~ vset d i z or d ;; (d', true)) (data M) =
    for_u (size (data M)) 0 (fun i d => x <~ vget d i or d ;; z <~ h i x or d ;;
      d' <~ vset d i z or d ;; (d', true)) (data M).
  suff gen : forall n lo d, for_u n lo (fun i d =>
      x <~ vget d i or d ;; y <~ vget (data M2) i or d ;; z <~ f x y or d ;;
      d' <~ vset d i z or d ;; (d', true)) d =
    for_u n lo (fun i d => x <~ vget d i or d ;; z <~ h i x or d ;;
      d' <~ vset d i z or d ;; (d', true)) d by apply: gen.
  elim=> [|k IH] lo d' //=.
  case: (vget d' lo) => //= x; rewrite /h; case: (vget (data M2) lo) => //= y.
  by case: (f x y) => //= z; case: (vset d' lo z) => //= d''.
rewrite (@inplace_loop _ h (data M) [::]) /= /overwrite.
have -> : [seq h p.1 p.2 | p <- zip (iota 0 (size (data M))) (data M)] = [seq f p.1 p.2 | p <- zip (data M) (data M2)].
  apply: (@eq_from_nth _ (Ok x0)); rewrite !size_map !size_zip size_iota minnn sz ?minnn // -sz => i hi.
  rewrite !(nth_map (0, x0)) ?size_zip ?size_iota ?minnn // (nth_map (x0, x0)) ?size_zip -?sz ?minnn //.
  by rewrite !nth_zip ?size_iota //= nth_iota // add0n /h (vgetE x0) -?sz.
by case: (upto _).
Qed.

Lemma inplace2_shape (f : N -> N -> res N) M M2 : wf M -> wf M2 ->
  (no_rows M != no_rows M2) || (size (data M) != size (data M2)) -> inplace2 f M M2 = (M, false).
Proof.
move=> /and3P[r1 d1 /dvdnP[n1 e1]] /and3P[r2 d2 /dvdnP[n2 e2]] /orP ne.
rewrite /inplace2; case: eqP => //= er.
have c1 : cols M = Ok n1 by rewrite /cols /udiv e1 eqn0Ngt r1 mulnK.
have c2 : cols M2 = Ok n2 by rewrite /cols /udiv e2 eqn0Ngt r2 mulnK.
rewrite c1 /= c2 /=; case: eqP => //= en.
by case: ne => [|]; rewrite ?er ?eqxx // e1 e2 er en eqxx.
Qed.

Lemma wf_overwrite M ys : wf M -> size ys <= size (data M) -> wf (Mat (no_rows M) (overwrite (data M) ys)).
Proof. by move=> w h; rewrite /wf /= size_overwrite. Qed.

Lemma inplace1_keeps f M : (inplace1 f M).1 = Mat (no_rows M) (data (inplace1 f M).1) /\
  size (data (inplace1 f M).1) = size (data M).
Proof.
rewrite inplace1E; have h := size_upto [seq f x | x <- data M].
case: (upto _) h => ys ok /=; rewrite size_map => h.
by split=> //; apply: size_overwrite.
Qed.

Lemma inplace2_keeps f M M2 : wf M -> wf M2 -> no_rows (inplace2 f M M2).1 = no_rows M /\
  size (data (inplace2 f M M2).1) = size (data M).
Proof.
move=> w1 w2.
case: (boolP ((no_rows M != no_rows M2) || (size (data M) != size (data M2)))) => [h|].
  by rewrite (inplace2_shape f w1 w2 h).
rewrite negb_or !negbK => /andP[/eqP er /eqP es].
case/and3P: w1 => r0 _ /dvdnP[n e].
have s1 : size (data M) = no_rows M * n by rewrite mulnC.
have s2 : size (data M2) = no_rows M2 * n by rewrite -es -er.
rewrite (inplace2E f r0 s1 s2 er).
have h := size_upto [seq f p.1 p.2 | p <- zip (data M) (data M2)].
case: (upto _) h => ys ok /=; rewrite size_map size_zip es minnn => h.
by rewrite size_overwrite es.
Qed.

Definition odot (f f2 : nat -> nat -> N) n i j : res N :=
  dot_from (p_add (p:=N)) (p_mul (p:=N)) (p_zero N) [seq (f i k, f2 k j) | k <- iota 0 n].

Lemma mul_loop m n p (M M2 : mat N) f f2 i j s : rep m n M f -> rep n p M2 f2 -> i < m -> j < p ->
  for_ 0 n (fun idx s => x <-- get M i idx ;; y <-- get M2 idx j ;; z <-- p_mul x y ;; p_add s z) s =
  dot_from (p_add (p:=N)) (p_mul (p:=N)) s [seq (f i k, f2 k j) | k <- iota 0 n].
Proof.
move=> H H2 hi hj; rewrite /for_ subn0.
suff gen : forall k lo s, k + lo <= n ->
  for_n k lo (fun idx s => x <-- get M i idx ;; y <-- get M2 idx j ;; z <-- p_mul x y ;; p_add s z) s =
  dot_from (p_add (p:=N)) (p_mul (p:=N)) s [seq (f i k, f2 k j) | k <- iota lo k] by apply: gen; rewrite addn0.
elim=> [|k IH] lo s' hk //=.
have hl : lo < n by lia.
rewrite (rep_get _ _ H) (rep_get _ _ H2) hi hj hl /=.
case: (p_mul _ _) => //= z; case: (p_add _ _) => //= s''.
by apply: IH; lia.
Qed.
End InPlace.

Section Mmul.
Variable N : pnum.
Implicit Types M : mat N.

Definition dots_ok (G : nat -> nat -> res N) p k := forall i, i < k -> exists z, G (i %/ p) (i %% p) = Ok z.

Lemma mmul_loop (g : nat -> N) m n p M M2 f f2 : rep m n M f -> rep n p M2 f2 -> 0 < m -> 0 < n -> 0 < p ->
  let G := odot f f2 n in
  let val i j := if G i j is Ok z then z else p_zero N in
  wpe (fun _ => exists i j, [/\ i < m, j < p & forall z, G i j <> Ok z])
    (for_ 0 m (fun row d =>
         for_ 0 p (fun col d =>
           s <-- for_ 0 n (fun idx s =>
                   x <-- get M row idx ;;
                   y <-- get M2 idx col ;;
                   z <-- p_mul x y ;;
                   p_add s z) (p_zero N) ;;
           vset d (row * p + col) s) d) (alloc_dirty_vec g (m * p)))
    (fun d => repr m p d val /\ forall i j, i < m -> j < p -> exists z, G i j = Ok z).
Proof.
move=> H H2 m0 n0 p0 G val.
pose F k := val (k %/ p) (k %% p).
apply: (wpe_for (fun r d => pre1 (m * p) (r * p) d F /\ dots_ok G p (r * p))) => //.
- by split=> //; exact: pre1_0.
- move=> r d /= hr [Hd Od].
  apply: (wpe_for (fun c d => pre1 (m * p) (r * p + c) d F /\ dots_ok G p (r * p + c))) => //.
  + by rewrite addn0.
  + move=> c d' /= hc [Hd' Od']; rewrite (mul_loop _ H H2 hr hc).
    rewrite -[dot_from _ _ _ _]/(G r c).
    case eG: (G r c) => [s|e] /=; last by exists r, c; split=> // z; rewrite eG.
    apply: (wpe_pre1_set Hd').
    * exact: idx_lt.
    * by rewrite /F flat_at // /val eG.
    * move=> v' Hv'; rewrite addnS; split=> // i; rewrite ltnS leq_eqVlt => /orP[/eqP ->|]; last exact: Od'.
      by rewrite divnMDl // divn_small // addn0 modnMDl modn_small // eG; exists s.
  by move=> d' Hd'; rewrite mulSn addnC.
move=> d [Hd Od]; split; first exact: pre1_repr.
move=> i j hi hj; have := Od _ (idx_lt hi hj).
by rewrite divnMDl // divn_small // addn0 modnMDl modn_small.
Qed.
End Mmul.

Section Reduce.
Variables W S T : Type.
Variable f : W -> S -> T -> W * option S.

Lemma vset_mkseq (acc : nat -> S) n j y : j < n ->
  vset (mkseq acc n) j y = Ok (mkseq (fun k => if k == j then y else acc k) n).
Proof.
move=> hj; rewrite /vset size_mkseq hj; congr Ok.
apply: vget_ext; first by rewrite size_upd !size_mkseq.
move=> i; rewrite size_upd size_mkseq => hi.
by rewrite vget_upd ?size_mkseq // !vget_mkseq // eq_sym; case: eqP.
Qed.

Lemma reduce_loop n (src : seq T) (n0 : 0 < n) : forall (todo done_ : seq (nat * T)) w acc,
  src = [seq p.2 | p <- done_ ++ todo] ->
  [seq p.1 | p <- done_ ++ todo] = [seq k %% n | k <- iota 0 (size (done_ ++ todo))] ->
  exists idx, for_u (size todo) (size done_) (fun i st =>
        let '(w, d, data_idx) := st in
        a <~ vget d data_idx or st ;;
        x <~ vget src i or st ;;
        let '(w, y) := f w a x in
        match y with
        | None => ((w, d, data_idx), false)
        | Some y =>
          d' <~ vset d data_idx y or (w, d, data_idx) ;;
          k <~ umod (data_idx + 1) (size d') or (w, d', data_idx + 1) ;;
          ((w, d', k), true)
        end) (w, mkseq acc n, size done_ %% n) =
  let '(w', acc', ok) := accumulate f w acc todo in ((w', mkseq acc' n, idx), ok).
Proof.
elim=> [|[j x] todo IH] done_ w acc es ei /=; first by exists (size done_ %% n).
have hj : j = size done_ %% n.
  have := congr1 (fun l => nth 0 l (size done_)) ei.
  rewrite (nth_map 0) ?size_iota ?size_cat /= ?addnS ?ltnS ?leq_addr // nth_iota ?addnS ?ltnS ?leq_addr // add0n => <-.
  by rewrite map_cat nth_cat size_map ltnn subnn.
have jn : size done_ %% n < n by rewrite ltn_mod.
have vg : vget src (size done_) = Ok x.
  by rewrite es map_cat -[size done_](size_map (fun p => p.2)) vget_cat.
rewrite vget_mkseq //= vg /= hj.
case: (f w (acc _) x) => w' [y|] /=; last by exists (size done_ %% n).
rewrite vset_mkseq //= /umod size_mkseq eqn0Ngt n0 /= modnDml addn1.
have -> : (size done_).+1 = size (rcons done_ (j, x)) by rewrite size_rcons.
have := IH (rcons done_ (j, x)) w' (fun k => if k == size done_ %% n then y else acc k).
rewrite cat_rcons => /(_ es ei) [idx E]; exists idx.
by rewrite E.
Qed.
End Reduce.

Lemma filter_loopE W T (f : W -> mat T -> nat -> W * option bool) w M n :
  filter_loop f w M n =
  let '(w', bs, ok) := calls (fun w i => f w M i) w (iota 0 n) in ((w', mask bs (iota 0 (size bs))), ok).
Proof.
rewrite /filter_loop.
suff gen : forall k lo w ks, for_u k lo (fun i st =>
    let '(w, ks) := st in
    let '(w, b) := f w M i in
    match b with
    | None => ((w, ks), false)
    | Some b => ((w, if b then rcons ks i else ks), true)
    end) (w, ks) =
  let '(w', bs, ok) := calls (fun w i => f w M i) w (iota lo k) in ((w', ks ++ mask bs (iota lo (size bs))), ok).
  by rewrite gen.
elim=> [|k IH] lo w0 ks /=; first by rewrite cats0.
case: (f w0 M lo) => w' [b|] /=; last by rewrite cats0.
rewrite IH; case: (calls _ w' _) => [[w'' bs] ok] /=.
by case: b => //=; rewrite cat_rcons.
Qed.

Lemma filter_nth_mask bs : [seq k <- iota 0 (size bs) | nth false bs k] = mask bs (iota 0 (size bs)).
Proof. by rewrite filter_mask -[map _ _]/(mkseq _ _) mkseq_nth. Qed.

(** ** The theorems *)
(*@section C69 closures: which calls are made, and what a panic leaves behind @*)
(*@doc C69: map calls the closure exactly once per element, in row-major order, stops at the first call that panics,
    and otherwise returns the values in place.  Nothing depends on the uninitialised memory of the new vector. *)
Lemma map_unwind_L : forall W T S (g : nat -> S) (f : W -> T -> W * option S) (w : W) (M : mat T),
  map_u g f w M = let '(w', ys, ok) := calls f w (get_data M) in (w', if ok then Some (Mat (rows M) ys) else None).
Proof.
move=> W T S g f w M; rewrite /map_u.
have h := @map_loop W T S f (data M) (data M) [::] w [::] (alloc_dirty_vec g (size (data M))) erefl erefl (size_alloc _ _).
rewrite /= in h; rewrite h /get_data /rows.
have := @size_calls_ok _ _ _ f w (data M).
case: (calls f w (data M)) => [[w' ys] [|]] //= e.
by rewrite overwrite_all // size_alloc e.
Qed.

(*@doc C69: mmap makes the same calls.  If one of them panics, the matrix is left with the elements before it mapped
    and the others unchanged. *)
Lemma mmap_unwind_L : forall W T (f : W -> T -> W * option T) (w : W) (M : mat T),
  mmap_u f w M =
  let '(w', ys, ok) := calls f w (get_data M) in ((w', Mat (rows M) (overwrite (get_data M) ys)), ok).
Proof.
move=> W T f w M; rewrite /mmap_u /get_data /rows.
have h := @mmap_loop W T f (data M) w [::]; rewrite /= in h; rewrite h.
by case: (calls f w (data M)) => [[]].
Qed.

(*@doc C69: reduce calls the closure once per element in row-major order, on the accumulator of the column; the
    vector of initial values has to have one value per column. *)
Lemma reduce_unwind_L : forall W S T m n (x0 : S) (init : seq S) (f : W -> S -> T -> W * option S) (w : W)
    (A : 'M[T]_(m, n)), 0 < m -> 0 < n ->
  reduce_u init f w (mat_of A) =
  if size init != n then (w, None) else
  let '(w', acc, ok) := accumulate f w (nth x0 init) [seq (val j, A i j) | i <- enum 'I_m, j <- enum 'I_n] in
  (w', if ok then Some (Mat 1 (mkseq acc n)) else None).
Proof.
move=> W S T m n x0 init f w A m0 n0; rewrite /reduce_u.
have -> : cols (mat_of A) = Ok n by rewrite /cols /udiv size_mat_of /= eqn0Ngt m0 mulKn.
case: eqP => //= sz.
pose P := data (mat_of (\matrix_(i < m, j < n) (val j, A i j))%R).
have eP : [seq (val j, A i j) | i <- enum 'I_m, j <- enum 'I_n] = P.
  by rewrite /P /=; apply: eq_allpairs => i j; rewrite mxE.
have sP : size P = m * n by rewrite size_mat_of.
have e2 : data (mat_of A) = [seq p.2 | p <- P] by rewrite -eP map_allpairs.
have e1 : [seq p.1 | p <- P] = [seq k %% n | k <- iota 0 (size P)].
  apply: (@eq_from_nth _ 0); rewrite !size_map ?size_iota // => k hk.
  rewrite (nth_map 0) ?size_iota // nth_iota // add0n.
  have hk' := hk; rewrite sP in hk'; have [ek hi hj] := idx_divmod hk'.
  have := mat_of_vget (\matrix_(i < m, j < n) (val j, A i j))%R (Ordinal hi) (Ordinal hj).
  rewrite /= -ek mxE (vgetE (0, A (Ordinal hi) (Ordinal hj))) // => -[E].
  by rewrite (nth_map (0, A (Ordinal hi) (Ordinal hj))) // E.
have [idx E] := @reduce_loop W S T f n (data (mat_of A)) n0 P [::] w (nth x0 init) e2 e1.
rewrite /= mod0n in E.
have ein : init = mkseq (nth x0 init) n by rewrite -sz mkseq_nth.
rewrite {1}ein size_mat_of -sP E -eP.
by case: (accumulate _ _ _ _) => [[w' acc] [|]].
Qed.

(*@doc C69: filter_rows and filter_columns ask the closure about each index once, in increasing order, always showing it
    the unchanged matrix, and stop at a panic; the result is what select_rows / select_columns makes of the answers. *)
Lemma filter_unwind_L : forall W T (g : nat -> T) (f : W -> mat T -> nat -> W * option bool) (w : W) (M : mat T) n,
  cols M = Ok n ->
  filter_rows_u g f w M =
    (let '(w', bs, ok) := calls (fun w i => f w M i) w (iota 0 (rows M)) in
     (w', if ok then to_opt (select_rows g M bs) else None)) /\
  filter_columns_u g f w M =
    (let '(w', bs, ok) := calls (fun w i => f w M i) w (iota 0 n) in
     (w', if ok then to_opt (select_columns g M bs) else None)).
Proof.
move=> W T g f w M n cn; rewrite /filter_rows_u /filter_columns_u cn !filter_loopE; split.
  have := @size_calls_ok _ _ _ (fun w i => f w M i) w (iota 0 (rows M)).
  case: (calls _ _ _) => [[w' bs] [|]] //= => /(_ isT); rewrite size_iota => sz.
  rewrite /select_rows -/(rows M) sz eqxx /=.
  rewrite (for_filter (p := nth false bs)) /=; last by move=> i rs hi; rewrite (vgetE false) // sz.
  by rewrite -sz filter_nth_mask.
have := @size_calls_ok _ _ _ (fun w i => f w M i) w (iota 0 n).
case: (calls _ _ _) => [[w' bs] [|]] //= => /(_ isT); rewrite size_iota => sz.
rewrite /select_columns cn /= sz eqxx /=.
rewrite (for_filter (p := nth false bs)) /=; last by move=> i rs hi; rewrite (vgetE false) // sz.
by rewrite -sz filter_nth_mask.
Qed.

(*@section C69 in-place arithmetic with operations that can panic @*)
(*@doc C69: in-place methods with one operand, for every element type whose operations may panic: the elements are
    replaced in row-major order up to the first operation that panics; the rest of the matrix, and its shape, stay. *)
Lemma inplace1_unwind_L : forall (N : pnum) (M : mat N) (k : N),
  let left_by rs := let '(ys, ok) := upto rs in (Mat (rows M) (overwrite (get_data M) ys), ok) in
  mneg_u M = left_by [seq p_neg x | x <- get_data M] /\
  mscale_u M k = left_by [seq p_mul k x | x <- get_data M].
Proof. by move=> N M k /=; split; apply: inplace1E. Qed.

(*@doc C69: two operands: as above; operands of different shapes panic before anything is written. *)
Lemma inplace2_unwind_L : forall (N : pnum) m n m' n' (A : 'M[N]_(m, n)) (B : 'M[N]_(m', n')),
  0 < m -> 0 < n -> 0 < m' -> 0 < n' ->
  let run (op : N -> N -> res N) :=
    if (m == m') && (n == n') then
      let '(ys, ok) := upto [seq op p.1 p.2 | p <- zip (get_data (mat_of A)) (get_data (mat_of B))] in
      (Mat m (overwrite (get_data (mat_of A)) ys), ok)
    else (mat_of A, false) in
  [/\ madd_u (mat_of A) (mat_of B) = run (p_add (p:=N)),
      msub_u (mat_of A) (mat_of B) = run (p_sub (p:=N)),
      melem_mul_u (mat_of A) (mat_of B) = run (p_mul (p:=N)) &
      melem_div_u (mat_of A) (mat_of B) = run (p_div (p:=N))].
Proof.
move=> N m n m' n' A B m0 n0 m'0 n'0 /=.
suff gen : forall op, inplace2 op (mat_of A) (mat_of B) =
    if (m == m') && (n == n') then
      let '(ys, ok) := upto [seq op p.1 p.2 | p <- zip (get_data (mat_of A)) (get_data (mat_of B))] in
      (Mat m (overwrite (get_data (mat_of A)) ys), ok)
    else (mat_of A, false) by split; apply: gen.
move=> op; case: (boolP (_ && _)) => [/andP[/eqP em /eqP en]|ne].
  by rewrite (@inplace2E N op (mat_of A) (mat_of B) n) // ?size_mat_of ?em ?en.
apply: inplace2_shape; rewrite ?wf_mat_of ?m0 ?n0 ?m'0 ?n'0 //.
rewrite !size_mat_of /=; move: ne; rewrite negb_and; case: eqP => //= -> en.
by rewrite eqn_pmul2l.
Qed.

(*@doc C69: mmul is all or nothing: it either replaces the receiver by the product, or panics and leaves it as it was.
    It panics iff the shapes do not fit or one of the multiplications and additions of the row by column products does. *)
Lemma mmul_unwind_L : forall (N : pnum) g m n n' p (A : 'M[N]_(m, n)) (B : 'M[N]_(n', p)),
  0 < m -> 0 < n -> 0 < n' -> 0 < p ->
  let entry (e : n' = n) i j := dot_from (p_add (p:=N)) (p_mul (p:=N)) (p_zero N)
                      [seq (A i k, B (cast_ord (esym e) k) j) | k <- enum 'I_n] in
  (forall (e : n' = n) (C : 'M[N]_(m, p)), (forall i j, entry e i j = Ok (C i j)) ->
     mmul_u g (mat_of A) (mat_of B) = (mat_of C, true)) /\
  ((~ exists (e : n' = n) (C : 'M[N]_(m, p)), forall i j, entry e i j = Ok (C i j)) ->
     mmul_u g (mat_of A) (mat_of B) = (mat_of A, false)).
Proof.
move=> N g m n n' p A B m0 n0 n'0 p0 entry.
have H := mat_of_rep (p_zero N) A; have H2 := mat_of_rep (p_zero N) B.
have cA : cols (mat_of A) = Ok n by apply: rep_cols H m0.
have cB : cols (mat_of B) = Ok p by apply: rep_cols H2 n'0.
rewrite /mmul_u cA cB /=; case: (eqVneq n n') => /= [en|ne]; last first.
  by split=> // e; move: ne; rewrite e eqxx.
subst n'.
have eG : forall e (i : 'I_m) (j : 'I_p), odot (fn (p_zero N) A) (fn (p_zero N) B) n i j = entry e i j.
  move=> e i j; rewrite /odot /entry -val_enum_ord -map_comp; congr dot_from; apply: eq_map => k /=.
  by rewrite !fnE (_ : cast_ord _ k = k) //; apply: val_inj.
have := mmul_loop g H H2 m0 n0 p0.
case: (for_ 0 m _ _) => [d|er] /=.
  move=> [Hd Od]; split=> [e C hC|nex].
    congr pair; apply: (@rep_mat_of _ m p _ _ C (rep_Mat Hd)) => i j /=.
    by rewrite (eG e) hC.
  case: nex; exists erefl, (\matrix_(i, j) (if entry erefl i j is Ok z then z else p_zero N))%R => i j.
  by rewrite mxE; have [z] := Od _ _ (ltn_ord i) (ltn_ord j); rewrite (eG erefl) => ->.
move=> [i [j [hi hj hz]]]; split=> // e C hC; exfalso.
by apply: (hz (C (Ordinal hi) (Ordinal hj))); rewrite -hC -(eG e).
Qed.

Lemma for_u_agrees St (bu : nat -> St -> St * bool) (b : nat -> St -> res St) :
  (forall i st st', b i st = Ok st' -> bu i st = (st', true)) ->
  (forall i st e, b i st = Err e -> (bu i st).2 = false) ->
  forall n lo st, if for_n n lo b st is Ok st' then for_u n lo bu st = (st', true) else (for_u n lo bu st).2 = false.
Proof.
move=> h h'; elim=> [|n IH] lo st //=.
case eb: (b lo st) => [st'|e] /=; first by rewrite (h _ _ _ eb); apply: IH.
by have := h' _ _ _ eb; case: (bu lo st) => st' ok /= ->.
Qed.

(*@section C69 agreement with the panic-without-state model @*)
(*@doc C69: when the operations of the element type are those of the model of C13, the two descriptions agree: a method
    returns here iff it returns there, with the same matrix. *)
Lemma unwind_agrees_L : forall (N : numops) g (M M2 : mat N) (k : N) i j v (f : N -> N),
  let same (u : mat N * bool) (r : res (mat N)) := if r is Ok M' then u = (M', true) else u.2 = false in
  let P := pnum_of N in
  [/\ same (mneg_u (N:=P) M) (mneg M) /\ same (mscale_u (N:=P) M k) (mscale M k),
      same (madd_u (N:=P) M M2) (madd M M2) /\ same (msub_u (N:=P) M M2) (msub M M2),
      same (melem_mul_u (N:=P) M M2) (melem_mul M M2) /\ same (melem_div_u (N:=P) M M2) (melem_div M M2),
      same (mmul_u (N:=P) g M M2) (mmul g M M2) /\ same (set_u (N:=P) M i j v) (set M i j v) &
      same (let '((_, M'), ok) := mmap_u (fun (_ : unit) x => (tt, Some (f x))) tt M in (M', ok)) (mmap f M)].
Proof.
move=> N g M M2 k i j v f same P.
have one : forall h : N -> N, same (inplace1 (N:=P) (fun x => Ok (h x)) M) (mpointwise1 h M).
  move=> h; rewrite /same /inplace1 /mpointwise1 /for_ subn0.
  set bu := (fun (i : nat) (d : seq P) => _); set b := (fun (i : nat) (d : seq N) => _).
  have h1 : forall i (st st' : seq P), b i st = Ok st' -> bu i st = (st', true).
    by move=> i' d d'; rewrite /b /bu; case: (vget d i') => //= x; case: (vset d i' _) => //= ? [->].
  have h2 : forall i (st : seq P) e, b i st = Err e -> (bu i st).2 = false.
    by move=> i' d d'; rewrite /b /bu; case: (vget d i') => //= x; case: (vset d i' _).
  have := @for_u_agrees (seq P) bu b h1 h2 (size (data M)) 0 (data M).
  case: (for_n _ _ _ _) => [d|e] /=; first by move=> ->.
  by case: (for_u _ _ _ _) => d ok /=.
have two : forall h : N -> N -> res N, same (inplace2 (N:=P) h M M2) (mpointwise2 h M M2).
  move=> h; rewrite /same /inplace2 /mpointwise2 /for_ subn0 /require.
  case: eqP => //= _; case: (cols M) => //= n1; case: (cols M2) => //= n2; case: eqP => //= _.
  set b := (fun (i : nat) (d : seq N) => _); set bu := (fun (i : nat) (d : seq P) => _).
  have h1 : forall i (st st' : seq P), b i st = Ok st' -> bu i st = (st', true).
    move=> i' d d'; rewrite /b /bu; case: (vget d i') => //= x; case: (vget _ i') => //= y.
    by case: (h x y) => //= z; case: (vset d i' _) => //= ? [->].
  have h2 : forall i (st : seq P) e, b i st = Err e -> (bu i st).2 = false.
    move=> i' d d'; rewrite /b /bu; case: (vget d i') => //= x; case: (vget _ i') => //= y.
    by case: (h x y) => //= z; case: (vset d i' _).
  have := @for_u_agrees (seq P) bu b h1 h2 (size (data M)) 0 (data M).
  case: (for_n _ _ _ _) => [d|e] /=; first by move=> ->.
  by case: (for_u _ _ _ _) => d ok /=.
split.
- by split; apply: one.
- by split; apply: two.
- by split; apply: two.
- split; last by rewrite /same /set_u; case: (set M i j v).
  rewrite /same /mmul_u /mmul /mul_data /require; case: (cols M) => //= n1; case: eqP => //= _.
  case: (cols M2) => //= n2.
  by case: (for_ 0 (no_rows M) _ _).
rewrite /same mmap_unwind_L.
have -> : calls (fun (_ : unit) x => (tt, Some (f x))) tt (get_data M) = (tt, [seq f x | x <- get_data M], true).
  by elim: (get_data M) => //= x l ->.
have H := repr1_nth.
have := one f; rewrite /mpointwise1 -/(mmap f M) inplace1E.
have -> : upto [seq Ok (f x) | x <- data M] = ([seq f x | x <- data M], true).
  by elim: (data M) => //= x l ->.
by case: (mmap f M).
Qed.

Section History.
Variable N : pnum.
Implicit Types M : mat N.

Lemma same_shape M M' : no_rows M' = no_rows M -> size (data M') = size (data M) ->
  [/\ rows M' = rows M, cols M' = cols M & wf M' = wf M].
Proof. by move=> e1 e2; rewrite /rows /cols /wf e1 e2. Qed.

Lemma set_u_keeps M i j v : no_rows (set_u M i j v).1 = no_rows M /\ size (data (set_u M i j v).1) = size (data M).
Proof.
rewrite /set_u /set; case: (i < no_rows M) => //=; case: (cols M) => //= n.
rewrite /require; case: (j < n) => //=; rewrite /vset; case: ifP => //= _.
by rewrite size_upd.
Qed.

Lemma mmap_u_keeps W (f : W -> N -> W * option N) w M :
  no_rows (mmap_u f w M).1.2 = no_rows M /\ size (data (mmap_u f w M).1.2) = size (data M).
Proof.
rewrite mmap_unwind_L; have := size_calls f w (get_data M).
case: (calls _ _ _) => [[w' ys] ok] /= h.
by split=> //; apply: size_overwrite.
Qed.

Definition moves (c : ucall N) : bool := if c is (UMmul _ _ | UMt) then true else false.

Lemma exec_keeps c M : wf M -> (forall B, operand c = Some B -> wf B) -> ~~ moves c ->
  no_rows (exec_u c M).1 = no_rows M /\ size (data (exec_u c M).1) = size (data M).
Proof.
move=> w; case: c => [i j v|f||k|B|B|B|B|g B|] //= hB _.
- exact: set_u_keeps.
- have := mmap_u_keeps (fun _ x => (tt, f x)) tt M.
  by case: (mmap_u _ _ _) => [[u M'] ok].
- by have [e1 e2] := inplace1_keeps (p_neg (p:=N)) M; rewrite /mneg_u e2 e1.
- by have [e1 e2] := inplace1_keeps (fun x => p_mul k x) M; rewrite /mscale_u e2 e1.
all: by apply: inplace2_keeps => //; apply: hB.
Qed.

Lemma inplace1_rows f M : no_rows (inplace1 f M).1 = no_rows M.
Proof. by rewrite inplace1E; case: (upto _). Qed.

Lemma mmul_shape g M B : wf M -> wf B ->
  if (mmul_u g M B).2 then [/\ wf (mmul_u g M B).1, rows (mmul_u g M B).1 = rows M & cols (mmul_u g M B).1 = cols B]
  else (mmul_u g M B).1 = M.
Proof.
move=> /mat_of_surj[m1 [n1 [A ->]]] /mat_of_surj[n1' [p1 [C ->]]].
have m0 := ltn0Sn m1; have n0 := ltn0Sn n1; have n'0 := ltn0Sn n1'; have p0 := ltn0Sn p1.
move: m1.+1 n1.+1 n1'.+1 p1.+1 m0 n0 n'0 p0 A C => m n n' p m0 n0 n'0 p0 A C.
have H := mat_of_rep (p_zero N) A; have H2 := mat_of_rep (p_zero N) C.
have cA : cols (mat_of A) = Ok n by apply: rep_cols H m0.
have cB : cols (mat_of C) = Ok p by apply: rep_cols H2 n'0.
rewrite /mmul_u cA cB /=.
case: eqVneq => [en|//] /=; subst n'.
have := mmul_loop g H H2 m0 n0 p0.
case: (for_ 0 m _ _) => [d [Hd _]|//] /=.
split=> //; first exact: (rep_wf (rep_Mat Hd)).
exact: rep_cols (rep_Mat Hd) m0.
Qed.

Lemma mt_shape M : wf M ->
  [/\ (mt_u M).2, wf (mt_u M).1, Ok (rows (mt_u M).1) = cols M & cols (mt_u M).1 = Ok (rows M)].
Proof.
move=> /mat_of_surj[m [n [A ->]]]; have H := mat_of_rep (A ord0 ord0) A.
rewrite /mt_u; case/wp_ex: (rep_mt H isT isT) => R -> HR /=; split=> //.
- exact: (rep_wf HR).
- by rewrite (rep_cols H) // /rows (rep_no_rows HR).
- exact: rep_cols HR _.
Qed.

Lemma exec_wf c M : wf M -> (forall B, operand c = Some B -> wf B) -> wf (exec_u c M).1.
Proof.
move=> w hB; case: (boolP (moves c)) => [|h]; last first.
  by have [e1 e2] := exec_keeps w hB h; have [_ _ ->] := same_shape e1 e2.
case: c hB => //= [g B|] hB _.
  have := mmul_shape g w (hB _ erefl); case: (mmul_u g M B).2 => [[]|->] //.
by have [] := mt_shape w.
Qed.
End History.

(*@section C69 histories @*)
(*@doc C69: whatever in-place methods a caller runs, with any operands, and however many of them panic and are caught:
    the matrix keeps satisfying the shape invariant, so it can be used as before; and only a mmul or mt that returned
    changes its shape. *)
Lemma unwind_history_L : forall (N : pnum) (cs : seq (ucall N)) (M : mat N),
  wf M -> (forall c B, List.In c cs -> operand c = Some B -> wf B) ->
  wf (foldl (fun M c => (exec_u c M).1) M cs).
Proof.
move=> N; elim=> [|c cs IH] M w h //=; apply: IH.
  by apply: exec_wf => // B; apply: h; left.
by move=> c' B hin; apply: h; right.
Qed.

Lemma unwind_shape_L : forall (N : pnum) (c : ucall N) (M : mat N), wf M -> (forall B, operand c = Some B -> wf B) ->
  let M' := (exec_u c M).1 in
  match c with
  | UMmul _ B => (exec_u c M).2 -> rows M' = rows M /\ cols M' = cols B
  | UMt => (exec_u c M).2 -> Ok (rows M') = cols M /\ cols M' = Ok (rows M)
  | _ => True
  end /\
  match c with
  | UMmul _ _ | UMt => ~~ (exec_u c M).2 -> M' = M
  | _ => rows M' = rows M /\ cols M' = cols M
  end.
Proof.
move=> N c M w hB M'; case: (boolP (moves c)) => [|h]; last first.
  have [e1 e2] := exec_keeps w hB h; have [r c' _] := same_shape e1 e2.
  by case: c hB h @M' e1 e2 r c'.
rewrite /M'; case: c hB {M'} => //= [g B|] hB _.
  have := mmul_shape g w (hB _ erefl); case: (mmul_u g M B).2 => [[]|->] //.
by have [-> _ e1 e2] := mt_shape w.
Qed.

(*@example
(** Adding to an i8 matrix in a debug build: 127 + 1 panics at the third element; the first two have been added to, the
    last has not. *)
Example madd_i8_panics :
  madd_u (N:=pnum_int i8) (Mat 2 [:: Posz 100; Posz 1; Posz 127; Posz 5]) (Mat 2 [:: Posz 1; Posz 1; Posz 1; Posz 1]) =
  (Mat 2 [:: Posz 101; Posz 2; Posz 127; Posz 5], false).
Proof. by vm_compute. Qed.

(** A closure that counts its calls and panics on the third. *)
Definition third_panics (w x : nat) : nat * option nat := (w.+1, if w == 2 then None else Some (x * 10)).
Example mmap_third_panics :
  mmap_u third_panics 0 (Mat 2 [:: 1; 2; 3; 4]) = ((3, Mat 2 [:: 10; 20; 3; 4]), false) /\
  map_u (fun _ => 7) third_panics 0 (Mat 2 [:: 1; 2; 3; 4]) = (3, None) /\
  map_u (fun _ => 7) third_panics 3 (Mat 2 [:: 1; 2; 3; 4]) = (7, Some (Mat 2 [:: 10; 20; 30; 40])).
Proof. by []. Qed.

(** An overflowing product leaves the receiver alone; the caller scales the operand down and goes on. *)
Example mmul_i8_history :
  let A : mat (pnum_int i8) := Mat 2 [:: Posz 100; Posz 1; Posz 2; Posz 5] in let B : mat (pnum_int i8) := Mat 2 [:: Posz 1; Posz 2; Posz 3; Posz 4] in
  mmul_u (N:=pnum_int i8) (fun _ => 0%R) A B = (A, false) /\
  foldl (fun M c => (exec_u c M).1) A
    [:: UMmul (N:=pnum_int i8) (fun _ => 0%R) B; USet (N:=pnum_int i8) 0 0 1%R; UMmul (N:=pnum_int i8) (fun _ => 0%R) B] =
  Mat 2 [:: Posz 4; Posz 6; Posz 17; Posz 24].
Proof. by vm_compute. Qed.
@*)
