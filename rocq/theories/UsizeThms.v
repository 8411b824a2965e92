(** * UsizeThms: C44, machine integers (restated in PropUsize.v). *)
From mathcomp Require Import all_ssreflect all_algebra zify.
From Verif Require Import Base Scalar Hoare ModelMatrix ModelUsize Spec MatrixProofs MtProofs MatrixThms.

Set Implicit Arguments.
Unset Strict Implicit.
Unset Printing Implicit Defensive.

Lemma norm_fits w ch x : x < 2 ^ w -> norm w ch x = Ok x.
Proof. by rewrite /norm => ->. Qed.

Lemma norm_true w x y : norm w true x = Ok y -> y = x /\ x < 2 ^ w.
Proof. by rewrite /norm; case: ifP => // h [<-]. Qed.

(** ** the less-defined order *)
Variant lef A (m1 m2 : res A) : Prop := Lef of (forall a, m1 = Ok a -> m2 = Ok a).
Lemma lefP A (m1 m2 : res A) : lef m1 m2 -> forall a, m1 = Ok a -> m2 = Ok a. Proof. by case. Qed.
Lemma lef_refl A (m : res A) : lef m m. Proof. by constructor. Qed.
Hint Resolve lef_refl : core.
Lemma lef_bind A B (m1 m2 : res A) (k1 k2 : A -> res B) :
  lef m1 m2 -> (forall a, m1 = Ok a -> lef (k1 a) (k2 a)) -> lef (bind m1 k1) (bind m2 k2).
Proof. by case=> h hk; constructor => b; case e: m1 => [a|//] /=; rewrite (h a e) /=; exact: (lefP (hk a _)). Qed.
Lemma lef_norm A w x (k1 : nat -> res A) m2 :
  (x < 2 ^ w -> lef (k1 x) m2) -> lef (bind (norm w true x) k1) m2.
Proof. by move=> h; constructor => b; rewrite /norm; case: ifP => // hx /=; exact: (lefP (h _)). Qed.
Lemma lef_norm0 w x : lef (norm w true x) (Ok x).
Proof. by constructor => b; rewrite /norm; case: ifP. Qed.
Lemma lef_require A (b : bool) (m1 m2 : res A) : (b -> lef m1 m2) -> lef (require b m1) (require b m2).
Proof. by rewrite /require; case: b => // h; apply: h. Qed.
Lemma lef_for A lo hi (b1 b2 : nat -> A -> res A) s :
  (forall i s, lef (b1 i s) (b2 i s)) -> lef (for_ lo hi b1 s) (for_ lo hi b2 s).
Proof.
move=> h; rewrite /for_; move: (hi - lo) => k; elim: k lo s => [|k IH] lo s //=.
by apply: lef_bind => // a _; apply: IH.
Qed.
Lemma lef_loop A R fuel fuel' (b1 b2 : A -> res (ctl A R)) s : fuel <= fuel' ->
  (forall s, lef (b1 s) (b2 s)) -> lef (loop_ fuel b1 s) (loop_ fuel' b2 s).
Proof.
move=> + h; elim: fuel fuel' s => [|f IH] [|f1] s //= le.
by apply: lef_bind => // -[s1|r] _ //; apply: (IH f1 s1 le).
Qed.

(*@section C44 overflow checks on (debug profile) @*)
(*@doc C44: with overflow checks, whatever the machine version returns is what the unbounded-integer version (the
    one all other theorems are about) returns: an overflow can only turn a result into a panic. *)
Lemma checked_new_L : forall w T r c (d : seq T) M, new_w w true r c d = Ok M -> new r c d = Ok M.
Proof. by move=> w T r c d; apply: lefP; apply: lef_norm. Qed.

Lemma checked_get_L : forall w T (M : mat T) r c x, get_w w true M r c = Ok x -> get M r c = Ok x.
Proof.
move=> w T M r c; apply: lefP; rewrite /get_w /get; case: ifP => // _.
by apply: lef_bind => // n _; apply: lef_require => _; apply: lef_norm => _; apply: lef_norm => _.
Qed.

Lemma checked_set_L : forall w T (M : mat T) r c v M', set_w w true M r c v = Ok M' -> set M r c v = Ok M'.
Proof.
move=> w T M r c v; apply: lefP; rewrite /set_w /set; case: ifP => // _.
by apply: lef_bind => // n _; apply: lef_require => _; apply: lef_norm => _; apply: lef_norm => _.
Qed.

Lemma checked_constructors_L : forall w (N : numops) (g rnd : nat -> N) m n ds M,
  [/\ zero_w w true g m n = Ok M -> zero g m n = Ok M,
      id_w w true g m n = Ok M -> id g m n = Ok M,
      random_w w true g rnd m n = Ok M -> random g rnd m n = Ok M &
      block_diag_w w true g m n ds = Ok M -> block_diag g m n ds = Ok M].
Proof.
move=> w N g rnd m n ds M; split; move: M; apply: lefP.
- by apply: lef_norm => _.
- apply: lef_norm => _; apply: lef_bind => // d _; apply: lef_bind => //.
  by apply: lef_for => i s; apply: lef_norm => _; apply: lef_norm => _.
- by apply: lef_norm => _.
apply: lef_require => _; apply: lef_norm => _; apply: lef_bind => // d _; apply: lef_bind => //.
  by apply: lef_for => i s; apply: lef_bind => // x _; apply: lef_norm => _; apply: lef_norm => _.
by move=> d' _; constructor; apply: checked_new_L.
Qed.

Lemma checked_sub_matrix_L : forall w T (g : nat -> T) M sr sc er ec M',
  sub_matrix_w w true g M sr sc er ec = Ok M' -> sub_matrix g M sr sc er ec = Ok M'.
Proof.
move=> w T g M sr sc er ec; apply: lefP; rewrite /sub_matrix_w /sub_matrix.
apply: lef_require => _; apply: lef_require => _; apply: lef_bind => // n _; apply: lef_require => _.
apply: lef_norm => _; apply: lef_norm => _; apply: lef_norm => _; apply: lef_bind => //.
apply: lef_for => i [[d src] dst]; apply: lef_bind; last by move=> d' _; apply: lef_norm => _; apply: lef_norm => _.
apply: lef_for => j d'; apply: lef_norm => _; apply: lef_bind => // x _; by apply: lef_norm.
Qed.

Lemma checked_permute_rows_L : forall w T (g : nat -> T) M rs M',
  permute_rows_w w true g M rs = Ok M' -> permute_rows g M rs = Ok M'.
Proof.
move=> w T g M rs; apply: lefP; apply: lef_bind => // n _; apply: lef_norm => _.
apply: lef_bind => //; apply: lef_for => i st; apply: lef_bind => // k _; apply: lef_norm => _; apply: lef_require => _.
apply: lef_for => j [d dst]; apply: lef_norm => _; apply: lef_bind => // x _; apply: lef_bind => // d' _; by apply: lef_norm.
Qed.

Lemma checked_mul_L : forall w (N : numops) (g : nat -> N) M M2 M',
  mul_w w true g M M2 = Ok M' -> mul g M M2 = Ok M'.
Proof.
move=> w N g M M2; apply: lefP; rewrite /mul_w /mul /mul_data.
case e1: (cols M) => [n1|//] /=; apply: lef_require => _; case e2: (cols M2) => [n2|//] /=.
apply: lef_norm => _; apply: lef_bind => //; apply: lef_for => i d; apply: lef_for => j d'.
apply: lef_bind; last by move=> s _; apply: lef_norm => _; apply: lef_norm => _.
apply: lef_for => k s; apply: lef_bind; first by constructor; apply: checked_get_L.
by move=> x _; apply: lef_bind; first by constructor; apply: checked_get_L.
Qed.

(*@doc C44 (mt): with overflow checks, whatever the number of iterations, a returned in-place transpose is the transpose. *)
Lemma checked_mt_L : forall w fuel T m n (A : 'M[T]_(m.+1, n.+1)) M',
  mt_w w true fuel (mat_of A) = Ok M' -> M' = mat_of A^T%R.
Proof.
move=> w fuel T m n A M' H; have ok := mt_ok_L A isT isT.
set M := mat_of A in H ok; pose f' := maxn fuel (size (data M)).
pose mt_f := len1 <-- usub (size (data M)) 1 ;;
  '(d, _) <-- for_ 1 len1 (fun cycle_idx st =>
      let '(d, visited) := st in
      v <-- vget visited cycle_idx ;;
      if v then Ok (d, visited)
      else
        prev_value <-- vget d cycle_idx ;;
        loop_ f' (mt_cycle (no_rows M) cycle_idx) (d, visited, cycle_idx, prev_value))
    (data M, vec_of false (size (data M))) ;;
  n <-- cols (Mat (no_rows M) d) ;;
  Ok (Mat n d).
have L1 : lef (mt M) mt_f.
  apply: lef_bind => // len1 _; apply: lef_bind => //; apply: lef_for => i [d v]; apply: lef_bind => // b _.
  case: b => //; apply: lef_bind => // x _; apply: lef_loop => //; exact: leq_maxr.
have L2 : lef (mt_w w true fuel M) mt_f.
  apply: lef_bind => // len1 _; apply: lef_bind => //; apply: lef_for => i [d v]; apply: lef_bind => // b _.
  case: b => //; apply: lef_bind => // x _; apply: lef_loop; first exact: leq_maxl.
  by move=> [[[d1 v1] idx] pv]; apply: lef_bind => // l1 _; apply: lef_norm => _.
by move: (lefP L1 ok); rewrite (lefP L2 H) => -[].
Qed.

(*@section C44 no overflow @*)
(*@doc C44: when the exact sizes fit in usize the machine versions agree with the unbounded ones in both profiles. *)
Lemma fits_new_L : forall w ch T r c (d : seq T), r * c < 2 ^ w -> new_w w ch r c d = new r c d.
Proof. by move=> w ch T r c d h; rewrite /new_w /mulw norm_fits. Qed.

Lemma idx_fits w ch A m n i j (k : nat -> res A) : i < m -> j < n -> m * n <= 2 ^ w ->
  bind (mulw w ch i n) (fun x => bind (addw w ch x j) k) = k (i * n + j).
Proof.
move=> hi hj h; have l : i * n + j < 2 ^ w by apply: leq_trans h; apply: idx_lt.
by rewrite /mulw norm_fits /=; [rewrite /addw norm_fits | apply: leq_ltn_trans l; apply: leq_addr].
Qed.

Lemma cols_le T (M : mat T) n : cols M = Ok n -> no_rows M * n <= size (data M).
Proof. by rewrite /cols /udiv; case: ifP => // _ [<-]; rewrite mulnC leq_trunc_div. Qed.

Lemma fits_get_L : forall w ch T (M : mat T) r c, size (data M) <= 2 ^ w -> get_w w ch M r c = get M r c.
Proof.
move=> w ch T M r c h; rewrite /get_w /get; case: ifP => // hr; case e: (cols M) => [n|] //=.
rewrite /require; case: ifP => // hc; rewrite (@idx_fits _ _ _ (no_rows M)) //.
by apply: leq_trans (cols_le e) h.
Qed.

Lemma fits_set_L : forall w ch T (M : mat T) r c v, size (data M) <= 2 ^ w -> set_w w ch M r c v = set M r c v.
Proof.
move=> w ch T M r c v h; rewrite /set_w /set; case: ifP => // hr; case e: (cols M) => [n|] //=.
rewrite /require; case: ifP => // hc; rewrite (@idx_fits _ _ _ (no_rows M)) //.
by apply: leq_trans (cols_le e) h.
Qed.

Lemma fits_constructors_L : forall w ch (N : numops) (g rnd : nat -> N) m n ds, m * n < 2 ^ w ->
  [/\ zero_w w ch g m n = zero g m n, id_w w ch g m n = id g m n,
      random_w w ch g rnd m n = random g rnd m n & block_diag_w w ch g m n ds = block_diag g m n ds].
Proof.
move=> w ch N g rnd m n ds h.
have mn i : 0 <= i < minn m n -> i < m /\ i < n by lia.
rewrite /zero_w /id_w /random_w /block_diag_w /mulw !(norm_fits _ h) /=; split=> //.
- rewrite /id; case: (fill _ _ _) => //= d; congr bind; apply: for_eq => i s /mn[hi hj].
  by rewrite -/(mulw w ch i n) (@idx_fits _ _ _ m) // ltnW.
- rewrite /block_diag; congr require; case: (fill _ _ _) => //= d.
  rewrite (_ : for_ _ _ _ _ = for_ 0 (minn m n) (fun i d => x <-- vget ds i ;; vset d (i * n + i) x) d).
    by case: (for_ _ _ _ _) => //= d'; apply: fits_new_L.
  apply: for_eq => i s /mn[hi hj]; case: (vget _ _) => //= x.
  by rewrite -/(mulw w ch i n) (@idx_fits _ _ _ m) // ltnW.
Qed.

Lemma fits_mul_L : forall w ch (N : numops) (g : nat -> N) M M2 n2, cols M2 = Ok n2 -> no_rows M * n2 < 2 ^ w ->
  size (data M) <= 2 ^ w -> size (data M2) <= 2 ^ w -> mul_w w ch g M M2 = mul g M M2.
Proof.
move=> w ch N g M M2 n2 e2 h h1 h2; rewrite /mul_w /mul /mul_data e2; case e1: (cols M) => [n1|] //=.
congr require; rewrite /mulw norm_fits //=; congr bind; apply: for_eq => i d /andP[_ hi]; apply: for_eq => j d' /andP[_ hj].
rewrite (_ : for_ 0 n1 _ _ = for_ 0 n1 (fun idx s => x <-- get_ref M i idx ;; y <-- get_ref M2 idx j ;; Ok (n_add s (n_mul x y))) (n_zero N)).
  case: (for_ _ _ _ _) => //= s; by rewrite -/(mulw w ch i n2) (@idx_fits _ _ _ (no_rows M)) // ltnW.
by apply: for_eq => k s _; rewrite !fits_get_L.
Qed.

Lemma for_eq_inv A (I : A -> Prop) lo hi (b1 b2 : nat -> A -> res A) s : I s ->
  (forall i s, lo <= i < hi -> I s -> b1 i s = b2 i s /\ forall s', b2 i s = Ok s' -> I s') ->
  for_ lo hi b1 s = for_ lo hi b2 s.
Proof.
move=> Is H; rewrite /for_.
have {}H i s0 : lo <= i < lo + (hi - lo) -> I s0 -> b1 i s0 = b2 i s0 /\ forall s', b2 i s0 = Ok s' -> I s'.
  by move=> hi'; apply: H; lia.
move: (hi - lo) H => k; elim: k lo s Is => [//|k IH] lo s Is H /=.
have [|e h] := H lo s _ Is; first lia.
rewrite e; case e2: (b2 lo s) => [s'|//] /=; apply: IH; first exact: h.
move=> i s0 hi'; apply: H; lia.
Qed.

Lemma loop_eq_inv A R (I : A -> Prop) (J : R -> Prop) fuel (b1 b2 : A -> res (ctl A R)) s : I s ->
  (forall s, I s -> b1 s = b2 s /\ forall c, b2 s = Ok c -> match c with Next s' => I s' | Stop r => J r end) ->
  loop_ fuel b1 s = loop_ fuel b2 s /\ forall r, loop_ fuel b2 s = Ok r -> J r.
Proof.
move=> + H; elim: fuel s => [//|f IH] s Is /=; have [-> h] := H s Is.
by case e: (b2 s) => [[s'|r]|] //=; [apply: IH; apply: (h _ e) | split=> // r' [<-]; apply: (h _ e)].
Qed.

(*@doc C44 (mt): no overflow if rows * len fits. *)
Lemma fits_mt_L : forall w ch T (M : mat T), no_rows M * size (data M) < 2 ^ w ->
  mt_w w ch (size (data M)) M = mt M.
Proof.
move=> w ch T M h; rewrite /mt_w /mt; case e: (usub _ _) => [len1|] //=.
have el : len1 = (size (data M)).-1 by move: e; rewrite /usub; case: ifP => // _ [<-]; rewrite subn1.
congr bind; apply: (@for_eq_inv _ (fun st => size st.1 = size (data M))) => // i [d v] hi /= sd.
case: (vget v i) => [b|] //=; case: b => /=; first by split=> // s' [<-].
case: (vget d i) => [x|] //=.
have [] := @loop_eq_inv _ _ (fun st => size st.1.1.1 = size (data M) /\ st.1.2 <= size (data M))
   (fun st => size st.1 = size (data M)) (size (data M)) (mt_cycle_w w ch (no_rows M) i) (mt_cycle (no_rows M) i) (d, v, i, x).
- by split=> //=; lia.
- move=> [[[d1 v1] idx] pv] [/= s1 hidx]; rewrite /mulw norm_fits; last first.
    by apply: leq_ltn_trans h; rewrite leq_mul2l hidx orbT.
  split=> // c; rewrite s1 e /= /umod; case: ifP => //= /negbT l0.
  have hm := ltn_pmod (no_rows M * idx) (_ : 0 < len1).
  case: (vget d1 _) => [y|] //=; rewrite /vset s1; case: ifP => //= _.
  case: ifP => _; first by case=> <- /=; rewrite size_upd.
  case: ifP => //= _ [<-] /=; rewrite size_upd; split=> //.
  by apply: ltnW; apply: leq_trans (hm _) _; lia.
by move=> -> hJ; split=> // s' /hJ.
Qed.

(*@section C44 release profile @*)
Section Wrap.
Variable k : nat.
Let K := 2 ^ k.
Lemma KK : 2 ^ (k + k) = K * K. Proof. by rewrite expnD. Qed.
End Wrap.

(*@doc C44 is refuted without overflow checks: on a machine with 2k-bit usize, Matrix::new(2^k, 2^k, vec![]) is accepted
    (for k = 32: new(4294967296, 4294967296, vec![])), so that data.len() is not rows * cols as passed. *)
Lemma wrap_new_refuted_L : forall k T, new_w (k + k) false (2 ^ k) (2 ^ k) ([::] : seq T) = Ok (Mat (2 ^ k) [::]).
Proof.
by move=> k T; rewrite /new_w /mulw /norm -expnD ltnn modnn /= expn_gt0.
Qed.

(*@doc C44 is refuted without overflow checks: zero(2^k, 2^k + 1) returns a matrix with one column. *)
Lemma wrap_zero_refuted_L : forall k (N : numops) (g : nat -> N), 0 < k ->
  exists M, [/\ zero_w (k + k) false g (2 ^ k) (2 ^ k).+1 = Ok M, rows M = 2 ^ k & cols M = Ok 1].
Proof.
move=> k N g k0; exists (Mat (2 ^ k) (nseq (2 ^ k) (n_zero N))).
have K0 : 0 < 2 ^ k by rewrite expn_gt0.
have K1 : 1 < 2 ^ k by rewrite -{1}(expn0 2) ltn_exp2l.
have e : (2 ^ k * (2 ^ k).+1) %% 2 ^ (k + k) = 2 ^ k.
  rewrite expnD mulnS addnC modnDl modn_small //; move: (2 ^ k) K0 K1 => K K0 K1; nia.
split=> //; last by rewrite /cols /udiv /= size_nseq divnn K0; case: (2 ^ k) K0.
rewrite /zero_w /mulw /norm; case: ifP => [h|_].
  by exfalso; move: h; rewrite expnD mulnS; lia.
rewrite e /= /fill (for_fill (f := fun _ => n_zero N)) ?size_alloc //=.
by congr Ok; congr Mat; apply: (@eq_from_nth _ (n_zero N)); rewrite size_mkseq ?size_nseq // => i hi; rewrite nth_mkseq // nth_nseq hi.
Qed.

(*@doc C44/C07 refuted without overflow checks: on a 2 x 2 matrix sub_matrix(2^(w-1), 0, 2^(w-1) + 1, 1), far outside the
    matrix, returns its first element. *)
Lemma wrap_sub_matrix_refuted_L : forall w T (g : nat -> T) a b c d,
  sub_matrix_w w.+2 false g (Mat 2 [:: a; b; c; d]) (2 ^ w.+1) 0 (2 ^ w.+1).+1 1 = Ok (Mat 1 [:: a]).
Proof.
move=> w T g a b c d; have c2 : cols (Mat 2 [:: a; b; c; d]) = Ok 2 by [].
have l01 : 0 < 1 by [].
rewrite /sub_matrix_w c2 ltnS leqnn l01 subSn // subnn subn0; cbn [bind require].
have K0 : 0 < 2 ^ w by rewrite expn_gt0.
have e1 : (2 ^ w.+1 != (2 ^ w.+1).+1) by rewrite neq_ltn ltnS leqnn.
have nf x : x < 4 -> norm w.+2 false x = Ok x by move=> h; apply: norm_fits; rewrite !expnS; lia.
rewrite e1 [require _ _]/= /mulw /addw nf //.
have -> : norm w.+2 false (2 ^ w.+1 * 2) = Ok 0 by rewrite /norm -expnSr ltnn modnn.
by cbn [bind]; rewrite nf // /for_ /=; cbn; rewrite /addw !nf.
Qed.

(*@doc C44/C04 refuted without overflow checks: on a machine with 2k-bit usize, the in-place transpose of a column vector
    of 2^k + 2 elements never terminates (for k = 32: 4294967298 elements; on a 32-bit machine: 65538 elements). *)
Lemma wrap_mt_refuted_L : forall k T (d : seq T) fuel, 1 < k -> size d = 2 ^ k + 2 ->
  mt_w (k + k) false fuel (Mat (2 ^ k + 2) d) = Err OutOfFuel.
Proof.
move=> k T d fuel k1 sd.
have K4 : 4 <= 2 ^ k by rewrite -[4]/(2 ^ 2) leq_exp2l.
have e2 : 2 ^ (k + k) = 2 ^ k * 2 ^ k by rewrite expnD.
suff W : wpe fuelerr (mt_w (k + k) false fuel (Mat (2 ^ k + 2) d)) (fun _ => False).
  by case: (mt_w _ _ _ _) W => [//|e /= ->].
rewrite /mt_w /= sd /usub; have -> : 0 < 2 ^ k + 2 by lia.
cbn [bind]; move: (2 ^ k) K4 e2 sd => K K4 e2 sd.
have x0 : T by case: d sd => [/= sd|x ? _ //]; exfalso; lia.
have nf x : x < K * K -> norm (k + k) false x = Ok x by move=> h; apply: norm_fits; rewrite e2.
have md i : i <= K - 2 -> ((K + 2) * i) %% (K + 1) = i.
  move=> hi; have -> : (K + 2) * i = i * (K + 1) + i by lia.
  by rewrite modnMDl modn_small //; lia.
have l1 : K + 2 - 1 = K + 1 by lia.
have l0 : (K + 1 == 0) = false by lia.
have step d1 v1 i ci pv : size d1 = K + 2 -> size v1 = K + 2 -> i <= K - 2 ->
    mt_cycle_w (k + k) false (K + 2) ci (d1, v1, i, pv) =
    if i == ci then Ok (Stop (upd d1 i pv, v1)) else Ok (Next (upd d1 i pv, upd v1 i true, i, nth x0 d1 i)).
  move=> s1 s2 hi; rewrite /mt_cycle_w s1 /usub; have -> : 0 < K + 2 by lia.
  cbn [bind]; rewrite /mulw nf; last by nia.
  cbn [bind]; rewrite l1 /umod l0; cbn [bind]; rewrite md //.
  rewrite (vgetE x0) ?s1; last by lia.
  cbn [bind]; rewrite vsetE ?s1; last by lia.
  cbn [bind]; case: ifP => // _; rewrite vsetE ?s2 //; lia.
rewrite l1; apply: (wpe_bind2 (P := fun _ => False)) => //.
apply: (@wpe_for_err _ _ (fun _ st => size st.1 = K + 2 /\ st.2 = nseq (K + 2) false) 1 _ K.-1); first by lia.
- by [].
- move=> i [d1 v1] hi [/= s1 ->]; rewrite vget_nseq; last by lia.
  cbn [bind]; rewrite (vgetE x0) ?s1; last by lia.
  cbn [bind]; case: fuel => [//|f]; cbn [loop_]; rewrite step ?size_nseq //; last by lia.
  by rewrite eqxx /= size_upd.
move=> [d1 v1] [/= s1 ->]; rewrite vget_nseq; last by lia.
cbn [bind]; rewrite (vgetE x0) ?s1; last by lia.
cbn [bind]; apply: (@wpp_loop _ _ (fun st => [/\ size st.1.1.1 = K + 2, size st.1.1.2 = K + 2 & st.1.2 = K.-1 \/ st.1.2 = K - 2]) (fun _ => False)) => //.
  by split=> //=; [rewrite size_nseq | left].
move=> [[[d2 v2] idx] pv] [/= s2 sv [|]] ->; last first.
  have := step d2 v2 (K - 2) K.-1 pv s2 sv (leqnn _); rewrite /mt_cycle_w => ->; case: ifP => [/eqP|_]; first by lia.
  by split; rewrite /= ?size_upd //; right.
rewrite s2 /usub; have -> : 0 < K + 2 by lia.
cbn [bind]; rewrite /mulw; have -> : norm (k + k) false ((K + 2) * K.-1) = Ok (K - 2).
  rewrite /norm e2; have -> : (K + 2) * K.-1 = K * K + (K - 2) by nia.
  by rewrite ltnNge leq_addr /= modnDl modn_small //; nia.
cbn [bind]; rewrite l1 /umod l0; cbn [bind]; rewrite modn_small; last by lia.
rewrite (vgetE x0) ?s2; last by lia.
cbn [bind]; rewrite vsetE ?s2; last by lia.
cbn [bind]; case: ifP => [/eqP|_]; first by lia.
rewrite vsetE ?sv; last by lia.
by split; rewrite /= ?size_upd //; right.
Qed.

(*@example
(** The hypotheses are met by e.g. k = 2 (a 4-bit usize) and by k = 32. *)
Example wrap_hyps : 1 < 32 /\ size (nseq (2 ^ 2 + 2) tt) = 2 ^ 2 + 2.
Proof. by rewrite size_nseq. Qed.
(** and the no-overflow theorems by every small matrix *)
Example fits_hyps : 2 * size [:: 1; 2; 3; 4] < 2 ^ 16.
Proof. by rewrite (@leq_trans (2 ^ 4)) // leq_exp2l. Qed.
@*)
