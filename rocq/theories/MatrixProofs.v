(** * MatrixProofs: the methods of matrix.rs that need no decomposition. *)
From mathcomp Require Import all_ssreflect all_algebra zify.
From Verif Require Import Base Scalar Hoare ModelMatrix Spec.

Set Implicit Arguments.
Unset Strict Implicit.
Unset Printing Implicit Defensive.

Section Copy.
Variable T : Type.
Implicit Types M : mat T.

(** ** new, vector, row_vector *)
Lemma new_ok r c (d : seq T) : r * c == size d -> 0 < r -> 0 < c -> new r c d = Ok (Mat r d).
Proof. by move=> e r0 c0; rewrite /new e /= r0 c0. Qed.

Lemma new_rep m n (d : seq T) f : 0 < m -> 0 < n -> repr m n d f ->
  wp (new m n d) (fun M => rep m n M f).
Proof. by move=> m0 n0 H; rewrite new_ok // (repr_size H). Qed.

(** ** set *)
Lemma rep_set m n M f i j x : rep m n M f -> i < m -> j < n ->
  exists2 M', set M i j x = Ok M' &
    rep m n M' (fun i' j' => if (i' == i) && (j' == j) then x else f i' j').
Proof.
move=> H hi hj; exists (Mat m (upd (data M) (i * n + j) x)).
  rewrite /set (rep_no_rows H) hi (rep_cols H) /=; last by lia.
  by rewrite hj /= vsetE // (rep_size H) idx_lt.
by apply: rep_Mat; case: H => _ H; apply: repr_upd H hi hj _.
Qed.

Lemma rep_set_oob m n M f i j x : rep m n M f -> ~~ ((i < m) && (j < n)) ->
  set M i j x = Err Panic.
Proof.
move=> H; rewrite /set (rep_no_rows H); case: (ltnP i m) => //= im jn.
by rewrite (rep_cols H) /= ?(negPf jn) //; lia.
Qed.

(** ** map, mmap, reduce *)
Lemma rep_map S (g : nat -> S) (h : T -> S) m n M f : rep m n M f ->
  wp (map_ g h M) (fun R => rep m n R (fun i j => h (f i j))).
Proof.
move=> H; rewrite /map_ (rep_size H).
rewrite (for_fill (f := fun k => h (f (k %/ n) (k %% n)))) /=; first last.
- by move=> k d hk sz; rewrite (repr1_get (repr_flat (proj2 H))).
- by rewrite size_alloc.
rewrite (rep_no_rows H); apply: rep_Mat.
apply: repr_ext (flat_repr (repr1_mkseq _ _)) _ => i j hi hj.
by rewrite divnMDl ?modnMDl ?divn_small ?addn0 ?modn_small //; lia.
Qed.

Lemma rep_mmap (h : T -> T) m n M f : rep m n M f ->
  wp (mmap h M) (fun R => rep m n R (fun i j => h (f i j))).
Proof.
move=> H; rewrite /mmap (rep_size H).
have /repr1_eq E := repr_flat (proj2 H); set F := (fun k => _) in E.
apply: wpe_bind.
apply: (wpe_for (fun k d => repr1 (m * n) d (fun i => if i < k then h (F i) else F i))) => //.
- exact: repr_flat (proj2 H).
- move=> k d /= hk Hd; rewrite (repr1_get Hd) //= ltnn.
  apply: wpe_vset; first by rewrite (repr1_size Hd).
  apply: repr1_upd Hd hk _ => i hi; rewrite ltnS leq_eqVlt.
  by case: eqP => [->|]; rewrite ?ltnn.
move=> d Hd /=; rewrite (rep_no_rows H); apply: rep_Mat.
apply: repr_ext (flat_repr Hd) _ => i j hi hj.
rewrite idx_lt // /F divnMDl ?modnMDl ?divn_small ?addn0 ?modn_small //; lia.
Qed.

(** ** transpose *)
Lemma rep_t g m n M f : rep m n M f -> 0 < m ->
  wp (t g M) (fun R => rep n m R (fun i j => f j i)).
Proof.
move=> H m0; rewrite /t (rep_size H) (rep_cols H) //.
pose F k := f (k %% m) (k %/ m).
apply: wpe_bind.
apply: (wpe_for (fun k st => pre1 (m * n) k st.1 F /\
          (k < m * n -> st.2 = (k %% m) * n + k %/ m))) => //.
- by split; [exact: pre1_0 | rewrite mod0n div0n].
- move=> k [d src] /= hk [Hd]; move/(_ hk) => /= es.
  have km : k %% m < m by rewrite ltn_pmod.
  have kn : k %/ m < n by rewrite ltn_divLR // mulnC.
  rewrite es (rep_vget H km kn) /=.
  apply: wpe_bind; apply: wpe_pre1_set Hd hk _ _ => // d' Hd' /=.
  have kE : k.+1 = k %/ m * m + (k %% m).+1 by rewrite addnS -divn_eq.
  case: ifP => hif /=; split=> // hk1.
  + have e : k %% m = m.-1 by nia.
    have -> : k.+1 = (k %/ m).+1 * m by rewrite kE e prednK // mulSn addnC.
    by rewrite modnMl mulnK // e; nia.
  + have lt : (k %% m).+1 < m.
      rewrite ltnNge; apply/negP => ge.
      have e : k %% m = m.-1 by lia.
      by move: hif; rewrite e; nia.
    rewrite kE modnMDl (modn_small lt) divnMDl // (divn_small lt); lia.
move=> [d src] /= [Hd _]; apply: rep_Mat.
have {}Hd : repr1 (n * m) d F by rewrite mulnC.
apply: repr_ext (flat_repr Hd) _ => i j hi hj.
by rewrite /F modnMDl divnMDl // modn_small // divn_small // addn0.
Qed.


(** ** Concatenation *)
Lemma rep_cr g m n1 n2 M M2 f f2 : rep m n1 M f -> rep m n2 M2 f2 -> 0 < m ->
  wp (cr g M M2) (fun R => rep m (n1 + n2) R
                             (fun i j => if j < n1 then f i j else f2 i (j - n1))).
Proof.
move=> H H2 m0; rewrite /cr (rep_no_rows H) (rep_no_rows H2) eqxx /=.
rewrite (rep_size H) (rep_size H2) -mulnDr (rep_cols H) // (rep_cols H2) // /=.
set n := n1 + n2; set G := (fun i j => if j < n1 then _ else _).
pose F k := G (k %/ n) (k %% n).
apply: wpe_bind.
apply: (wpe_for (fun r st => [/\ pre1 (m * n) (r * n) st.1.1.1 F,
          st.1.1.2 = r * n1, st.1.2 = r * n2 & st.2 = r * n])) => //.
- by split=> //; rewrite mul0n; apply: pre1_0.
- move=> r [[[d s1] s2] dest] /= hr [Hd -> -> ->]; apply: wpe_bind.
  apply: (wpe_for (fun c st => [/\ pre1 (m * n) (r * n + c) st.1.1.1 F,
            st.1.1.2 = r * n1 + c, st.1.2 = r * n2 & st.2 = r * n + c])) => //.
  + by split=> //=; rewrite ?addn0.
  + move=> c [[[d' s1'] s2'] dest'] /= hc [Hd' -> -> ->].
    rewrite (rep_vget H) //=.
    have lt : c < n by rewrite /n; lia.
    apply: wpe_bind; apply: (wpe_pre1_set Hd').
    * exact: idx_lt.
    * by rewrite /F flat_at // /G hc.
    * by move=> v' Hv'; split=> //=; rewrite ?addn1 ?addnS.
  move=> [[[d' s1'] s2'] dest'] /= [Hd' -> -> ->].
  apply: (wpe_for (fun c st => [/\ pre1 (m * n) (r * n + n1 + c) st.1.1.1 F,
            st.1.1.2 = r * n1 + n1, st.1.2 = r * n2 + c & st.2 = r * n + n1 + c])) => //.
  + by split=> //=; rewrite ?addn0.
  + move=> c [[[d2 s1''] s2''] dest''] /= hc [Hd2 -> -> ->].
    rewrite (rep_vget H2) //=.
    have lt : n1 + c < n by rewrite /n; lia.
    apply: wpe_bind; apply: (wpe_pre1_set Hd2).
    * by rewrite -addnA; apply: idx_lt.
    * by rewrite /F -addnA flat_at // /G ltnNge leq_addr /= addKn.
    * by move=> v' Hv'; split=> //=; rewrite ?addn1 ?addnS.
  move=> [[[d2 s1''] s2''] dest''] /= [Hd2 -> -> ->].
  have e : r * n + n1 + n2 = r.+1 * n by rewrite mulSn /n; lia.
  by rewrite e in Hd2 *; split=> //=; rewrite mulSn addnC.
by move=> [[[d s1] s2] dest] /= [Hd _ _ _]; apply: rep_Mat; apply: pre1_repr.
Qed.

Lemma cr_panic g m1 m2 n1 n2 M M2 f f2 : rep m1 n1 M f -> rep m2 n2 M2 f2 ->
  m1 != m2 -> cr g M M2 = Err Panic.
Proof. by move=> H H2 ne; rewrite /cr (rep_no_rows H) (rep_no_rows H2) (negPf ne). Qed.

Lemma rep_cb g m1 m2 n M M2 f f2 : rep m1 n M f -> rep m2 n M2 f2 -> 0 < m1 -> 0 < m2 ->
  wp (cb g M M2) (fun R => rep (m1 + m2) n R
                             (fun i j => if i < m1 then f i j else f2 (i - m1) j)).
Proof.
move=> H H2 m10 m20; rewrite /cb (rep_cols H) // (rep_cols H2) //= eqxx /=.
rewrite (rep_size H) (rep_size H2) -mulnDl (rep_no_rows H) (rep_no_rows H2).
set m := m1 + m2; set G := (fun i j => if i < m1 then _ else _).
pose F k := G (k %/ n) (k %% n).
apply: wpe_bind.
apply: (wpe_for (fun k d => pre1 (m * n) k d F)) => //.
- exact: pre1_0.
- move=> k d /= hk Hd.
  have [e hi hj] := idx_divmod hk.
  rewrite (repr1_get (repr_flat (proj2 H))) //=.
  apply: (wpe_pre1_set Hd) => //; first by rewrite /m; nia.
  by rewrite /F /G hi.
move=> d Hd; apply: wpe_bind.
apply: (wpe_for (fun k d => pre1 (m * n) (m1 * n + k) d F)) => //.
- by rewrite addn0.
- move=> k d' /= hk Hd'.
  have [e hi hj] := idx_divmod hk.
  rewrite (repr1_get (repr_flat (proj2 H2))) //=.
  apply: (wpe_pre1_set Hd'); first by rewrite /m; nia.
    by rewrite /F divnMDl ?modnMDl /G; [rewrite ltnNge leq_addr /= addKn | lia].
  by move=> v' Hv'; rewrite addnS.
move=> d' Hd' /=; apply: rep_Mat; apply: pre1_repr.
by move: Hd'; rewrite -mulnDl.
Qed.

Lemma cb_panic g m1 m2 n1 n2 M M2 f f2 : rep m1 n1 M f -> rep m2 n2 M2 f2 ->
  0 < m1 -> 0 < m2 -> n1 != n2 -> cb g M M2 = Err Panic.
Proof.
by move=> H H2 m10 m20 ne; rewrite /cb (rep_cols H) // (rep_cols H2) //= (negPf ne).
Qed.

(** ** get_column *)
Lemma rep_get_column g m n M f c : rep m n M f -> 0 < m -> c < n ->
  wp (get_column g M c) (fun R => rep m 1 R (fun i _ => f i c)).
Proof.
move=> H m0 cn; rewrite /get_column (rep_cols H) //= cn /= (rep_no_rows H).
apply: wpe_bind.
apply: (wpe_for (fun k st => pre1 m k st.1 (fun i => f i c) /\ st.2 = k * n + c)) => //.
- by split=> //; apply: pre1_0.
- move=> k [d s] /= hk [Hd ->]; rewrite (rep_vget H) //=.
  apply: wpe_bind; apply: (wpe_pre1_set Hd) => // v' Hv' /=; split=> //=.
  by rewrite mulSn; lia.
by move=> [d s] /= [Hd _]; apply: rep_Mat; apply/repr1_col.
Qed.

Lemma get_column_panic g m n M f c : rep m n M f -> 0 < m -> n <= c ->
  get_column g M c = Err Panic.
Proof. by move=> H m0 cn; rewrite /get_column (rep_cols H) //= ltnNge cn. Qed.

(** ** permute_rows, permute_columns *)
Lemma rep_permute_rows g m n M f rs : rep m n M f -> 0 < m -> all (fun k => k < m) rs ->
  wp (permute_rows g M rs) (fun R => rep (size rs) n R (fun i j => f (nth 0 rs i) j)).
Proof.
move=> H m0 /allP ok; rewrite /permute_rows (rep_cols H) //=.
set G := (fun i j => f (nth 0 rs i) j); pose F k := G (k %/ n) (k %% n).
apply: wpe_bind.
apply: (wpe_for (fun r st => pre1 (size rs * n) (r * n) st.1 F /\ st.2 = r * n)) => //.
- by split=> //; apply: pre1_0.
- move=> r [d dest] /= hr [Hd ->].
  have rm : nth 0 rs r < m by apply: ok; apply: mem_nth.
  rewrite (vgetE 0) //= (rep_no_rows H) rm /=.
  apply: (wpe_for (fun c st => pre1 (size rs * n) (r * n + c) st.1 F /\
                                     st.2 = r * n + c)) => //.
  + by rewrite addn0.
  + move=> c [d' dest'] /= hc [Hd' ->]; rewrite (rep_vget H) //=.
    apply: wpe_bind; apply: (wpe_pre1_set Hd').
    * exact: idx_lt.
    * by rewrite /F flat_at.
    * by move=> v' Hv'; split=> //=; rewrite ?addn1 ?addnS.
  by move=> [d' dest'] /= [Hd' ->]; rewrite mulSn addnC in Hd' *.
by move=> [d dest] /= [Hd _]; apply: rep_Mat; apply: pre1_repr.
Qed.

Lemma permute_rows_panic g m n M f rs : rep m n M f -> 0 < m ->
  ~~ all (fun k => k < m) rs -> permute_rows g M rs = Err Panic.
Proof.
move=> H m0 /allPn[x xrs /negbTE xm]; rewrite /permute_rows (rep_cols H) //=.
apply: panicP; apply: wpe_bind; apply: wpe_mono; last first.
  pose bad k := m <= nth 0 rs k.
  have exb : exists k, bad k && (k < size rs).
    exists (index x rs); rewrite index_mem xrs andbT /bad nth_index //.
    by rewrite leqNgt xm.
  case: (ex_minnP exb) => k /andP[bk ks] kmin.
  apply: (wpe_for_err (fun r st => size st.1 = size rs * n /\ st.2 = r * n) k) => //.
  - by rewrite /= size_alloc.
  - move=> r [d dest] /= hr [sd ->].
    have rs_r : r < size rs by lia.
    have rm : nth 0 rs r < m.
      rewrite ltnNge; apply/negP => br.
      by have := kmin r; rewrite /bad br rs_r => /(_ isT); lia.
    rewrite (vgetE 0) //= (rep_no_rows H) rm /=.
    apply: (wpe_for (fun c st => size st.1 = size rs * n /\ st.2 = r * n + c)) => //.
    + by rewrite addn0.
    + move=> c [d' dest'] /= hc [sd' ->]; rewrite (rep_vget H) //=.
      apply: wpe_bind; apply: wpe_vset; first by rewrite sd' idx_lt.
      by split=> /=; [rewrite size_upd | lia].
    by move=> [d' dest'] /= [sd' ->]; split=> //; rewrite mulSn addnC.
  - move=> [d dest] /= _; rewrite (vgetE 0) //= (rep_no_rows H) ltnNge.
    by move: bk; rewrite /bad => ->.
by move=> [].
Qed.

Lemma rep_permute_columns g m n M f cs : rep m n M f -> 0 < m -> all (fun k => k < n) cs ->
  wp (permute_columns g M cs) (fun R => rep m (size cs) R (fun i j => f i (nth 0 cs j))).
Proof.
move=> H m0 /allP ok; rewrite /permute_columns (rep_no_rows H) (rep_cols H) //=.
set G := (fun i j => f i (nth 0 cs j)); pose F k := G (k %/ size cs) (k %% size cs).
apply: wpe_bind.
apply: (wpe_for (fun r st => [/\ pre1 (m * size cs) (r * size cs) st.1.1 F,
          st.1.2 = r * size cs & st.2 = r * n])) => //.
- by split=> //; apply: pre1_0.
- move=> r [[d dest] ri] /= hr [Hd -> ->]; apply: wpe_bind.
  apply: (wpe_for (fun c st => [/\ pre1 (m * size cs) (r * size cs + c) st.1.1 F,
             st.1.2 = r * size cs + c & st.2 = r * n])) => //.
  + by rewrite addn0.
  + move=> c [[d' dest'] ri'] /= hc [Hd' -> ->].
    have cn : nth 0 cs c < n by apply: ok; apply: mem_nth.
    rewrite (vgetE 0) //= cn /= (rep_vget H) //=.
    apply: wpe_bind; apply: (wpe_pre1_set Hd').
    * exact: idx_lt.
    * by rewrite /F flat_at.
    * by move=> v' Hv'; split=> //=; rewrite ?addn1 ?addnS.
  by move=> [[d' dest'] ri'] /= [Hd' -> ->]; rewrite mulSn addnC in Hd' *; split=> //=; lia.
by move=> [[d dest] ri] /= [Hd _ _]; apply: rep_Mat; apply: pre1_repr.
Qed.

Lemma permute_columns_panic g m n M f cs : rep m n M f -> 0 < m ->
  ~~ all (fun k => k < n) cs -> permute_columns g M cs = Err Panic.
Proof.
move=> H m0 /allPn[x xcs /negbTE xn]; rewrite /permute_columns (rep_no_rows H) (rep_cols H) //=.
apply: panicP; apply: wpe_bind; apply: wpe_mono; last first.
  apply: (wpe_for_err (fun r st => [/\ r = 0, size st.1.1 = m * size cs, st.1.2 = 0 & st.2 = 0]) 0) => //.
    by rewrite size_alloc.
  move=> [[d dest] ri] /= [_ sd -> ->].
  pose bad k := n <= nth 0 cs k.
  have exb : exists k, bad k && (k < size cs).
    exists (index x cs); rewrite index_mem xcs andbT /bad nth_index //.
    by rewrite leqNgt xn.
  case: (ex_minnP exb) => k /andP[bk ks] kmin.
  apply: wpe_bind; apply: wpe_mono; last first.
    apply: (wpe_for_err (fun c st => [/\ size st.1.1 = m * size cs, st.1.2 = c & st.2 = 0]) k) => //.
    - move=> c [[d' dest'] ri'] /= hc [sd' -> ->].
      have cs_c : c < size cs by lia.
      have cn : nth 0 cs c < n.
        rewrite ltnNge; apply/negP => br.
        by have := kmin c; rewrite /bad br cs_c => /(_ isT); lia.
      rewrite (vgetE 0) //= cn /=.
      have := rep_vget H m0 cn; rewrite mul0n => -> /=.
      apply: wpe_bind; apply: wpe_vset; first by rewrite sd'; nia.
      by split=> /=; rewrite ?size_upd // addn1.
    - move=> [[d' dest'] ri'] /= _; rewrite (vgetE 0) //= ltnNge.
      by move: bk; rewrite /bad => ->.
  by move=> [].
by move=> [].
Qed.

(** ** filter and select *)
Lemma rep_filter_rows g (p : mat T -> nat -> bool) m n M f : rep m n M f -> 0 < m ->
  wp (filter_rows g p M) (fun R => rep (size (filter (p M) (iota 0 m))) n R
       (fun i j => f (nth 0 (filter (p M) (iota 0 m)) i) j)).
Proof.
move=> H m0; rewrite /filter_rows /rows (rep_no_rows H) (for_filter (p := p M)) //=.
apply: rep_permute_rows H m0 _; apply/allP => k.
by rewrite mem_filter mem_iota => /andP[_ /andP[_]].
Qed.

Lemma rep_filter_columns g (p : mat T -> nat -> bool) m n M f : rep m n M f -> 0 < m ->
  wp (filter_columns g p M) (fun R => rep m (size (filter (p M) (iota 0 n))) R
       (fun i j => f i (nth 0 (filter (p M) (iota 0 n)) j))).
Proof.
move=> H m0; rewrite /filter_columns (rep_cols H) //= (for_filter (p := p M)) //=.
apply: rep_permute_columns H m0 _; apply/allP => k.
by rewrite mem_filter mem_iota => /andP[_ /andP[_]].
Qed.

Lemma rep_select_rows g m n M f sel : rep m n M f -> 0 < m -> size sel = m ->
  wp (select_rows g M sel) (fun R => rep (size (filter (nth false sel) (iota 0 m))) n R
       (fun i j => f (nth 0 (filter (nth false sel) (iota 0 m)) i) j)).
Proof.
move=> H m0 sz; rewrite /select_rows (rep_no_rows H) sz eqxx /=.
rewrite (for_filter (p := nth false sel)) /=; last first.
  by move=> i rs hi; rewrite (vgetE false) // sz.
apply: rep_permute_rows H m0 _; apply/allP => k.
by rewrite mem_filter mem_iota => /andP[_ /andP[_]].
Qed.

Lemma select_rows_panic g m n M f sel : rep m n M f -> size sel != m ->
  select_rows g M sel = Err Panic.
Proof. by move=> H ne; rewrite /select_rows (rep_no_rows H) eq_sym (negPf ne). Qed.

Lemma rep_select_columns g m n M f sel : rep m n M f -> 0 < m -> size sel = n ->
  wp (select_columns g M sel) (fun R => rep m (size (filter (nth false sel) (iota 0 n))) R
       (fun i j => f i (nth 0 (filter (nth false sel) (iota 0 n)) j))).
Proof.
move=> H m0 sz; rewrite /select_columns (rep_cols H) //= sz eqxx /=.
rewrite (for_filter (p := nth false sel)) /=; last first.
  by move=> i rs hi; rewrite (vgetE false) // sz.
apply: rep_permute_columns H m0 _; apply/allP => k.
by rewrite mem_filter mem_iota => /andP[_ /andP[_]].
Qed.

Lemma select_columns_panic g m n M f sel : rep m n M f -> 0 < m -> size sel != n ->
  select_columns g M sel = Err Panic.
Proof. by move=> H m0 ne; rewrite /select_columns (rep_cols H) //= eq_sym (negPf ne). Qed.

(** ** random *)
Lemma rep_random g rnd r c :
  wp (random (T:=T) g rnd r c) (fun R => rep r c R (fun i j => rnd (i * c + j))).
Proof.
rewrite /random (for_fill (f := rnd)) ?size_alloc //=.
by apply: rep_Mat; apply: flat_repr; apply: repr1_mkseq.
Qed.

End Copy.
