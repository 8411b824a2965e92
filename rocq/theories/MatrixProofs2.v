(** * MatrixProofs2: minor, sub_matrix, reduce, constructors, arithmetic. *)
From mathcomp Require Import all_ssreflect all_algebra zify.
From Verif Require Import Base Scalar Hoare ModelMatrix Spec MatrixProofs.

Set Implicit Arguments.
Unset Strict Implicit.
Unset Printing Implicit Defensive.

Section Copy.
Variable T : Type.
Implicit Types M : mat T.

(** ** minor *)
Lemma rep_minor g m n M f row col : rep m n M f ->
  row < m -> col < n -> 1 < m -> 1 < n ->
  wp (minor g M row col)
     (fun R => rep m.-1 n.-1 R (fun i j => f (bump row i) (bump col j))).
Proof.
move=> H rm cn m1 n1; have m0 : 0 < m by lia.
rewrite /minor (rep_cols H) //= (rep_no_rows H) rm cn m1 n1 /= !subn1 [n.-1 * _]mulnC.
set G := (fun i j => f (bump row i) (bump col j)).
pose F k := G (k %/ n.-1) (k %% n.-1).
have [ro roE] : exists ro : nat -> nat, forall r, ro r = r - (row < r) by eexists.
have [co coE] : exists co : nat -> nat, forall c, co c = c - (col < c) by eexists.
apply: wpe_bind.
apply: (wpe_for (fun r st => [/\ pre1 (m.-1 * n.-1) (ro r * n.-1) st.1.1 F,
          st.1.2 = r * n & st.2 = ro r * n.-1])) => //.
- by rewrite roE; split=> //; apply: pre1_0.
- move=> r [[d src] dest] /= hr [Hd -> ->]; apply: wpe_bind.
  case: (altP (r =P row)) => [er|ne] /=.
    have e : ro r.+1 = ro r by rewrite !roE; lia.
    by split=> //=; rewrite ?e // mulSn addnC.
  have e : ro r.+1 = (ro r).+1 by rewrite !roE; lia.
  have br : bump row (ro r) = r by rewrite roE /bump; lia.
  have rlt : ro r < m.-1 by rewrite roE; lia.
  rewrite {}e.
  apply: (wpe_for (fun c st => [/\ pre1 (m.-1 * n.-1) (ro r * n.-1 + co c) st.1.1 F,
            st.1.2 = r * n & st.2 = ro r * n.-1 + co c])) => //.
  + by rewrite coE !addn0.
  + move=> c [[d' src'] dest'] /= hc [Hd' -> ->].
    case: (altP (c =P col)) => [ec|nc] /=.
      by have -> : co c.+1 = co c by rewrite !coE; lia.
    have e : co c.+1 = (co c).+1 by rewrite !coE; lia.
    have bc : bump col (co c) = c by rewrite coE /bump; lia.
    have clt : co c < n.-1 by rewrite coE; lia.
    rewrite {}e (rep_vget H) //=.
    apply: wpe_bind; apply: (wpe_pre1_set Hd').
    * exact: idx_lt.
    * by rewrite /F flat_at // /G br bc.
    * by move=> v' Hv'; split=> //=; rewrite ?addn1 ?addnS.
  move=> [[d' src'] dest'] /= [Hd' -> ->].
  have e : ro r * n.-1 + co n = (ro r).+1 * n.-1 by rewrite mulSn coE; lia.
  by rewrite e in Hd' *; split=> //=; rewrite mulSn addnC.
move=> [[d src] dest] /= [Hd _ _].
apply: rep_Mat; apply: pre1_repr.
have e : ro m = m.-1 by rewrite roE; lia.
by rewrite e in Hd.
Qed.

Lemma minor_panic g m n M f row col : rep m n M f -> 0 < m ->
  ~~ [&& row < m, col < n, 1 < m & 1 < n] -> minor g M row col = Err Panic.
Proof. by move=> H m0 h; rewrite /minor (rep_cols H) //= (rep_no_rows H) (negPf h). Qed.

(** ** sub_matrix: what it does on every input.  [sub_ok] is the exact
    condition under which it returns. *)
Definition sub_ok m n r0 c0 r1 c1 : bool :=
  [&& r0 < r1, c0 < c1, r1 - r0 < m, c1 - c0 < n & (r1.-1 * n + c1 <= m * n)].

Lemma rep_sub_matrix g m n M f r0 c0 r1 c1 : rep m n M f -> sub_ok m n r0 c0 r1 c1 ->
  wp (sub_matrix g M r0 c0 r1 c1) (fun R => rep (r1 - r0) (c1 - c0) R
     (fun i j => let k := (r0 + i) * n + (c0 + j) in f (k %/ n) (k %% n))).
Proof.
move=> H /and5P[r01 c01 rm cn bnd]; have m0 : 0 < m by lia.
rewrite /sub_matrix r01 c01 /= (rep_cols H) //= (rep_no_rows H) rm cn.
have -> : r0 != r1 by lia. have -> : c0 != c1 by lia.
rewrite /=; set R := r1 - r0; set C := c1 - c0.
pose G i j := let k := (r0 + i) * n + (c0 + j) in f (k %/ n) (k %% n).
pose F k := G (k %/ C) (k %% C).
apply: wpe_bind.
apply: (wpe_for (fun r st => [/\ pre1 (R * C) (r * C) st.1.1 F,
          st.1.2 = (r0 + r) * n + c0 & st.2 = r * C])) => //.
- by split=> //=; rewrite ?addn0 //; apply: pre1_0.
- move=> r [[d src] dest] /= hr [Hd -> ->]; apply: wpe_bind.
  apply: (wpe_for (fun c d => pre1 (R * C) (r * C + c) d F)) => //.
  + by rewrite addn0.
  + move=> c d' /= hc Hd'.
    have lt : (r0 + r) * n + (c0 + c) < m * n.
      have h1 : (r0 + r) * n <= r1.-1 * n by rewrite leq_mul2r; rewrite /R in hr; lia.
      have h2 : c0 + c < c1 by rewrite /C in hc; lia.
      by lia.
    rewrite -addnA (repr1_get (repr_flat (proj2 H))) //=.
    apply: (wpe_pre1_set Hd').
    * exact: idx_lt.
    * by rewrite /F (flat_at G).
    * by move=> v' Hv'; rewrite addnS.
  move=> d' Hd' /=; split=> /=.
  * by rewrite mulSn addnC.
  * by rewrite addnS mulSn; lia.
  * by rewrite mulSn; lia.
move=> [[d src] dest] /= [Hd _ _].
by apply: rep_Mat; apply: pre1_repr.
Qed.

Lemma sub_matrix_panic g m n M f r0 c0 r1 c1 : rep m n M f -> 0 < m ->
  ~~ sub_ok m n r0 c0 r1 c1 -> sub_matrix g M r0 c0 r1 c1 = Err Panic.
Proof.
move=> H m0; rewrite /sub_ok /sub_matrix.
case r01 : (r0 < r1) => //=; case c01 : (c0 < c1) => //=.
rewrite (rep_cols H) //= (rep_no_rows H).
have -> : r0 != r1 by lia. have -> : c0 != c1 by lia.
case rm : (r1 - r0 < m) => //=; case cn : (c1 - c0 < n) => //= bnd.
set R := r1 - r0; set C := c1 - c0.
apply: panicP; apply: wpe_bind; apply: wpe_mono; last first.
  (* the first (row, column) whose source index is out of range *)
  pose bad r := m * n <= (r0 + r) * n + (c0 + C.-1).
  have exb : exists r, bad r && (r < R).
    exists R.-1; rewrite /bad /R /C; apply/andP; split; last by lia.
    have -> : r0 + (r1 - r0).-1 = r1.-1 by lia.
    lia.
  case: (ex_minnP exb) => k /andP[bk ks] kmin.
  apply: (wpe_for_err (fun r st => [/\ size st.1.1 = R * C,
          st.1.2 = (r0 + r) * n + c0 & st.2 = r * C]) k) => //.
  - by rewrite /= size_alloc; split=> //; rewrite addn0.
  - move=> r [[d src] dest] /= hr [sd -> ->]; apply: wpe_bind.
    have ok : (r0 + r) * n + (c0 + C.-1) < m * n.
      rewrite ltnNge; apply/negP => br.
      by have := kmin r; rewrite /bad br => /(_ _); lia.
    apply: (wpe_for (fun c d => size d = R * C)) => //.
    + move=> c d' /= hc sd'; rewrite -addnA.
      rewrite (repr1_get (repr_flat (proj2 H))) //=; last by lia.
      apply: wpe_vset; rewrite ?size_upd // sd'; apply: idx_lt => //; lia.
    move=> d' sd' /=; split=> //.
    * by rewrite addnS mulSn; lia.
    * by rewrite mulSn; lia.
  - move=> [[d src] dest] /= [sd -> ->]; apply: wpe_bind; apply: wpe_mono; last first.
      pose badc c := m * n <= (r0 + k) * n + (c0 + c).
      have exc : exists c, badc c && (c < C).
        by exists C.-1; rewrite /badc -/(bad k) bk /C; lia.
      case: (ex_minnP exc) => c /andP[bc hc] cmin.
      apply: (wpe_for_err (fun c d => size d = R * C) c) => //.
      + move=> c' d' /= hc' sd'; rewrite -addnA.
        rewrite (repr1_get (repr_flat (proj2 H))) //=; last first.
          rewrite ltnNge; apply/negP => br.
          by have := cmin c'; rewrite /badc br => /(_ _); lia.
        apply: wpe_vset; rewrite ?size_upd // sd'; apply: idx_lt => //; lia.
      + move=> d' sd'; rewrite -addnA vget_oob ?(rep_size H) //.
    by [].
by move=> [].
Qed.

(** ** reduce *)
Lemma rep_reduce S (h : S -> T -> S) (s0 : S) init m n M f : rep m n M f -> 0 < m -> 0 < n ->
  size init = n ->
  wp (reduce init h M) (fun R => rep 1 n R
      (fun _ j => foldl h (nth s0 init j) [seq f r j | r <- iota 0 m])).
Proof.
move=> H m0 n0 sz; rewrite /reduce (rep_cols H) //= sz eqxx /= (rep_size H).
pose cf j k := foldl h (nth s0 init j) [seq f r j | r <- iota 0 k].
have cfS j k : cf j k.+1 = h (cf j k) (f k j).
  by rewrite /cf -addn1 iotaD map_cat foldl_cat.
apply: wpe_bind.
apply: (wpe_for (fun k st => repr1 n st.1 (fun j => cf j (k %/ n + (j < k %% n))) /\
          st.2 = k %% n)) => //.
- split=> /=; last by rewrite mod0n.
  split=> //= j hj; rewrite (vgetE s0) ?sz // div0n mod0n //.
- move=> k [d idx] /= hk [Hd ->].
  have [ek hi hj] := idx_divmod hk.
  rewrite (repr1_get Hd) //= ltnn addn0.
  rewrite (repr1_get (repr_flat (proj2 H))) //=.
  rewrite vsetE ?(repr1_size Hd) //= /umod size_upd (repr1_size Hd).
  have -> : (n == 0) = false by lia.
  rewrite /=; split; last by rewrite /= modnDml addn1.
  apply: repr1_upd Hd hj _ => j hjn.
  have ek1 : k.+1 = k %/ n * n + (k %% n).+1 by rewrite addnS -divn_eq.
  case: (ltnP (k %% n).+1 n) => hlt.
    have -> : k.+1 %/ n = k %/ n by rewrite ek1 divnMDl // (divn_small hlt) addn0.
    have -> : k.+1 %% n = (k %% n).+1 by rewrite ek1 modnMDl (modn_small hlt).
    case: eqP => [->|ne]; first by rewrite ltnSn addn1 cfS.
    by congr cf; lia.
  have e : (k %% n).+1 = n by lia.
  have -> : k.+1 %/ n = (k %/ n).+1 by rewrite ek1 e divnMDl // divnn n0 addn1.
  have -> : k.+1 %% n = 0 by rewrite ek1 e modnMDl modnn.
  rewrite ltn0 addn0; case: eqP => [->|ne]; first by rewrite cfS.
  by congr cf; lia.
move=> [d idx] /= [Hd _]; apply: rep_Mat; rewrite mulnK ?modnMl // in Hd.
split; first by rewrite (repr1_size Hd) mul1n.
by move=> i j; rewrite ltnS leqn0 => /eqP -> hj; rewrite mul0n (repr1_get Hd) // ltn0 addn0.
Qed.

Lemma reduce_panic S (h : S -> T -> S) init m n M f : rep m n M f -> 0 < m ->
  size init != n -> reduce init h M = Err Panic.
Proof. by move=> H m0 ne; rewrite /reduce (rep_cols H) //= (negPf ne). Qed.

End Copy.

Section Num.
Variable N : numops.
Implicit Types M : mat N.

(** ** Constructors *)
Lemma fill_eq (x : N) k d : size d = k -> fill x k d = Ok (nseq k x).
Proof.
move=> sz; rewrite /fill (for_fill (f := fun _ => x)) //.
by congr Ok; apply: (@eq_from_nth _ x); rewrite ?size_mkseq ?size_nseq // => i hi;
   rewrite nth_mkseq // nth_nseq hi.
Qed.

Lemma repr_nseq T m n (x : T) : repr m n (nseq (m * n) x) (fun _ _ => x).
Proof. by split=> [|i j hi hj]; rewrite ?size_nseq // vget_nseq // idx_lt. Qed.

(** diagonal loop: [for i in 0..k { d[i * n + i] = x(i) }] *)
Lemma diag_loop m n k (x : nat -> N) d f (body : nat -> seq N -> res (seq N)) : k <= minn m n ->
  (forall i d, i < k -> body i d = vset d (i * n + i) (x i)) ->
  repr m n d f ->
  wp (for_ 0 k body d)
     (fun d => repr m n d (fun i j => if (i == j) && (i < k) then x i else f i j)).
Proof.
move=> km hb Hd.
apply: (wpe_for (fun k d => repr m n d (fun i j => if (i == j) && (i < k) then x i else f i j))) => //.
- by apply: repr_ext Hd _ => i j _ _; rewrite ltn0 andbF.
- move=> i d' /= hi Hd'; rewrite hb //.
  apply: (wpe_repr_set Hd'); [by lia|by lia|move=> v' Hv'].
  apply: repr_ext Hv' _ => i' j' _ _.
  case: (altP (i' =P i)) => [->|ne] /=.
    by rewrite ltnSn andbT eq_sym; case: eqP => //= _; rewrite ltnn andbF.
  by have -> : (i' < i.+1) = (i' < i) by lia.
Qed.

Lemma rep_id (g : nat -> N) m n :
  wp (id g m n) (fun R => rep m n R (fun i j => if i == j then n_one N else n_zero N)).
Proof.
rewrite /id fill_eq ?size_alloc //=.
apply: wpe_bind; apply: wpe_mono; last first.
  by apply: (diag_loop (x := fun _ => n_one N) (leqnn _) _ (repr_nseq m n (n_zero N))).
move=> d Hd /=; apply: rep_Mat; apply: repr_ext Hd _ => i j hi hj.
by case: eqP => //= e; have -> : i < minn m n by lia.
Qed.

Lemma rep_zero (g : nat -> N) m n :
  wp (zero g m n) (fun R => rep m n R (fun i j => n_zero N)).
Proof. by rewrite /zero fill_eq ?size_alloc //=; apply: rep_Mat; apply: repr_nseq. Qed.

Lemma rep_zero_vector (g : nat -> N) m :
  wp (zero_vector g m) (fun R => rep m 1 R (fun i j => n_zero N)).
Proof.
rewrite /zero_vector fill_eq ?size_alloc //=; apply: rep_Mat.
by have := repr_nseq m 1 (n_zero N); rewrite muln1.
Qed.

Lemma rep_one_vector (g : nat -> N) m :
  wp (one_vector g m) (fun R => rep m 1 R (fun i j => n_one N)).
Proof.
rewrite /one_vector fill_eq ?size_alloc //=; apply: rep_Mat.
by have := repr_nseq m 1 (n_one N); rewrite muln1.
Qed.

Lemma rep_block_diag (g : nat -> N) m n ds : 0 < m -> 0 < n -> size ds = minn m n ->
  wp (block_diag g m n ds)
     (fun R => rep m n R (fun i j => if i == j then nth (n_zero N) ds i else n_zero N)).
Proof.
move=> m0 n0 sz; rewrite /block_diag sz eqxx /= fill_eq ?size_alloc //=.
apply: wpe_bind; apply: wpe_mono; last first.
  apply: (diag_loop (x := nth (n_zero N) ds) (leqnn _) _ (repr_nseq m n (n_zero N))).
  by move=> i d hi; rewrite (vgetE (n_zero N)) ?sz.
move=> d Hd /=; apply: new_rep => //; apply: repr_ext Hd _ => i j hi hj.
by case: eqP => //= e; have -> : i < minn m n by lia.
Qed.

Lemma block_diag_panic (g : nat -> N) m n ds : size ds != minn m n ->
  block_diag g m n ds = Err Panic.
Proof. by move=> ne; rewrite /block_diag (negPf ne). Qed.

Lemma rep_diag (g : nat -> N) ds : 0 < size ds ->
  wp (diag g ds) (fun R => rep (size ds) (size ds) R
      (fun i j => if i == j then nth (n_zero N) ds i else n_zero N)).
Proof.
move=> s0; rewrite /diag fill_eq ?size_alloc //=.
apply: wpe_bind; apply: wpe_mono; last first.
  apply: (@diag_loop (size ds) (size ds) (size ds) (nth (n_zero N) ds) _ _ _ _ _ (repr_nseq _ _ (n_zero N))).
    by rewrite minnn.
  by move=> i d hi; rewrite (vgetE (n_zero N)).
move=> d Hd /=; apply: new_rep => //; apply: repr_ext Hd _ => i j hi hj.
by case: eqP => //= e; rewrite hi.
Qed.

Lemma diag_panic (g : nat -> N) : diag g [::] = Err Panic.
Proof. by []. Qed.

(** ** Element-wise operations *)
Lemma rep_pointwise1 (g : nat -> N) (h : N -> N) m n M f : rep m n M f ->
  wp (pointwise1 g h M) (fun R => rep m n R (fun i j => h (f i j))).
Proof. exact: rep_map. Qed.

Lemma rep_mpointwise1 (h : N -> N) m n M f : rep m n M f ->
  wp (mpointwise1 h M) (fun R => rep m n R (fun i j => h (f i j))).
Proof. exact: rep_mmap. Qed.

(** The pure and the in-place loop agree for any element operation, even one
    that fails. *)
Lemma for_pure_inplace (h : N -> N -> res N) (a b : seq N) k d0 :
  size b = size a -> size d0 = size a -> k <= size a ->
  match for_ 0 k (fun i d => x <-- vget a i ;; y <-- vget b i ;; z <-- h x y ;; vset d i z) d0,
        for_ 0 k (fun i d => x <-- vget d i ;; y <-- vget b i ;; z <-- h x y ;; vset d i z) a with
  | Ok d, Ok d' => [/\ size d = size a, size d' = size a,
                    forall i, i < k -> vget d i = vget d' i,
                    forall i, k <= i -> vget d' i = vget a i &
                    forall i, i < k -> exists x y z, [/\ vget a i = Ok x, vget b i = Ok y,
                        h x y = Ok z & vget d i = Ok z]]
  | Err e, Err e' => e = e' /\ exists i x y, [/\ i < k, vget a i = Ok x, vget b i = Ok y & h x y = Err e]
  | _, _ => False
  end.
Proof.
move=> sb s0; elim: k => [|k IH] hk //.
have {IH} := IH (ltnW hk); rewrite !for_recr //.
case: (for_ 0 k _ d0) => [d|e]; case: (for_ 0 k _ a) => [d'|e'] //=; last first.
  by move=> [-> [i [x [y [hi h1 h2 h3]]]]]; split=> //; exists i, x, y; split=> //; lia.
move=> [sd sd' eqd unch vals]; rewrite (unch k (leqnn _)).
have [x hx] : exists x, vget a k = Ok x.
  by case: a hk {sb s0 sd sd' eqd unch vals} => [|a0 a] // hk; eexists; apply: (vgetE a0).
have [y hy] : exists y, vget b k = Ok y.
  have hkb : k < size b by rewrite sb.
  by case: b hkb {sb eqd vals} => [|b0 b] // hkb; eexists; apply: (vgetE b0).
rewrite hx /= hy /=.
case E : (h x y) => [z|e] /=; last by split=> //; exists k, x, y.
rewrite !vsetE ?sd ?sd' //; split; rewrite ?size_upd //.
- move=> i hi; rewrite !vget_upd ?sd ?sd' //; case: eqP => // ne; apply: eqd; lia.
- move=> i hi; rewrite vget_upd ?sd' //; case: eqP => [e|ne]; [lia|apply: unch; lia].
- move=> i hi; rewrite vget_upd ?sd //; case: eqP => [->|ne].
    by exists x, y, z.
  by apply: vals; lia.
Qed.

Lemma pointwise2_inplace (g : nat -> N) h m n m2 n2 M f M2 f2 : rep m n M f -> rep m2 n2 M2 f2 ->
  mpointwise2 h M M2 = pointwise2 g h M M2.
Proof.
move=> H H2; rewrite /mpointwise2 /pointwise2 (rep_no_rows H) (rep_no_rows H2).
case: (altP (m =P m2)) => //= em; rewrite -{}em in H2 *.
case: (posnP m) => [m0|m0]; first by rewrite m0 in H; rewrite (rep_cols0 H).
rewrite (rep_cols H) // (rep_cols H2) //=; case: (altP (n =P n2)) => //= en.
rewrite -{}en in H2 *.
have sb : size (data M2) = size (data M) by rewrite (rep_size H) (rep_size H2).
have := @for_pure_inplace h (data M) (data M2) (size (data M))
          (alloc_dirty_vec g (size (data M))) sb (size_alloc _ _) (leqnn _).
case: (for_ _ _ _ (alloc_dirty_vec _ _)) => [d|e]; case: (for_ _ _ _ (data M)) => [d'|e'] //=;
  last by move=> [-> _].
move=> [sd sd' eqd _ _]; congr (Ok (Mat _ _)); apply: vget_ext; rewrite ?sd ?sd' //.
by move=> i hi; rewrite eqd.
Qed.

Lemma rep_pointwise2 (g : nat -> N) (h : N -> N -> res N) (k : N -> N -> N) m n M f M2 f2 :
  rep m n M f -> rep m n M2 f2 -> 0 < m ->
  (forall i j, i < m -> j < n -> h (f i j) (f2 i j) = Ok (k (f i j) (f2 i j))) ->
  wp (pointwise2 g h M M2) (fun R => rep m n R (fun i j => k (f i j) (f2 i j))).
Proof.
move=> H H2 m0 hk; rewrite /pointwise2 (rep_no_rows H) (rep_no_rows H2) eqxx /=.
rewrite (rep_cols H) // (rep_cols H2) //= eqxx /= (rep_size H).
rewrite (for_fill (f := fun i => k (f (i %/ n) (i %% n)) (f2 (i %/ n) (i %% n)))) /=; first last.
- move=> i d hi sz; have [_ h1 h2] := idx_divmod hi.
  by rewrite (repr1_get (repr_flat (proj2 H))) // (repr1_get (repr_flat (proj2 H2))) //= hk.
- by rewrite size_alloc.
apply: rep_Mat; apply: repr_ext (flat_repr (repr1_mkseq _ _)) _ => i j hi hj.
by rewrite divnMDl ?modnMDl ?(divn_small hj) ?addn0 ?(modn_small hj) //; lia.
Qed.

(** if some element operation fails, the whole operation fails with the error
    of the first (in row-major order) failing element *)
Lemma pointwise2_err (g : nat -> N) (h : N -> N -> res N) m n M f M2 f2 i0 j0 e :
  rep m n M f -> rep m n M2 f2 -> i0 < m -> j0 < n ->
  h (f i0 j0) (f2 i0 j0) = Err e ->
  (forall i j e', i < m -> j < n -> h (f i j) (f2 i j) = Err e' -> e' = e) ->
  pointwise2 g h M M2 = Err e.
Proof.
move=> H H2 i0m j0n he uniq; have m0 : 0 < m by lia.
rewrite /pointwise2 (rep_no_rows H) (rep_no_rows H2) eqxx /=.
rewrite (rep_cols H) // (rep_cols H2) //= eqxx /=.
have sb : size (data M2) = size (data M) by rewrite (rep_size H) (rep_size H2).
have := @for_pure_inplace h (data M) (data M2) (size (data M))
          (alloc_dirty_vec g (size (data M))) sb (size_alloc _ _) (leqnn _).
case: (for_ _ _ _ (alloc_dirty_vec _ _)) => [d|e1]; case: (for_ _ _ _ (data M)) => [d'|e1'] //=.
  move=> [_ _ _ _ vals]; have lt := idx_lt i0m j0n.
  have := vals (i0 * n + j0); rewrite (rep_size H) => /(_ lt) [x [y [z []]]].
  by rewrite (rep_vget H) // (rep_vget H2) // => -[<-] [<-]; rewrite he.
move=> [_ [i [x [y []]]]]; rewrite (rep_size H) => hi; have [_ h1 h2] := idx_divmod hi.
rewrite (repr1_get (repr_flat (proj2 H))) // (repr1_get (repr_flat (proj2 H2))) //.
by move=> [<-] [<-] hxy; congr Err; apply: uniq hxy.
Qed.

Lemma pointwise2_panic (g : nat -> N) h m n m2 n2 M f M2 f2 : rep m n M f -> rep m2 n2 M2 f2 ->
  0 < m -> ~~ ((m == m2) && (n == n2)) -> pointwise2 g h M M2 = Err Panic.
Proof.
move=> H H2 m0; rewrite /pointwise2 (rep_no_rows H) (rep_no_rows H2).
case: (altP (m =P m2)) => //= em ne; rewrite -{}em in H2 *.
by rewrite (rep_cols H) // (rep_cols H2) //= (negPf ne).
Qed.

(** ** Multiplication *)
Definition dot (a b : nat -> N) (k : nat) : N :=
  foldl (fun s l => n_add s (n_mul (a l) (b l))) (n_zero N) (iota 0 k).

Lemma rep_mul_data (g : nat -> N) m n p M f M2 f2 : rep m n M f -> rep n p M2 f2 -> 0 < m -> 0 < n ->
  wp (mul_data g M M2) (fun d => repr m p d (fun i j => dot (f i) (f2^~ j) n)).
Proof.
move=> H H2 m0 n0; rewrite /mul_data (rep_cols H) // (rep_cols H2) //= (rep_no_rows H).
pose G i j := dot (f i) (f2^~ j) n.
pose F k := G (k %/ p) (k %% p).
apply: (wpe_for (fun r d => pre1 (m * p) (r * p) d F)) => //.
- exact: pre1_0.
- move=> r d /= hr Hd.
  apply: (wpe_for (fun c d => pre1 (m * p) (r * p + c) d F)) => //.
  + by rewrite addn0.
  + move=> c d' /= hc Hd'; apply: wpe_bind.
    apply: (wpe_for (fun k s => s = dot (f r) (f2^~ c) k)) => //.
    * move=> k s /= hk ->; rewrite (rep_get_ref _ _ H) hr hk /= (rep_get_ref _ _ H2) hk hc /=.
      by rewrite /dot -addn1 iotaD foldl_cat.
    move=> s ->; apply: (wpe_pre1_set Hd').
    * exact: idx_lt.
    * by rewrite /F flat_at.
    * by move=> v' Hv'; rewrite addnS.
  by move=> d' Hd'; rewrite mulSn addnC.
by move=> d Hd; apply: pre1_repr.
Qed.

Lemma rep_mul (g : nat -> N) m n p M f M2 f2 : rep m n M f -> rep n p M2 f2 -> 0 < m -> 0 < n ->
  wp (mul g M M2) (fun R => rep m p R (fun i j => dot (f i) (f2^~ j) n)).
Proof.
move=> H H2 m0 n0; rewrite /mul (rep_cols H) //= (rep_no_rows H2) eqxx /=.
apply: wpe_bind; apply: wpe_mono (rep_mul_data g H H2 m0 n0) => d Hd /=.
by rewrite (rep_no_rows H); apply: rep_Mat.
Qed.

Lemma mul_panic (g : nat -> N) m n n' p M f M2 f2 : rep m n M f -> rep n' p M2 f2 -> 0 < m ->
  n != n' -> mul g M M2 = Err Panic.
Proof.
by move=> H H2 m0 ne; rewrite /mul (rep_cols H) //= (rep_no_rows H2) (negPf ne).
Qed.

End Num.
