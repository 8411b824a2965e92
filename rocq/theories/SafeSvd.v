(** * SafeSvd: bounds checks and size arithmetic of SVD::new (see Safe). *)
From mathcomp Require Import all_ssreflect zify.
From Verif Require Import Base Scalar Hoare ModelMatrix ModelHypot ModelSVD ModelEigen Spec MatrixProofs MatrixProofs2 EigenProofs Safe.

Set Implicit Arguments.
Unset Strict Implicit.
Unset Printing Implicit Defensive.

Lemma wp_any T (E : err -> Prop) (c : res T) Q : wp c Q -> wpe E c Q.
Proof. by case: c. Qed.

Section Safe.
Variable S : scalar.
Variable E : err -> Prop.
Hypothesis DT : forall x y : S, exists q, n_div x y = Ok q.
Hypothesis ST : forall x : S, exists r, s_sqrt x = Ok r.
Hypothesis EF : E OutOfFuel.
Let g_div := g_div E DT.
Let g_sqrt := g_sqrt E ST.
Let g_hypot := g_hypot E DT ST.
Let g_cdiv := g_cdiv E DT.

Ltac sf1 := cbv beta iota zeta; match goal with
  | |- wpe _ (bind _ _) _ => apply: wpe_bind
  | |- wpe _ (at2 _ _ _ _) _ => rewrite /at2
  | |- wpe _ (set2 _ _ _ _ _) _ => rewrite /set2
  | |- wpe _ (vget _ _) _ => apply: g_vget; [ix | intros ?]
  | |- wpe _ (vset _ _ _) _ => apply: g_vset; [ix | intros ? ?; norm_sz]
  | |- wpe _ (n_div _ _) _ => apply: g_div; intros ?
  | |- wpe _ (s_sqrt _) _ => apply: g_sqrt; intros ?
  | |- wpe _ (hypot _ _) _ => apply: g_hypot; intros ?
  | |- wpe _ (cdiv _ _ _ _) _ => apply: g_cdiv; intros [? ?]
  | |- wpe _ (usub _ _) _ => apply: g_usub; [lia|]
  | |- wpe ?E (for_ ?lo ?hi ?b ?s) ?Q => let A := type of s in let H := constr:(ltac:(typeclasses eauto) : Sh A) in refine (@g_for E A H lo hi b s Q _ _ _); [fin | intros ? ? ? ?; norm_sz | intros ? ?; norm_sz]
  | |- wpe ?E (for_rev ?lo ?hi ?b ?s) ?Q => let A := type of s in let H := constr:(ltac:(typeclasses eauto) : Sh A) in refine (@g_forr E A H lo hi b s Q _ _ _); [fin | intros ? ? ? ?; norm_sz | intros ? ?; norm_sz]
  | |- wpe _ (if ?b then _ else _) _ => let e := fresh "if_" in case e : b
  | x : (_ * _)%type |- _ => destruct x; norm_sz
  | |- wpe _ (Ok _) _ => apply: wpe_ok
  | |- wpe _ (?f _) _ => eapply wpe_mono; [ | solve [eauto 4 with safe]];
       let r := fresh "r" in intros r ?; cbv beta in *; repeat match goal with x : (_ * _)%type |- _ => destruct x | x : td_state _ |- _ => destruct x as [[? ?] ?] | x : tq_state _ |- _ => destruct x as [[? ?] ?] end; norm_sz
  end.
Ltac sf := repeat sf1; try solve [fin].

(** ** SVD *)
Lemma g_req A (b : bool) (k : res A) Q : b -> wpe E k Q -> wpe E (require b k) Q.
Proof. by move=> ->. Qed.
Lemma col_update_s lo hi w c f v N : size v = N -> (forall i, lo <= i < hi -> i * w + c < N) ->
  (forall (x : S) (Q : S -> Prop), (forall y, Q y) -> wpe E (f x) Q) ->
  wpe E (col_update (S:=S) lo hi w c f v) (fun v => size v = N).
Proof.
move=> s1 h1 h2; rewrite /col_update; sf1; last by fin.
have h3 := h1 _ H; do 2 sf1; sf1; apply: h2 => y; sf.
Qed.
Lemma col_dot_s lo hi w c1 c2 (v : seq S) : (forall i, lo <= i < hi -> i * w + c1 < size v /\ i * w + c2 < size v) ->
  wpe E (col_dot (S:=S) lo hi w c1 c2 v) (fun _ => True).
Proof.
move=> h1; rewrite /col_dot; sf1; last by fin.
have [h2 h3] := h1 _ H; sf.
Qed.
Lemma col_axpy_s lo hi w c1 c2 t (v : seq S) N : size v = N -> (forall i, lo <= i < hi -> i * w + c1 < N /\ i * w + c2 < N) ->
  wpe E (col_axpy (S:=S) lo hi w c1 c2 t v) (fun v => size v = N).
Proof.
move=> s1 h1; rewrite /col_axpy; sf1; last by fin.
have [h2 h3] := h1 _ H; sf.
Qed.
Lemma col_dot2_s lo hi w c1 c2 (v : seq S) : size v = hi * w -> c1 < w -> c2 < w -> wpe E (col_dot (S:=S) lo hi w c1 c2 v) (fun _ => True).
Proof. by move=> s1 h1 h2; apply: col_dot_s => i hi'; rewrite s1; split; apply: ix2; lia. Qed.
Lemma col_axpy2_s lo hi w c1 c2 t (v : seq S) : size v = hi * w -> c1 < w -> c2 < w ->
  wpe E (col_axpy (S:=S) lo hi w c1 c2 t v) (fun v => size v = hi * w).
Proof. by move=> s1 h1 h2; apply: col_axpy_s => // i hi'; split; apply: ix2; lia. Qed.
Lemma col_neg_s lo hi w c v N : size v = N * w -> hi <= N -> c < w ->
  wpe E (col_update (S:=S) lo hi w c (fun x => Ok (n_neg x)) v) (fun v => size v = N * w).
Proof. by move=> s1 h0 h1; apply: col_update_s => [//|i hi'|x Q HQ]; [apply: ix2; lia|apply: wpe_ok]. Qed.
Hint Resolve col_dot2_s col_axpy2_s col_neg_s : safe.
Lemma svd_col_house_s m n k a s : size a = m * n -> size s = n -> k < n -> k < m ->
  wpe E (svd_col_house (S:=S) m n k a s) (fun st => size st.1 = m * n /\ size st.2 = n).
Proof. by move=> s1 s2 h1 h2; rewrite /svd_col_house; sf. Qed.
Lemma svd_col_apply_s m n k nct s a e : size a = m * n -> size s = n -> size e = n -> k < n -> k < m ->
  wpe E (svd_col_apply (S:=S) m n k nct s a e) (fun st => size st.1 = m * n /\ size st.2 = n).
Proof. by move=> s1 s2 s3 h1 h2; rewrite /svd_col_apply; sf. Qed.
Lemma svd_store_u_s m n k a u : size a = m * n -> size u = m * m -> k < n -> k < m ->
  wpe E (svd_store_u (S:=S) m n k a u) (fun u => size u = m * m).
Proof. by move=> s1 s2 h1 h2; rewrite /svd_store_u; sf. Qed.
Lemma svd_row_house_s n k e : size e = n -> k.+1 < n -> wpe E (svd_row_house (S:=S) n k e) (fun e => size e = n).
Proof. by move=> s1 h1; rewrite /svd_row_house; sf. Qed.
Lemma svd_row_apply_s m n k e a w : size a = m * n -> size w = m -> size e = n -> k.+1 < n ->
  wpe E (svd_row_apply (S:=S) m n k e a w) (fun st => size st.1 = m * n /\ size st.2 = m).
Proof. by move=> s1 s2 s3 h1; rewrite /svd_row_apply; sf. Qed.
Lemma svd_store_v_s n k e v : size v = n * n -> size e = n -> k < n -> wpe E (svd_store_v (S:=S) n k e v) (fun v => size v = n * n).
Proof. by move=> s1 s2 h1; rewrite /svd_store_v; sf. Qed.
Hint Resolve svd_col_house_s svd_col_apply_s svd_store_u_s svd_row_house_s svd_row_apply_s svd_store_v_s : safe.
Definition bok m n (st : bidiag S) : Prop :=
  [/\ size (b_a st) = m * n /\ size (b_s st) = n, size (b_u st) = m * m, size (b_v st) = n * n, size (b_e st) = n & size (b_w st) = m].
Lemma svd_bidiag_step_s m n nct nrt k st : bok m n st -> k < n -> k < m -> nrt <= n - 2 ->
  wpe E (svd_bidiag_step (S:=S) m n nct nrt k st) (bok m n).
Proof.
case: st => a s u v e w [/= [s1 s2] s3 s4 s5 s6] h1 h2 h3; rewrite /svd_bidiag_step; cbn [b_a b_s b_u b_v b_e b_w].
by sf; split=> //=; fin.
Qed.
Lemma svd_final_bidiag_s m n nct nrt p a s e : size a = m * n -> size s = n -> size e = n -> 0 < p <= n -> n <= m -> nct <= n -> nrt < m ->
  wpe E (svd_final_bidiag (S:=S) m n nct nrt p a s e) (fun st => size st.1 = n /\ size st.2 = n).
Proof. by move=> s1 s2 s3 h1 h2 h3 h4; rewrite /svd_final_bidiag; sf. Qed.
Lemma svd_gen_u_s m nct s u n : size s = n -> size u = m * m -> nct <= n -> nct <= m ->
  wpe E (svd_gen_u (S:=S) m nct s u) (fun u => size u = m * m).
Proof. by move=> s1 s2 h1 h2; rewrite /svd_gen_u; sf. Qed.
Lemma svd_gen_v_s n nrt e v : size e = n -> size v = n * n -> nrt <= n - 2 ->
  wpe E (svd_gen_v (S:=S) n nrt e v) (fun u => size u = n * n).
Proof. by move=> s1 s2 h1; rewrite /svd_gen_v; sf. Qed.
Hint Resolve svd_bidiag_step_s svd_final_bidiag_s svd_gen_u_s svd_gen_v_s : safe.
Lemma svd_find_e_s n k1 s e : size s = n -> size e = n -> k1 < n ->
  wpe E (svd_find_e (S:=S) k1 s e) (fun r => r.1 <= k1 /\ size r.2 = n).
Proof. by move=> s1 s2; elim: k1 => [|k IH] h1; rewrite [svd_find_e _ _ _]/=; sf. Qed.
Lemma svd_find_s_s n p k1 c s e : size s = n -> size e = n -> k1 + c <= p -> p <= n ->
  wpe E (svd_find_s (S:=S) p k1 c s e) (fun r => r.1 <= c /\ size r.2 = n).
Proof. by move=> s1 s2; elim: c => [|c IH] h1 h2; rewrite [svd_find_s _ _ _ _ _]/=; sf. Qed.
Lemma rot_cols_s h j1 j2 cs sn v : size v = h * h -> j1 < h -> j2 < h ->
  wpe E (rot_cols (S:=S) h h j1 j2 cs sn v) (fun v => size v = h * h).
Proof. by move=> s1 h1 h2; rewrite /rot_cols; sf. Qed.
Lemma swap_cols_s h k v : size v = h * h -> k.+1 < h -> wpe E (swap_cols (S:=S) h h k v) (fun v => size v = h * h).
Proof. by move=> s1 h1; rewrite /swap_cols; sf. Qed.
Hint Resolve svd_find_e_s svd_find_s_s rot_cols_s swap_cols_s : safe.
Lemma svd_kase1_s n k p s e v : size s = n -> size e = n -> size v = n * n -> 1 < p <= n ->
  wpe E (svd_kase1 (S:=S) n k p s e v) (fun st => [/\ size st.1.1 = n, size st.1.2 = n & size st.2 = n * n]).
Proof. by move=> s1 s2 s3 h1; rewrite /svd_kase1; sf. Qed.
Lemma svd_kase2_s m n k p s e v : size s = n -> size e = n -> size v = m * m -> 0 < k < p -> p <= n -> n <= m ->
  wpe E (svd_kase2 (S:=S) m k p s e v) (fun st => [/\ size st.1.1 = n, size st.1.2 = n & size st.2 = m * m]).
Proof. by move=> s1 s2 s3 h1 h2 h3; rewrite /svd_kase2; sf. Qed.
Lemma svd_shift_s n k p s e : size s = n -> size e = n -> k.+1 < p -> p <= n -> wpe E (svd_shift (S:=S) k p s e) (fun _ => True).
Proof. by move=> s1 s2 h1 h2; rewrite /svd_shift; sf. Qed.
Lemma svd_chase_s m n k j s e u v f g : size s = n -> size e = n -> size u = m * m -> size v = n * n -> j.+1 < n -> n <= m ->
  wpe E (svd_chase (S:=S) m n k j (s, e, u, v, f, g))
    (fun st => [/\ size st.1.1.1.1.1 = n, size st.1.1.1.1.2 = n, size st.1.1.1.2 = m * m & size st.1.1.2 = n * n]).
Proof. by move=> s1 s2 s3 s4 h1 h2; rewrite /svd_chase; sf. Qed.
Hint Resolve svd_kase1_s svd_kase2_s svd_shift_s svd_chase_s : safe.
Lemma svd_kase3_s m n k p s e u v : size s = n -> size e = n -> size u = m * m -> size v = n * n -> k.+1 < p -> p <= n -> n <= m ->
  wpe E (svd_kase3 (S:=S) m n k p s e u v)
    (fun st => [/\ size st.1.1.1 = n, size st.1.1.2 = n, size st.1.2 = m * m & size st.2 = n * n]).
Proof. by move=> s1 s2 s3 s4 h1 h2 h3; rewrite /svd_kase3; sf. Qed.
Lemma svd_kase4_s m n k s u v : size s = n -> size u = m * m -> size v = n * n -> k < n -> n <= m ->
  wpe E (svd_kase4 (S:=S) m n k (n - 1) s u v) (fun st => [/\ size st.1.1 = n, size st.1.2 = m * m & size st.2 = n * n]).
Proof.
move=> s1 s2 s3 h1 h2; rewrite /svd_kase4.
have tail : forall s u v : seq S, size s = n -> size u = m * m -> size v = n * n ->
  wpe E (c <-- forc k (n - 1) (fun k st =>
      let '(sdata, udata, vdata) := st in
      a <-- vget sdata k ;;
      b <-- vget sdata (k + 1) ;;
      if s_leb b a then Ok (Stop st)
      else
        sdata <-- vset sdata k b ;;
        sdata <-- vset sdata (k + 1) a ;;
        vdata <-- (if k < n - 1 then swap_cols n n k vdata else Ok vdata) ;;
        udata <-- (if k < m - 1 then swap_cols m m k udata else Ok udata) ;;
        Ok (Next (sdata, udata, vdata))) (s, u, v) ;;
  Ok (match c with Next st => st | Stop st => st end)) (fun st => [/\ size st.1.1 = n, size st.1.2 = m * m & size st.2 = n * n]).
  move=> s0 u0 v0 {}s1 {}s2 {}s3.
apply: wpe_bind.
  pose I (st : seq S * seq S * seq S) := [/\ size st.1.1 = n, size st.1.2 = m * m & size st.2 = n * n].
  apply: (wpe_forc (fun _ => I) I) => //=; try lia.
  by move=> i [[s' u'] v'] hi [/= t1 t2 t3]; sf; rewrite /I; fin.
by repeat (cbv beta iota zeta; lazymatch goal with |- wpe _ (bind (forc _ _ _ _) _) _ => fail | |- _ => sf1 end); apply: tail => //; lia.
Qed.
Hint Resolve svd_kase3_s svd_kase4_s : safe.
Definition sok m n (st : sweep S) : Prop :=
  [/\ size (w_s st) = n, size (w_e st) = n, size (w_u st) = m * m, size (w_v st) = n * n & w_p st <= n].
Lemma svd_iter_s m n st : sok m n st -> n <= m ->
  wpe E (svd_iter m n (n - 1) st) (fun c => match c with Next s => sok m n s | Stop s => sok m n s end).
Proof.
case: st => s e u v p [/= s1 s2 s3 s4 h1] h2; rewrite /svd_iter; cbn [w_s w_e w_u w_v w_p].
by sf; split=> //=; fin.
Qed.
Definition svdok m n (d : svd S) : Prop := [/\ shaped m m (svd_u d), shaped m n (svd_s d) & shaped n n (svd_v d)].
Lemma rep_shaped m n (M : mat S) f : rep m n M f -> shaped m n M.
Proof. by case=> h [h' _]; split. Qed.
Lemma svd_tall_s fuel gs gu gv ge gw gb (a : mat S) m n f : rep m n a f -> 0 < n <= m ->
  wpe E (svd_tall fuel gs gu gv ge gw gb a) (svdok m n).
Proof.
move=> Ha h1; rewrite /svd_tall (rep_cols Ha); last lia.
cbn [bind]; have -> : rows a = m by case: Ha.
have t0 : size (get_data a) = m * n by case: Ha => _ [].
apply: g_req; first lia.
have -> : minn m n = n by lia.
have -> : minn n (m + 1) = n by lia.
have t1 : size (alloc_dirty_vec gs n) = n by rewrite size_alloc.
have t2 : size (alloc_dirty_vec gu (m * m)) = m * m by rewrite size_alloc.
have t3 : size (alloc_dirty_vec gv (n * n)) = n * n by rewrite size_alloc.
have t4 : size (alloc_dirty_vec ge n) = n by rewrite size_alloc.
have t5 : size (alloc_dirty_vec gw m) = m by rewrite size_alloc.
do 2 sf1; apply: wpe_bind; apply: (wpe_for (fun _ => bok m n)) => //.
  by move=> k st hk hst; apply: svd_bidiag_step_s => //; lia.
case=> a' s u v e w [/= [u1 u2] u3 u4 u5 u6].
do 8 sf1; apply: wpe_bind; apply: (@wpe_mono E _ _ (sok m n)); last first.
  by apply: (g_loop EF (I := sok m n)) => [|st hst]; [split|apply: svd_iter_s hst _; lia].
case=> s' e' u' v' p [/= w1 w2 w3 w4 w5].
apply: wpe_bind; apply: wpe_mono (new_s E w3 _ _) => [U hU||]; try lia.
apply: wpe_bind; apply: wp_any; apply: wpe_mono (rep_block_diag gb _ _ _) => [Sg hS|||]; try lia.
apply: wpe_bind; apply: wpe_mono (new_s E w4 _ _) => [V hV||]; try lia.
by apply: wpe_ok; split=> //; apply: rep_shaped hS.
Qed.
Lemma svd_new_s fuel gs gu gv ge gw gb gt1 gt2 (a : mat S) m n f : rep m n a f -> 0 < m -> 0 < n ->
  wpe E (svd_new fuel gs gu gv ge gw gb gt1 gt2 a) (svdok m n).
Proof.
move=> Ha m0 n0; rewrite /svd_new (rep_cols Ha) //; cbn [bind]; have -> : rows a = m by case: Ha.
case: ifP => mn; last by apply: svd_tall_s Ha _; lia.
apply: wpe_bind; apply: wp_any; apply: wpe_mono (rep_t gt1 Ha m0) => b hb.
apply: wpe_bind; apply: wpe_mono (svd_tall_s fuel gs gu gv ge gw gb hb _) => [d [h1 [h2 h3] h4]|]; last lia.
apply: wpe_bind; apply: wp_any; apply: wpe_mono (@rep_t S gt2 n m (svd_s d) _ _ n0) => [s hs|]; last by split; [exact: h2|exact: sz_rep h3].
by apply: wpe_ok; split=> //=; apply: rep_shaped hs.
Qed.
End Safe.
