(** * GarbageSvd: the singular value decomposition does not depend on the
    contents of uninitialised memory (used by GarbageThms2, C15). *)
From mathcomp Require Import all_ssreflect all_algebra zify.
From Verif Require Import Base Scalar Hoare Rel ModelMatrix ModelHypot ModelSVD.

Set Implicit Arguments.
Unset Strict Implicit.
Unset Printing Implicit Defensive.

Lemma rforr A B (I : nat -> A -> B -> Prop) lo hi b1 b2 a b : lo <= hi ->
  I hi a b ->
  (forall i a b, lo <= i < hi -> I i.+1 a b -> rres (I i) (b1 i a) (b2 i b)) ->
  rres (I lo) (for_rev lo hi b1 a) (for_rev lo hi b2 b).
Proof.
move=> lh; rewrite /for_rev; have -> : hi = lo + (hi - lo) by lia.
rewrite addKn; move: (hi - lo) => n; clear lh; elim: n a b => [|n IH] a b I0 step /=; first by rewrite addn0 in I0.
apply: rbind (step (lo + n) a b _ _) _ => [||a' b' h]; [by lia | by rewrite -addnS|].
apply: IH => // i a'' b'' hi'; apply: step; lia.
Qed.

Section Two.
Variable T : Type.
Implicit Types (v w : seq T) (P : nat -> nat -> Prop).

(** same h x w contents at the positions in [P] *)
Definition agree2 (hh ww : nat) P (v v' : seq T) : Prop :=
  [/\ size v = hh * ww, size v' = hh * ww &
      forall i j, i < hh -> j < ww -> P i j -> vget v (i * ww + j) = vget v' (i * ww + j)].

Lemma agree2_get hh ww P v v' i j : agree2 hh ww P v v' -> i < hh -> j < ww -> P i j ->
  vget v (i * ww + j) = vget v' (i * ww + j).
Proof. by case=> _ _; apply. Qed.

Lemma agree2_mono hh ww P P' v v' : agree2 hh ww P v v' ->
  (forall i j, i < hh -> j < ww -> P' i j -> P i j) -> agree2 hh ww P' v v'.
Proof. by case=> s1 s2 H F; split=> // i j hi hj p; apply: H => //; apply: F. Qed.

Lemma agree2_alloc hh ww P g g' : (forall i j, ~ P i j) ->
  agree2 hh ww P (alloc_dirty_vec g (hh * ww)) (alloc_dirty_vec g' (hh * ww)).
Proof. by move=> F; split=> [||i j _ _ /F]; rewrite ?size_alloc. Qed.

Lemma agree2_full hh ww P v v' : agree2 hh ww P v v' ->
  (forall i j, i < hh -> j < ww -> P i j) -> v = v'.
Proof.
case=> s1 s2 H F; apply: vget_ext => [|l]; rewrite ?s1 ?s2 // => hl.
have w0 : 0 < ww by case: ww hl {H F s1 s2} => //; rewrite muln0.
have hi : l %/ ww < hh by rewrite ltn_divLR.
have hj : l %% ww < ww by rewrite ltn_mod.
by rewrite (divn_eq l ww); apply: H => //; apply: F.
Qed.

Lemma rset2 hh ww P P' v v' i j x : agree2 hh ww P v v' -> i < hh -> j < ww ->
  (forall a b, a < hh -> b < ww -> P' a b -> (a = i /\ b = j) \/ P a b) ->
  rres (agree2 hh ww P') (vset v (i * ww + j) x) (vset v' (i * ww + j) x).
Proof.
case=> s1 s2 H hi hj F; rewrite /vset s1 s2.
have hl : i * ww + j < hh * ww by nia.
rewrite hl /=; split; rewrite ?size_upd // => a b ha hb p.
rewrite !vget_upd ?s1 ?s2 //; case: eqP => // ne; apply: H => //.
by case: (F a b ha hb p) => // -[ea eb]; case: ne; rewrite ea eb.
Qed.
End Two.

Section S.
Variable S : scalar.
Implicit Types (v w : seq S) (P : nat -> nat -> Prop).

Lemma col_dot_agree hh ww P lo hi c1 c2 v w : agree2 hh ww P v w -> hi <= hh -> c1 < ww -> c2 < ww ->
  (forall i, lo <= i < hi -> P i c1 /\ P i c2) ->
  col_dot lo hi ww c1 c2 v = col_dot lo hi ww c1 c2 w.
Proof.
move=> A hh1 h1 h2 F; apply: for_eq => i s h; have [p1 p2] := F i h.
by rewrite !(agree2_get A) //; lia.
Qed.

Lemma col_axpy_agree hh ww P lo hi c1 c2 (t : S) v w : agree2 hh ww P v w -> hi <= hh -> c1 < ww -> c2 < ww ->
  (forall i, lo <= i < hi -> P i c1 /\ P i c2) ->
  rres (agree2 hh ww P) (col_axpy lo hi ww c1 c2 t v) (col_axpy lo hi ww c1 c2 t w).
Proof.
move=> A hh1 h1 h2 F; apply: (rfor (I := fun=> agree2 hh ww P)) => // i a b h A'.
have [p1 p2] := F i h; rewrite !(agree2_get A') //; try lia.
apply: rbind_same => y _; apply: rbind_same => x _; apply: rset2 A' _ _ _ => //; first by lia.
by move=> *; right.
Qed.

(** column [c] set to a constant on rows lo..hi *)
Lemma col_const_agree hh ww P P' lo hi c (x : S) v w : agree2 hh ww P v w -> hi <= hh -> c < ww ->
  (forall i j, i < hh -> j < ww -> P' i j -> (lo <= i < hi /\ j = c) \/ P i j) ->
  rres (agree2 hh ww P') (for_ lo hi (fun i v => vset v (i * ww + c) x) v)
                         (for_ lo hi (fun i v => vset v (i * ww + c) x) w).
Proof.
move=> A h1 hc F; apply: rres_mono.
  apply: (rfor (I := fun k => agree2 hh ww (fun i j => (lo <= i < k /\ j = c) \/ P i j))).
    by apply: agree2_mono A _ => i j hi' hj [[]|//]; lia.
  move=> i a b h A'; apply: rset2 A' _ hc _ => [|i' j' hi' hj' [[h2 ->]|?]]; [lia | | by right; right].
  by case: (eqVneq i' i) => [->|ne]; [left | right; left; split=> //; lia].
move=> a b A'; apply: agree2_mono A' _ => i j hi' hj' /(F _ _ hi' hj') [[h2 ->]|?]; [left; split=> //; lia | by right].
Qed.

Lemma svd_gen_u_agree m nct sd v w : nct <= m ->
  agree2 m m (fun i j => j < nct /\ j <= i) v w ->
  svd_gen_u m nct sd v = svd_gen_u m nct sd w.
Proof.
move=> hn A; apply/rres_eq; rewrite /svd_gen_u.
apply: (rbind (Q := agree2 m m (fun i j => nct <= j \/ j < nct /\ j <= i))).
  apply: rres_mono.
    apply: (rfor (I := fun k => agree2 m m (fun i j => nct <= j < k \/ j < nct /\ j <= i))).
      by apply: agree2_mono A _ => i j _ _ []; lia.
    move=> k a b hk A1.
    apply: (rbind (Q := agree2 m m (fun i j => nct <= j < k.+1 \/ j < nct /\ j <= i))).
      by apply: col_const_agree A1 _ _ _ => *; lia.
    by move=> a1 b1 A2; apply: rset2 A2 _ _ _ => [||*]; [lia|lia|right].
  by move=> a b A1; apply: agree2_mono A1 _ => i j hi hj []; lia.
move=> a b A1; apply: rres_mono.
  apply: (rforr (I := fun k => agree2 m m (fun i j => k <= j \/ j < k /\ j <= i))) => // k x y /andP[_ hk] A2.
  apply: rbind_same => s _; case: ifP => _.
    apply: (rbind (Q := agree2 m m (fun i j => k < j \/ j <= k /\ j <= i))).
      apply: (rfor (I := fun=> agree2 m m (fun i j => k < j \/ j <= k /\ j <= i))); first by apply: agree2_mono A2 _ => i j; lia.
      move=> j x1 y1 hj A3; rewrite (col_dot_agree A3) //; [|lia..].
      apply: rbind_same => t1 _; rewrite (agree2_get A3); [|lia..].
      apply: rbind_same => x2 _; apply: rbind_same => t2 _.
      by apply: col_axpy_agree A3 _ _ _ _ => // *; lia.
    move=> x1 y1 A3; apply: (rbind (Q := agree2 m m (fun i j => k < j \/ j <= k /\ j <= i))).
      rewrite /col_update; apply: (rfor (I := fun=> agree2 m m (fun i j => k < j \/ j <= k /\ j <= i))) => // i x2 y2 hi A4.
      rewrite (agree2_get A4); [|lia..]; apply: rbind_same => z _ /=; apply: rset2 A4 _ _ _ => [||*]; [lia|lia|by right].
    move=> x2 y2 A4; rewrite (agree2_get A4); [|lia..]; apply: rbind_same => z _.
    apply: (rbind (Q := agree2 m m (fun i j => k < j \/ j <= k /\ j <= i))).
      by apply: rset2 A4 _ _ _ => [||*]; [lia|lia|right].
    by move=> x3 y3 A5; apply: col_const_agree A5 _ _ _ => *; lia.
  apply: (rbind (Q := agree2 m m (fun i j => k <= j \/ j < k /\ j <= i))).
    by apply: col_const_agree A2 _ _ _ => *; lia.
  by move=> x1 y1 A3; apply: rset2 A3 _ _ _ => *; lia.
by move=> x y A2; apply: agree2_full A2 _ => *; left.
Qed.

Lemma svd_gen_v_agree n nrt ed v w : nrt.+1 < n \/ nrt = 0 ->
  agree2 n n (fun i j => j < nrt /\ j < i) v w ->
  svd_gen_v n nrt ed v = svd_gen_v n nrt ed w.
Proof.
move=> hn A; apply/rres_eq; rewrite /svd_gen_v; apply: rres_mono.
  apply: (rforr (I := fun k => agree2 n n (fun i j => k <= j \/ j < nrt /\ j < i))) => //.
    by apply: agree2_mono A _ => *; lia.
  move=> k x y /andP[_ hk] A2; apply: rbind_same => e _.
  apply: (rbind (Q := agree2 n n (fun i j => k < j \/ j < nrt /\ j < i))).
    case: ifP => [/andP[kr _]|_] //.
    apply: (rfor (I := fun=> agree2 n n (fun i j => k < j \/ j < nrt /\ j < i))) => // j x1 y1 hj A3.
    rewrite (col_dot_agree A3) //; [|lia..].
    apply: rbind_same => t1 _; rewrite (agree2_get A3); [|lia..].
    apply: rbind_same => x2 _; apply: rbind_same => t2 _.
    by apply: col_axpy_agree A3 _ _ _ _ => // *; lia.
  move=> x1 y1 A3; apply: (rbind (Q := agree2 n n (fun i j => k <= j \/ j < nrt /\ j < i))).
    by apply: col_const_agree A3 _ _ _ => *; lia.
  by move=> x2 y2 A4; apply: rset2 A4 _ _ _ => *; lia.
by move=> x y A2; apply: agree2_full A2 _ => *; left.
Qed.

Lemma svd_col_house_agree m n k (ad : seq S) sd sd' : k < n ->
  agree n (fun i => i < k) sd sd' ->
  rres (fun p q => p.1 = q.1 /\ agree n (fun i => i < k.+1) p.2 q.2) (svd_col_house m n k ad sd) (svd_col_house m n k ad sd').
Proof.
move=> kn A; rewrite /svd_col_house; set P := fun i => i < k.+1.
have keep x y z : agree n P x y -> rres (agree n P) (vset x k z) (vset y k z).
  by move=> h; apply: rset h _ => *; right.
apply: (rbind (Q := agree n P)); first by apply: rset A _ => i _; rewrite /P; lia.
move=> s1 s1' A1; apply: (rbind (Q := agree n P)).
  apply: (rfor (I := fun=> agree n P)) => // i s2 s2' _ A2.
  rewrite (agree_get A2); last by rewrite /P.
  apply: rbind_same => s _; apply: rbind_same => x _; apply: rbind_same => h _; exact: keep.
move=> s2 s2' A2; rewrite (agree_get A2); last by rewrite /P.
apply: rbind_same => s _.
apply: (rbind (Q := fun p q => p.1 = q.1 /\ agree n P p.2 q.2)).
  case: ifP => // _; apply: rbind_same => x _; apply: (rbind (Q := agree n P)); first by case: ifP => // _; exact: keep.
  move=> s3 s3' A3; rewrite (agree_get A3); last by rewrite /P.
  by apply: rbind_same => a1 _; apply: rbind_same => x1 _; apply: rbind_same => a2 _.
move=> [a1 s3] [a1' s3'] /= [-> A3]; rewrite (agree_get A3); last by rewrite /P.
apply: rbind_same => s4 _; apply: (rbind (Q := agree n P)); first exact: keep.
by move=> s5 s5' A5.
Qed.

Lemma svd_col_apply_agree m n k nct (sd sd' ad : seq S) e e' (P : nat -> Prop) :
  agree n (fun i => i < minn k.+1 nct) sd sd' -> agree n P e e' ->
  rres (fun p q => p.1 = q.1 /\ agree n (fun i => k < i \/ P i) p.2 q.2)
    (svd_col_apply m n k nct sd ad e) (svd_col_apply m n k nct sd' ad e').
Proof.
move=> As Ae; rewrite /svd_col_apply; apply: rres_mono.
  apply: (rfor (I := fun j p q => p.1 = q.1 /\ agree n (fun i => (k < i < j) \/ P i) p.2 q.2)).
    by split=> //; apply: agree_mono Ae _ => i _ []; [lia | done].
  move=> j [a x] [a' x'] hj /= [<- A].
  have -> : (if k < nct then bind (vget sd' k) (fun s => if ~~ s_eqb s (n_zero S) then
     bind (col_dot k m n k j a) (fun t1 => bind (vget a (k * n + k)) (fun x0 => bind (n_div (n_neg t1) x0) (fun t2 => col_axpy k m n k j t2 a)))
      else Ok a) else Ok a) =
    (if k < nct then bind (vget sd k) (fun s => if ~~ s_eqb s (n_zero S) then
     bind (col_dot k m n k j a) (fun t1 => bind (vget a (k * n + k)) (fun x0 => bind (n_div (n_neg t1) x0) (fun t2 => col_axpy k m n k j t2 a)))
      else Ok a) else Ok a).
    by case: ifP => // kn; rewrite (agree_get As) // leq_min ltnSn.
  apply: rbind_same => a1 _; apply: rbind_same => z _.
  apply: (rbind (Q := agree n (fun i => k < i < j.+1 \/ P i))).
    by apply: rset A _ => i _ [h|?]; [case: (eqVneq i j) => [->|]; [left | right; left; lia] | right; right].
  by move=> x1 x1' A1.
move=> [a x] [a' x'] /= [-> A]; split=> //; apply: agree_mono A _ => i hi [h|?]; [left; lia | by right].
Qed.

Lemma svd_row_house_agree n k (P : nat -> Prop) (e e' : seq S) : agree n P e e' ->
  (forall i, i < n -> i = k \/ P i) ->
  rres (agree n (fun=> True)) (svd_row_house n k e) (svd_row_house n k e').
Proof.
move=> A F; rewrite /svd_row_house; set Q := fun=> True.
have keep i x y z : agree n Q x y -> rres (agree n Q) (vset x i z) (vset y i z).
  by move=> h; apply: rset h _ => *; right.
apply: (rbind (Q := agree n Q)); first by apply: rset A _ => i hi _; exact: F.
move=> e1 e1' A1; apply: (rbind (Q := agree n Q)).
  apply: (rfor (I := fun=> agree n Q)) => // i e2 e2' _ A2.
  rewrite !(agree_get A2) //.
  by apply: rbind_same => x1 _; apply: rbind_same => x2 _; apply: rbind_same => x3 _; exact: keep.
move=> e2 e2' A2; rewrite !(agree_get A2) //; apply: rbind_same => x1 _; apply: (rbind (Q := agree n Q)).
  case: ifP => // _; apply: rbind_same => x2 _; apply: (rbind (Q := agree n Q)).
    by case: ifP => // _; exact: keep.
  move=> e3 e3' A3; apply: (rbind (Q := agree n Q)).
    apply: (rfor (I := fun=> agree n Q)) => // i e4 e4' _ A4.
    rewrite !(agree_get A4) //.
    by apply: rbind_same => y1 _; apply: rbind_same => y2 _; apply: rbind_same => y3 _; exact: keep.
  move=> e4 e4' A4; rewrite !(agree_get A4) //; apply: rbind_same => y1 _; exact: keep.
by move=> e3 e3' A3; rewrite !(agree_get A3) //; apply: rbind_same => x2 _; exact: keep.
Qed.

Lemma svd_row_apply_agree m n k (e ad : seq S) w w' : size w = m -> size w' = m ->
  rres (fun p q => p.1 = q.1 /\ size p.2 = m /\ size q.2 = m) (svd_row_apply m n k e ad w) (svd_row_apply m n k e ad w').
Proof.
move=> sw sw'; rewrite /svd_row_apply; apply: rbind_same => x _; case: ifP => // _.
have A0 : agree m (fun=> False) w w' by [].
apply: (rbind (Q := agree m (fun i => k < i))).
  apply: rres_mono.
    apply: (rfor (I := fun j => agree m (fun i => k < i < j))); first by apply: agree_mono A0 _ => *; lia.
    by move=> i a b hi A1; apply: rset A1 _ => *; lia.
  by move=> a b A1; apply: agree_mono A1 _ => *; lia.
move=> w1 w1' A1; apply: (rbind (Q := agree m (fun i => k < i))).
  apply: (rfor (I := fun=> agree m (fun i => k < i))) => // j a b hj A2.
  apply: (rfor (I := fun=> agree m (fun i => k < i))) => // i a1 b1 hi A3.
  rewrite (agree_get A3); last by lia.
  by apply: rbind_same => z1 _; apply: rbind_same => z2 _; apply: rbind_same => z3 _; apply: rset A3 _ => *; right.
move=> w2 w2' A2; apply: (rbind (Q := eq)); last by move=> a b -> /=; case: A2.
apply/rres_eq; apply: for_eq => j a hj; case: (vget e j) => //= ej; case: (vget e (k + 1)) => //= e1.
case: (n_div _ _) => //= t1; apply: for_eq => i a1 hi; rewrite (agree_get A2) //; lia.
Qed.

Definition bstep_inv m n nct nrt k (st st' : bidiag S) : Prop :=
  [/\ b_a st = b_a st',
      agree n (fun i => i < minn k nct) (b_s st) (b_s st'),
      agree2 m m (fun i j => j < minn k nct /\ j <= i) (b_u st) (b_u st'),
      agree2 n n (fun i j => j < minn k nrt /\ j < i) (b_v st) (b_v st') &
      agree n (fun i => 0 < k /\ (0 < i \/ 0 < nrt)) (b_e st) (b_e st') /\ size (b_w st) = m /\ size (b_w st') = m].

Lemma bidiag_step_agree m n nct nrt k st st' : nct <= m -> nct <= n -> nrt <= n ->
  bstep_inv m n nct nrt k st st' ->
  rres (bstep_inv m n nct nrt k.+1) (svd_bidiag_step m n nct nrt k st) (svd_bidiag_step m n nct nrt k st').
Proof.
case: st st' => [a s u v e w] [a' s' u' v' e' w'] nm nn rn [/= <- As Au Av [Ae [sw sw']]].
rewrite /svd_bidiag_step /=.
apply: (rbind (Q := fun p q => p.1 = q.1 /\ agree n (fun i => i < minn k.+1 nct) p.2 q.2)).
  case: ifP => h.
    apply: rres_mono; first apply: (svd_col_house_agree m a _ (agree_mono As _)); try by move=> *; lia.
    by move=> p q [-> A]; split=> //; apply: agree_mono A _ => *; lia.
  by split=> //=; apply: agree_mono As _ => *; lia.
move=> [a1 s1] [a1' s1'] /= [<- As1].
have H2 := svd_col_apply_agree m a1 As1 Ae; apply: (rbind H2) => -[a2 e2] [a2' e2'] /= [<- Ae2].
apply: (rbind (Q := agree2 m m (fun i j => j < minn k.+1 nct /\ j <= i))).
  case: ifP => h; last by apply: agree2_mono Au _ => *; lia.
  apply: rres_mono.
    apply: (rfor (I := fun l => agree2 m m (fun i j => (j < k /\ j <= i) \/ (j = k /\ k <= i < l)))).
      by apply: agree2_mono Au _ => *; lia.
    move=> i x y hi A; apply: rbind_same => z _; apply: rset2 A _ _ _ => *; lia.
  by move=> x y A; apply: agree2_mono A _ => *; lia.
move=> u1 u1' Au1; case: ifP => h; last first.
  split=> //=; first by apply: agree2_mono Av _ => *; lia.
  by split=> //; apply: agree_mono Ae2 _ => *; lia.
apply: (rbind (Q := agree n (fun=> True))).
  by apply: svd_row_house_agree Ae2 _ => i hi; lia.
move=> e3 e3' Ae3; have <- : e3 = e3' by apply: agree_full Ae3 _.
have H3 := svd_row_apply_agree n k e3 a2 sw sw'; apply: (rbind H3) => -[a3 w3] [a3' w3'] /= [<- [z1 z2]].
apply: (rbind (Q := agree2 n n (fun i j => j < minn k.+1 nrt /\ j < i))).
  apply: rres_mono.
    apply: (rfor (I := fun l => agree2 n n (fun i j => (j < k /\ j < i) \/ (j = k /\ k < i < l)))).
      by apply: agree2_mono Av _ => *; lia.
    by move=> i x y hi A; apply: rbind_same => z _; apply: rset2 A _ _ _ => *; lia.
  by move=> x y A; apply: agree2_mono A _ => *; lia.
by move=> v1 v1' Av1; split=> //=; split=> //; case: Ae3.
Qed.

Lemma svd_tall_agree fuel (gs gu gv ge gw gb gs' gu' gv' ge' gw' gb' : nat -> S) (a : mat S) :
  (forall m n ds, block_diag (N:=S) gb m n ds = block_diag (N:=S) gb' m n ds) ->
  svd_tall fuel gs gu gv ge gw gb a = svd_tall fuel gs' gu' gv' ge' gw' gb' a.
Proof.
move=> Hb; apply/rres_eq; rewrite /svd_tall; apply: rbind_same => n En; apply: rrequire => nm.
apply: rbind_same => m1 Em.
have [m0 Em1] : 0 < rows a /\ m1 = rows a - 1 by move: Em; rewrite /usub; case: ifP => // h [<-].
have [n0|np] := posnP n.
  rewrite n0 minn0 min0n sub0n min0n /=; cbn [bind].
  by rewrite /svd_final_bidiag /=.
set m := rows a in nm m0 Em1 *; set nct := minn m1 n; set nrt := minn (n - 2) m.
have -> : minn m n = n by lia.
apply: (rbind (Q := bstep_inv m n nct nrt nct)).
  apply: rres_mono.
    apply: (rfor (I := bstep_inv m n nct nrt)).
      split=> //=; rewrite ?min0n.
      - by apply: agree_alloc => i; lia.
      - by apply: agree2_alloc => i j; lia.
      - by apply: agree2_alloc => i j; lia.
      - by split; [apply: agree_alloc => i; lia | rewrite !size_alloc].
    by move=> k st st' hk H; apply: bidiag_step_agree => //; rewrite /nct /nrt; lia.
  by move=> st st'; have -> : maxn 0 (maxn nct nrt) = nct by rewrite /nct /nrt; lia.
move=> [xa s u v e w] [xa' s' u' v' e' w'] [/= <- As Au Av [Ae _]].
have E : svd_final_bidiag m n nct nrt (minn n (m + 1)) xa s e = svd_final_bidiag m n nct nrt (minn n (m + 1)) xa s' e'.
  apply/rres_eq; rewrite /svd_final_bidiag.
  have -> : minn n (m + 1) = n by lia.
  apply: (rbind (Q := eq)).
    case: ifP => h.
      apply: rbind_same => x _; apply: rres_mono (rset (P' := fun=> True) x As _) _ => [i hi _|y z A].
        by rewrite /nct in h *; lia.
      exact: agree_full A _.
    by apply: agree_full As _ => i; rewrite /nct in h *; lia.
  move=> s1 _ <-; apply: rbind_same => p1 Ep.
  have -> : p1 = n - 1 by move: Ep; rewrite /usub; case: ifP => // _ [<-].
  have -> : m < n = false by lia.
  cbn [bind].
  apply: (rbind (Q := agree n (fun i => i < n - 1))).
    case: ifP => h.
      apply: rbind_same => x _; apply: rset Ae _ => i hi; rewrite /nrt /nct in h *; lia.
    apply: agree_mono Ae _ => i hi h2; rewrite /nrt /nct in h *; lia.
  move=> e1 e1' Ae1; apply: (rbind (Q := eq)); last by move=> e2 _ <-.
  apply: rres_mono (rset (P' := fun=> True) _ Ae1 _) _ => [i hi _|y z A]; first by lia.
  exact: agree_full A _.
rewrite E; apply: rbind_same => -[s1 e1] _.
rewrite (svd_gen_u_agree s1 (v := u) (w := u')); [|rewrite /nct; lia|by apply: agree2_mono Au _ => *; lia].
apply: rbind_same => u1 _.
rewrite (svd_gen_v_agree e1 (v := v) (w := v')); [|rewrite /nrt; lia|by apply: agree2_mono Av _ => i j; rewrite /nrt /nct; lia].
apply: rbind_same => v1 _; apply: rbind_same => pp _; apply: rbind_same => r _; apply: rbind_same => um _.
by rewrite Hb; exact: rres_refl.
Qed.
End S.
