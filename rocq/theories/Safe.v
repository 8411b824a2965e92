(** * Safe: bounds checks and size arithmetic of EigenDecomposition::new and SVD::new, for scalars with total division and
    square root (f64): no vector access fails, whatever the comparisons of the algorithm answer.  Used by C60. *)
From mathcomp Require Import all_ssreflect zify.
From Verif Require Import Base Scalar Hoare ModelMatrix ModelHypot ModelSVD ModelEigen Spec MatrixProofs MatrixProofs2 EigenProofs.

Set Implicit Arguments.
Unset Strict Implicit.
Unset Printing Implicit Defensive.

(** ** values of the same shape *)
Class Sh (A : Type) := sh : A -> A -> Prop.
Global Instance sh_any A : Sh A | 100 := fun _ _ => True.
Global Instance sh_seq T : Sh (seq T) | 1 := fun a b => size a = size b.
Global Instance sh_pair A B {HA : Sh A} {HB : Sh B} : Sh (A * B) | 1 := fun a b => sh a.1 b.1 /\ sh a.2 b.2.

Section Gen.
Variable E : err -> Prop.
Lemma g_vget T (v : seq T) i (Q : T -> Prop) : i < size v -> (forall x, Q x) -> wpe E (vget v i) Q.
Proof. by move=> h H; elim: v i h => [|x v IH] [|i] //= /IH. Qed.
Lemma g_vset T (v : seq T) i x (Q : seq T -> Prop) : i < size v -> (forall v', size v' = size v -> Q v') -> wpe E (vset v i x) Q.
Proof.
rewrite /vset => -> H; apply: H.
by elim: v i => [|y v IH] [|i] //=; rewrite IH.
Qed.
Lemma g_usub a b (Q : nat -> Prop) : b <= a -> Q (a - b) -> wpe E (usub a b) Q.
Proof. by rewrite /usub => ->. Qed.
Lemma g_for A (HA : Sh A) lo hi (body : nat -> A -> res A) (s : A) (Q : A -> Prop) :
  sh s s -> (forall i s', lo <= i < hi -> sh s' s -> wpe E (body i s') (fun s'' => sh s'' s)) ->
  (forall s', sh s' s -> Q s') -> wpe E (for_ lo hi body s) Q.
Proof.
move=> s0 step fin; case: (leqP lo hi) => h; last first.
  by rewrite /for_; have -> : hi - lo = 0 by [lia]; apply: fin.
by apply: (wpe_for (fun _ s' => sh s' s)).
Qed.
Lemma g_forr A (HA : Sh A) lo hi (body : nat -> A -> res A) (s : A) (Q : A -> Prop) :
  sh s s -> (forall i s', lo <= i < hi -> sh s' s -> wpe E (body i s') (fun s'' => sh s'' s)) ->
  (forall s', sh s' s -> Q s') -> wpe E (for_rev lo hi body s) Q.
Proof.
move=> s0 step fin; case: (leqP lo hi) => h; last first.
  by rewrite /for_rev; have -> : hi - lo = 0 by [lia]; apply: fin.
by apply: (wpe_for_rev (fun _ s' => sh s' s)).
Qed.
End Gen.

Lemma ix2 i j m n : i < m -> j < n -> i * n + j < m * n.
Proof. by move=> hi hj; nia. Qed.

Ltac norm_sz := repeat match goal with
  | H : size ?v = size ?w, K : size ?w = ?n |- _ => rewrite K in H
  | H : sh _ _ |- _ => cbv beta iota delta [sh sh_seq sh_pair sh_any fst snd] in H
  | H : _ /\ _ |- _ => destruct H
  | H : and3 _ _ _ |- _ => destruct H
  | H : and4 _ _ _ _ |- _ => destruct H
  | H : True |- _ => clear H
  | H : context [fst (_, _)] |- _ => progress (cbn [fst snd] in H)
  | H : context [snd (_, _)] |- _ => progress (cbn [fst snd] in H)
  end.
Ltac ix := try match goal with
  | H : size ?v = _ |- is_true (_ < size ?v) => rewrite H end; first [lia | apply: ix2; lia | nia].
Ltac fin := cbv beta iota delta [sh sh_seq sh_pair sh_any fst snd]; norm_sz; repeat split; try lia; try congruence.

Create HintDb safe.
#[global] Hint Extern 5 (@eq nat _ _) => lia : safe.
#[global] Hint Extern 5 (is_true _) => lia : safe.

Section Safe.
Variable S : scalar.
Variable E : err -> Prop.
Hypothesis DT : forall x y : S, exists q, n_div x y = Ok q.
Hypothesis ST : forall x : S, exists r, s_sqrt x = Ok r.

Lemma g_div (x y : S) (Q : S -> Prop) : (forall q, Q q) -> wpe E (n_div x y) Q.
Proof. by move=> H; have [q ->] := DT x y; apply: H. Qed.
Lemma g_sqrt (x : S) (Q : S -> Prop) : (forall q, Q q) -> wpe E (s_sqrt x) Q.
Proof. by move=> H; have [q ->] := ST x; apply: H. Qed.
Lemma g_hypot (x y : S) (Q : S -> Prop) : (forall q, Q q) -> wpe E (hypot x y) Q.
Proof.
move=> H; rewrite /hypot; case: ifP => _.
  by apply: wpe_bind; apply: g_div => r; apply: wpe_bind; apply: g_sqrt => q; apply: H.
case: ifP => _; last exact: H.
by apply: wpe_bind; apply: g_div => r; apply: wpe_bind; apply: g_sqrt => q; apply: H.
Qed.
Lemma g_cdiv (a b c d : S) (Q : S * S -> Prop) : (forall q, Q q) -> wpe E (cdiv a b c d) Q.
Proof.
move=> H; rewrite /cdiv; case: ifP => _.
  by apply: wpe_bind; apply: g_div => r; do 2 (apply: wpe_bind; apply: g_div => ?); apply: H.
by apply: wpe_bind; apply: g_div => r; do 2 (apply: wpe_bind; apply: g_div => ?); apply: H.
Qed.

Ltac sf1 := cbv beta iota zeta; match goal with
  | |- wpe _ (bind _ _) _ => apply: wpe_bind
  | |- wpe _ (at2 _ _ _ _) _ => rewrite /at2
  | |- wpe _ (set2 _ _ _ _ _) _ => rewrite /set2
  | |- wpe _ (vget _ _) _ => apply: g_vget; [ix | intros ?]
  | |- wpe _ (vset _ _ _) _ => apply: g_vset; [ix | intros ? ?; norm_sz]
  | |- wpe _ (n_div _ _) _ => apply: g_div; intros ?
  | |- wpe _ (s_sqrt _) _ => apply: g_sqrt; intros ?
  | |- wpe _ (hypot _ _) _ => apply: g_hypot; intros ?
  | |- wpe _ (cdiv _ _ _ _) _ => apply: g_cdiv; intros [? ?]
  | |- wpe _ (usub _ _) _ => apply: g_usub; [lia|]
  | |- wpe ?E (for_ ?lo ?hi ?b ?s) ?Q => let A := type of s in let H := constr:(ltac:(typeclasses eauto) : Sh A) in refine (@g_for E A H lo hi b s Q _ _ _); [fin | intros ? ? ? ?; norm_sz | intros ? ?; norm_sz]
  | |- wpe ?E (for_rev ?lo ?hi ?b ?s) ?Q => let A := type of s in let H := constr:(ltac:(typeclasses eauto) : Sh A) in refine (@g_forr E A H lo hi b s Q _ _ _); [fin | intros ? ? ? ?; norm_sz | intros ? ?; norm_sz]
  | |- wpe _ (if ?b then _ else _) _ => let e := fresh "if_" in case e : b
  | x : (_ * _)%type |- _ => destruct x; norm_sz
  | |- wpe _ (Ok _) _ => apply: wpe_ok
  | |- wpe _ (?f _) _ => eapply wpe_mono; [ | solve [eauto 4 with safe]];
       let r := fresh "r" in intros r ?; cbv beta in *; repeat match goal with x : (_ * _)%type |- _ => destruct x | x : td_state _ |- _ => destruct x as [[? ?] ?] | x : tq_state _ |- _ => destruct x as [[? ?] ?] end; norm_sz
  end.
Ltac sf := repeat sf1; try solve [fin].

(** ** tred2 *)
Lemma tred2_init_s n d v : size d = n -> size v = n * n -> wpe E (tred2_init (S:=S) n d v) (fun d' => size d' = n).
Proof. by move=> sd sv; rewrite /tred2_init; sf. Qed.
Lemma tred2_scale_s n i d : size d = n -> i < n -> wpe E (tred2_scale (S:=S) i d) (fun _ => True).
Proof. by move=> sd hi; rewrite /tred2_scale; sf. Qed.
Lemma tred2_skip_s n i d v e : size d = n -> size v = n * n -> size e = n -> 0 < i < n ->
  wpe E (tred2_skip (S:=S) n i (d, v, e)) (fun st => [/\ size st.1.1 = n, size st.1.2 = n * n & size st.2 = n]).
Proof. by move=> sd sv se hi; rewrite /tred2_skip; sf. Qed.
Lemma tred2_scaled_s n i sc d : size d = n -> i < n -> wpe E (tred2_scaled (S:=S) i sc d) (fun st => size st.1 = n).
Proof. by move=> sd hi; rewrite /tred2_scaled; sf. Qed.
Lemma tred2_matvec_s n i d v e : size d = n -> size v = n * n -> size e = n -> i < n ->
  wpe E (tred2_matvec (S:=S) n i d v e) (fun st => size st.1 = n * n /\ size st.2 = n).
Proof. by move=> sd sv se hi; rewrite /tred2_matvec; sf. Qed.
Lemma tred2_correct_s n i h d e : size d = n -> size e = n -> i < n ->
  wpe E (tred2_correct (S:=S) i h d e) (fun e => size e = n).
Proof. by move=> sd se hi; rewrite /tred2_correct; sf. Qed.
Lemma tred2_update_s n i e d v : size d = n -> size v = n * n -> size e = n -> 0 < i < n ->
  wpe E (tred2_update (S:=S) n i e d v) (fun st => size st.1 = n /\ size st.2 = n * n).
Proof. by move=> sd sv se hi; rewrite /tred2_update; sf. Qed.
Hint Resolve tred2_init_s tred2_scale_s tred2_skip_s tred2_scaled_s tred2_matvec_s tred2_correct_s tred2_update_s : safe.
Lemma tred2_step_s n i d v e : size d = n -> size v = n * n -> size e = n -> 0 < i < n ->
  wpe E (tred2_step (S:=S) n i (d, v, e)) (fun st => [/\ size st.1.1 = n, size st.1.2 = n * n & size st.2 = n]).
Proof. by move=> sd sv se hi; rewrite /tred2_step; sf. Qed.
Lemma tred2_acc_s n i d v : size d = n -> size v = n * n -> i < n.-1 ->
  wpe E (tred2_acc (S:=S) n i (d, v)) (fun st => size st.1 = n /\ size st.2 = n * n).
Proof. by move=> sd sv hi; rewrite /tred2_acc; sf. Qed.
Lemma tred2_last_s n d v : size d = n -> size v = n * n ->
  wpe E (tred2_last (S:=S) n d v) (fun st => size st.1 = n /\ size st.2 = n * n).
Proof. by move=> sd sv; rewrite /tred2_last; sf. Qed.
Hint Resolve tred2_step_s tred2_acc_s tred2_last_s : safe.
Lemma tred2_s n d v e : size d = n -> size v = n * n -> size e = n -> 0 < n ->
  wpe E (tred2 (S:=S) n d v e) (fun st => [/\ size st.1.1 = n, size st.1.2 = n * n & size st.2 = n]).
Proof. by move=> sd sv se hn; rewrite /tred2; sf. Qed.

(** ** orthes *)
Lemma orthes_scale_s n m h : size h = n * n -> 0 < m -> wpe E (orthes_scale (S:=S) n m h) (fun _ => True).
Proof. by move=> sh hm; rewrite /orthes_scale; sf. Qed.
Lemma orthes_vec_s n m sc h ort : size h = n * n -> size ort = n -> 0 < m -> wpe E (orthes_vec (S:=S) n m sc h ort) (fun st => size st.1 = n).
Proof. by move=> s1 s2 hm; rewrite /orthes_vec; sf. Qed.
Lemma orthes_left_s n m x h ort : size h = n * n -> size ort = n -> wpe E (orthes_left (S:=S) n m x ort h) (fun h => size h = n * n).
Proof. by move=> s1 s2; rewrite /orthes_left; sf. Qed.
Lemma orthes_right_s n m x h ort : size h = n * n -> size ort = n -> wpe E (orthes_right (S:=S) n m x ort h) (fun h => size h = n * n).
Proof. by move=> s1 s2; rewrite /orthes_right; sf. Qed.
Hint Resolve orthes_scale_s orthes_vec_s orthes_left_s orthes_right_s : safe.
Lemma orthes_step_s n m h ort : size h = n * n -> size ort = n -> 0 < m < n ->
  wpe E (orthes_step (S:=S) n m (h, ort)) (fun st => size st.1 = n * n /\ size st.2 = n).
Proof. by move=> s1 s2 hm; rewrite /orthes_step; sf. Qed.
Lemma orthes_id_s n v : size v = n * n -> wpe E (orthes_id (S:=S) n v) (fun v => size v = n * n).
Proof. by move=> s1; rewrite /orthes_id; sf. Qed.
Lemma orthes_acc_s n h m ort v : size h = n * n -> size ort = n -> size v = n * n -> 0 < m < n ->
  wpe E (orthes_acc (S:=S) n h m (ort, v)) (fun st => size st.1 = n /\ size st.2 = n * n).
Proof. by move=> s1 s2 s3 hm; rewrite /orthes_acc; sf. Qed.
Hint Resolve orthes_step_s orthes_id_s orthes_acc_s : safe.
Lemma orthes_s n g h v : size h = n * n -> size v = n * n -> 0 < n ->
  wpe E (orthes (S:=S) n g h v) (fun st => size st.1 = n * n /\ size st.2 = n * n).
Proof.
move=> s1 s2 hn; rewrite /orthes; have s3 : size (alloc_dirty_vec g n) = n by rewrite size_mkseq.
by move: (alloc_dirty_vec g n) s3 => ort s3; sf.
Qed.

(** ** hqr2 *)
Hint Resolve orthes_s tred2_s : safe.
Lemma hqr2_norm_s nn h : size h = nn * nn -> wpe E (hqr2_norm (S:=S) nn h) (fun _ => True).
Proof. by move=> s1; rewrite /hqr2_norm; sf. Qed.
Lemma hqr2_find_l_s nn nrm h l : size h = nn * nn -> l < nn -> wpe E (hqr2_find_l (S:=S) nn nrm h l) (fun r => r <= l).
Proof.
move=> s1; elim: l => [//|l IH] hl; rewrite [hqr2_find_l _ _ _ _]/=; sf.
Qed.
Lemma hqr2_rot_rows_s nn lo hi a b p q h : size h = nn * nn -> hi <= nn -> a < nn -> b < nn ->
  wpe E (hqr2_rot_rows (S:=S) nn lo hi a b p q h) (fun h => size h = nn * nn).
Proof. by move=> s1 h1 h2 h3; rewrite /hqr2_rot_rows; sf. Qed.
Lemma hqr2_rot_cols_s nn lo hi a b p q h : size h = nn * nn -> hi <= nn -> a < nn -> b < nn ->
  wpe E (hqr2_rot_cols (S:=S) nn lo hi a b p q h) (fun h => size h = nn * nn).
Proof. by move=> s1 h1 h2 h3; rewrite /hqr2_rot_cols; sf. Qed.
Lemma hqr2_sub_diag_s nn n x h : size h = nn * nn -> n < nn -> wpe E (hqr2_sub_diag (S:=S) nn n x h) (fun h => size h = nn * nn).
Proof. by move=> s1 h1; rewrite /hqr2_sub_diag; sf. Qed.
Hint Resolve hqr2_norm_s hqr2_find_l_s hqr2_rot_rows_s hqr2_rot_cols_s hqr2_sub_diag_s : safe.
Lemma hqr2_shift_s nn n it h ex : size h = nn * nn -> 1 < n < nn ->
  wpe E (hqr2_shift (S:=S) nn n it h ex) (fun r => size r.1.1.1.1 = nn * nn).
Proof. by move=> s1 h1; rewrite /hqr2_shift; sf. Qed.
Lemma hqr2_find_m_s nn l c x y w h : size h = nn * nn -> l + c + 2 < nn ->
  wpe E (hqr2_find_m (S:=S) nn l c x y w h) (fun r => l <= r.1.1.1 <= l + c).
Proof.
move=> s1; elim: c => [|c IH] h1; rewrite [hqr2_find_m _ _ _ _ _ _ _]/=; sf.
Qed.
Lemma hqr2_clear_s nn m n h : size h = nn * nn -> n < nn -> wpe E (hqr2_clear (S:=S) nn m n h) (fun h => size h = nn * nn).
Proof. by move=> s1 h1; rewrite /hqr2_clear; sf. Qed.
Lemma hqr2_rows_s nn k (nl : bool) q r x y z h : size h = nn * nn -> k + 1 < nn -> (nl -> k + 2 < nn) ->
  wpe E (hqr2_rows (S:=S) nn k nl q r x y z h) (fun h => size h = nn * nn).
Proof. by move=> s1 h1; rewrite /hqr2_rows; case: nl => [/(_ erefl) h2|_]; sf. Qed.
Lemma hqr2_cols_s nn hi k (nl : bool) q r x y z h : size h = nn * nn -> hi <= nn -> k + 1 < nn -> (nl -> k + 2 < nn) ->
  wpe E (hqr2_cols (S:=S) nn hi k nl q r x y z h) (fun h => size h = nn * nn).
Proof. by move=> s1 h0 h1; rewrite /hqr2_cols; case: nl => [/(_ erefl) h2|_]; sf. Qed.
Hint Resolve hqr2_shift_s hqr2_find_m_s hqr2_clear_s hqr2_rows_s hqr2_cols_s : safe.
Lemma hqr2_reflect_s nn n l m k p q r x h v : size h = nn * nn -> size v = nn * nn -> l <= m <= k -> k < n < nn ->
  wpe E (hqr2_reflect (S:=S) nn n l m k p q r x h v) (fun st => size st.1 = nn * nn /\ size st.2 = nn * nn).
Proof.
move=> s1 s2 h1 h2; rewrite /hqr2_reflect.
have nl : k != n - 1 -> k + 2 < nn by lia.
by sf.
Qed.
Hint Resolve hqr2_reflect_s : safe.
Lemma hqr2_qr_s nn n l m p q r x h v : size h = nn * nn -> size v = nn * nn -> l <= m -> n < nn ->
  wpe E (hqr2_qr (S:=S) nn n l m p q r x h v) (fun st => size st.1 = nn * nn /\ size st.2 = nn * nn).
Proof. by move=> s1 s2 h1 h2; rewrite /hqr2_qr; sf. Qed.
Hint Resolve hqr2_qr_s : safe.

(** the signs of the imaginary parts that get_d and the back substitution rely on: the first one is not negative, the last
    one not positive *)
Hypothesis L0 : s_ltb (n_zero S) (n_zero S) = false.
Hypothesis L1 : forall x z : S, s_sqrt x = Ok z -> s_ltb z (n_zero S) = false /\ s_ltb (n_zero S) (n_neg z) = false.
Hypothesis EF : E OutOfFuel.

Ltac sfv e := repeat (lazymatch goal with |- wpe _ (bind (vset e _ _) _) _ => fail | |- wpe _ (bind (s_sqrt _) _) _ => fail | |- _ => sf1 end).
Definition eok nn n1 (e : seq S) : Prop := size e = nn /\ forall i, n1 <= i < nn ->
  (i = 0 -> s_ltb (nth (n_zero S) e i) (n_zero S) = false) /\ (i = nn.-1 -> s_ltb (n_zero S) (nth (n_zero S) e i) = false).
Lemma nth_upd (e : seq S) i x k : i < size e -> nth (n_zero S) (upd e i x) k = if k == i then x else nth (n_zero S) e k.
Proof. by elim: e i k => [|y e IH] [|i] [|k] //= h; rewrite IH. Qed.
Definition hqok nn (st : hq S) : Prop :=
  [/\ size (hq_d st) = nn, size (hq_h st) = nn * nn, size (hq_v st) = nn * nn, hq_n1 st <= nn & eok nn (hq_n1 st) (hq_e st)].

Lemma hqr2_one_s nn st : hqok nn st -> 0 < hq_n1 st -> wpe E (hqr2_one nn (hq_n1 st - 1) st) (hqok nn).
Proof.
case: st => d e h v ex n1 it [/= s1 s2 s3 hn [s4 he]] n0; rewrite /hqr2_one [hq_h _]/= [hq_d _]/= [hq_e _]/= [hq_v _]/= [hq_ex _]/=.
sfv e; apply: wpe_bind; apply: wpe_vset; first lia.
apply: wpe_ok; split=> //=; try lia.
split; first by rewrite size_upd.
move=> i hi; rewrite nth_upd; last lia.
case: eqP => ni; first by rewrite L0.
by apply: he; lia.
Qed.

Lemma hqr2_two_s nn st : hqok nn st -> 1 < hq_n1 st -> wpe E (hqr2_two nn (hq_n1 st - 1) st) (hqok nn).
Proof.
case: st => d e h v ex n1 it [/= s1 s2 s3 hn [s4 he]] n0; rewrite /hqr2_two.
cbn [hq_h hq_d hq_e hq_v hq_ex]; cbv zeta.
sfv e; apply: wpe_bind.
match goal with |- wpe _ (s_sqrt ?x) _ => have [z ez] := ST x; rewrite ez; have [z1 z2] := L1 ez; apply: wpe_ok end.
have keep (P : seq S -> res (hq S)) : (forall e', eok nn (n1 - 1 - 1) e' -> wpe E (P e') (hqok nn)) ->
  wpe E (bind (vset e (n1 - 1 - 1) (n_zero S)) (fun e => bind (vset e (n1 - 1) (n_zero S)) P)) (hqok nn).
  move=> HP; do 2 (apply: wpe_bind; apply: wpe_vset; first by rewrite ?size_upd; lia).
  apply: HP; split; first by rewrite !size_upd.
  move=> i hi; rewrite nth_upd; last by rewrite size_upd; lia.
  rewrite nth_upd; last lia.
  by case: eqP => i1; [|case: eqP => i2; [|apply: he; lia]]; rewrite ?L0.
sfv e.
- by apply: keep => e' he'; sf; split=> //=; try lia; try congruence.
- by apply: keep => e' he'; sf; split=> //=; try lia; try congruence.
do 2 (apply: wpe_bind; apply: wpe_vset; first by rewrite ?size_upd; lia).
apply: wpe_ok; split=> //=; try lia.
split; first by rewrite !size_upd.
move=> i hi; rewrite nth_upd; last by rewrite size_upd; lia.
rewrite nth_upd; last lia.
by case: eqP => i1; [split; [lia|]|case: eqP => i2; [split; [|lia]|apply: he; lia]].
Qed.

Lemma hqr2_more_s nn l st : hqok nn st -> l.+1 < hq_n1 st - 1 -> wpe E (hqr2_more nn (hq_n1 st - 1) l st) (hqok nn).
Proof.
case: st => d e h v ex n1 it [/= s1 s2 s3 hn he] n0; rewrite /hqr2_more.
cbn [hq_h hq_d hq_e hq_v hq_ex hq_iter hq_n1].
by sf; split.
Qed.
Lemma hqr2_iter_s nn nrm st : hqok nn st ->
  wpe E (hqr2_iter nn nrm st) (fun c => match c with Next s => hqok nn s | Stop s => hqok nn s /\ hq_n1 s = 0 end).
Proof.
move=> H; rewrite /hqr2_iter; case: eqP => n0; first exact: wpe_ok.
have [s1 s2 s3 hn he] := H.
apply: wpe_bind; apply: (wpe_mono _ (hqr2_find_l_s nrm (l := hq_n1 st - 1) s2 _)); last lia.
move=> l hl; case: eqP => l1.
  by apply: wpe_bind; apply: wpe_mono (hqr2_one_s H _) => [s' H'|]; [apply: wpe_ok|lia].
case: eqP => l2.
  by apply: wpe_bind; apply: wpe_mono (hqr2_two_s H _) => [s' H'|]; [apply: wpe_ok|lia].
by apply: wpe_bind; apply: wpe_mono (hqr2_more_s H _) => [s' H'|]; [apply: wpe_ok|lia].
Qed.
Lemma g_loop A R (I : A -> Prop) (J : R -> Prop) fuel (body : A -> res (ctl A R)) s :
  I s -> (forall s, I s -> wpe E (body s) (fun c => match c with Next s' => I s' | Stop r => J r end)) ->
  wpe E (loop_ fuel body s) J.
Proof.
elim: fuel s => [|f IH] s I0 step //=.
by apply: wpe_bind; apply: wpe_mono (step s I0); case=> [s' Is'|r Jr]; [apply: IH|].
Qed.

Lemma hqr2_scale1_s nn i n h : size h = nn * nn -> n < nn -> i < nn -> wpe E (hqr2_scale1 (S:=S) nn i n h) (fun h => size h = nn * nn).
Proof. by move=> s1 h1 h2; rewrite /hqr2_scale1; sf. Qed.
Lemma hqr2_scale2_s nn i n h : size h = nn * nn -> n < nn -> i < nn -> wpe E (hqr2_scale2 (S:=S) nn i n h) (fun h => size h = nn * nn).
Proof. by move=> s1 h1 h2; rewrite /hqr2_scale2; sf. Qed.
Hint Resolve hqr2_scale1_s hqr2_scale2_s : safe.
Lemma hqr2_real_row_s nn n p nrm d e i h l z s : size h = nn * nn -> size d = nn -> size e = nn -> i < n < nn ->
  wpe E (hqr2_real_row (S:=S) nn n p nrm d e i (h, l, z, s)) (fun st => size st.1.1.1 = nn * nn).
Proof. by move=> s1 s2 s3 h1; rewrite /hqr2_real_row; sf. Qed.
Lemma hqr2_cplx_row_s nn n p q nrm d e i h l z r s : size h = nn * nn -> size d = nn -> size e = nn -> i.+1 < n < nn ->
  wpe E (hqr2_cplx_row (S:=S) nn n p q nrm d e i (h, l, z, r, s)) (fun st => size st.1.1.1.1 = nn * nn).
Proof. by move=> s1 s2 s3 h1; rewrite /hqr2_cplx_row; sf. Qed.
Hint Resolve hqr2_real_row_s hqr2_cplx_row_s : safe.
Lemma hqr2_real_s nn n p nrm z s d e h : size h = nn * nn -> size d = nn -> size e = nn -> n < nn ->
  wpe E (hqr2_real (S:=S) nn n p nrm z s d e h) (fun h => size h = nn * nn).
Proof. by move=> s1 s2 s3 h1; rewrite /hqr2_real; sf. Qed.
Lemma hqr2_cplx_s nn n p q nrm z r s d e h : size h = nn * nn -> size d = nn -> size e = nn -> 0 < n < nn ->
  wpe E (hqr2_cplx (S:=S) nn n p q nrm z r s d e h) (fun h => size h = nn * nn).
Proof. by move=> s1 s2 s3 h1; rewrite /hqr2_cplx; sf. Qed.
Hint Resolve hqr2_real_s hqr2_cplx_s : safe.
Lemma hqr2_back_s nn nrm gz gr gs d e h : size h = nn * nn -> size d = nn -> eok nn 0 e ->
  wpe E (hqr2_back (S:=S) nn nrm gz gr gs d e h) (fun h => size h = nn * nn).
Proof.
move=> s1 s2 [s3 he]; rewrite /hqr2_back; sf1; last by sf.
do 2 sf1; apply: wpe_bind; rewrite (vgetE (n_zero S)); last lia.
apply: wpe_ok; sf1; first by sf.
sf1; last by sf.
have n0 : i <> 0.
  by move=> i0; have [h1 _] := he i H; rewrite (h1 i0) in if_0.
by sf.
Qed.
Lemma hqr2_trans_s nn h v : size h = nn * nn -> size v = nn * nn -> wpe E (hqr2_trans (S:=S) nn h v) (fun h => size h = nn * nn).
Proof. by move=> s1 s2; rewrite /hqr2_trans; sf. Qed.
Hint Resolve hqr2_back_s hqr2_trans_s : safe.
Lemma hqr2_s fuel nn gz gr gs d e h v : size h = nn * nn -> size d = nn -> size e = nn -> size v = nn * nn ->
  wpe E (hqr2 (S:=S) fuel nn gz gr gs d e h v) (fun st => [/\ size st.1.1 = nn, eok nn 0 st.1.2 & size st.2 = nn * nn]).
Proof.
move=> s1 s2 s3 s4; rewrite /hqr2; do 2 sf1; apply: wpe_bind.
apply: (@wpe_mono E _ _ (fun st => hqok nn st /\ hq_n1 st = 0)); last first.
  apply: (g_loop (I := hqok nn)) => [|st]; last exact: hqr2_iter_s.
  by split=> //=; split=> // i; rewrite ltnNge andbN.
case=> d' e' h' v' ex n1 it [[/= t1 t2 t3 _ he] n10]; rewrite n10 in he.
sf1; first exact: wpe_ok.
by do 4 sf1; apply: wpe_ok.
Qed.
Hint Resolve hqr2_s : safe.

Lemma sz_rep m n (v : seq S) : size v = m * n -> repr m n v (fun i j => nth (n_zero S) v (i * n + j)).
Proof. exact: repr_nth. Qed.
Definition shaped m n (M : mat S) : Prop := no_rows M = m /\ size (data M) = m * n.
Lemma new_s m n (v : seq S) : size v = m * n -> 0 < m -> 0 < n -> wpe E (new m n v) (shaped m n).
Proof. by move=> sv m0 n0; rewrite new_ok ?sv. Qed.
Lemma eigen_copy_t_s n (a : mat S) f v : rep n n a f -> size v = n * n -> wpe E (eigen_copy_t n a v) (fun v => size v = n * n).
Proof.
move=> Ha sv; have /wp_ex [w -> [sw _]] := eigen_copy_t_ok Ha (leqnn n) (sz_rep sv).
exact: wpe_ok.
Qed.
Hint Resolve new_s eigen_copy_t_s : safe.
Lemma eigen_new_s fuel gv gd ge gh gort gz gr gs (a : mat S) n f : rep n n a f -> 0 < n -> symb n f = false ->
  wpe E (eigen_new fuel gv gd ge gh gort gz gr gs a)
    (fun x => [/\ eg_n x = n, size (eg_d x) = n, eok n 0 (eg_e x) & shaped n n (eg_v x)]).
Proof.
move=> Ha n0 sy; rewrite /eigen_new (rep_cols Ha) //; cbn [bind].
rewrite (eigen_symmetric_ok Ha (leqnn n)) sy; cbn [bind].
have t1 : size (alloc_dirty_vec gh (n * n)) = n * n by rewrite size_alloc.
have t2 : size (alloc_dirty_vec gv (n * n)) = n * n by rewrite size_alloc.
have t3 : size (alloc_dirty_vec gd n) = n by rewrite size_alloc.
have t4 : size (alloc_dirty_vec ge n) = n by rewrite size_alloc.
do 6 sf1; apply: wpe_bind.
apply: wpe_mono (new_s H4 n0 n0) => M hM.
exact: wpe_ok.
Qed.
Lemma eigen_get_d_s g x n : 0 < n -> eg_n x = n -> size (eg_d x) = n -> eok n 0 (eg_e x) -> wpe E (eigen_get_d (S:=S) g x) (shaped n n).
Proof.
case: x => nn d e v n0 /= -> s1 [s2 he]; rewrite /eigen_get_d; cbn [eg_n eg_d eg_e].
have t1 : size (alloc_dirty_vec g (n * n)) = n * n by rewrite size_alloc.
apply: wpe_bind; sf1; last by apply: new_s.
sf1; sf1; first by sf.
do 5 sf1; rewrite (vgetE (n_zero S)); last lia.
apply: wpe_ok; have [h1 h2] := he i H.
case e1 : (s_ltb _ _).
  have ni : i <> n.-1 by move=> ni; rewrite h2 in e1.
  by apply: g_vset; [norm_sz; match goal with H : size ?v = n * n |- is_true (_ < size ?v) => rewrite H end; nia|move=> ? ?; fin].
case e2 : (s_ltb _ _); last by apply: wpe_ok; fin.
have ni : i <> 0 by move=> ni; rewrite h1 in e2.
by sf.
Qed.
End Safe.
