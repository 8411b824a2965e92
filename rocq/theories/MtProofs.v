(** * MtProofs: the in-place transpose (matrix.rs:365-389). *)
From mathcomp Require Import all_ssreflect all_algebra zify.
From Verif Require Import Base Scalar Hoare ModelMatrix Spec MatrixProofs.

Set Implicit Arguments.
Unset Strict Implicit.
Unset Printing Implicit Defensive.

Section Mt.
Variable T : Type.
Variables (m n q : nat) (f : nat -> nat -> T).
Hypothesis mn : m * n = q.+2.       (* data length; q.+1 = len - 1 *)

Let p := q.+1.
Definition mtD0 k := f (k %/ n) (k %% n).
Definition mtD1 k := f (k %% m) (k %/ m).
Definition mtpi (k : 'I_p) : 'I_p := inord (m * k %% p).

Let m0 : 0 < m. Proof. by case: m mn. Qed.
Let n0 : 0 < n. Proof. by move: mn; rewrite mulnC; case: n. Qed.

Lemma mtpiE (k : 'I_p) : mtpi k = m * k %% p :> nat.
Proof. by rewrite inordK // ltn_pmod. Qed.

Lemma mtpi_div (k : 'I_p) : mtpi k = k %% n * m + k %/ n :> nat.
Proof.
rewrite mtpiE; have hk := ltn_ord k.
set i := k %/ n; set j := k %% n.
have ek : nat_of_ord k = i * n + j by rewrite -divn_eq.
have hj : j < n by rewrite ltn_pmod.
have hi : i < m by rewrite /i ltn_divLR // mn; apply: leq_trans hk _.
have -> : m * k = i * p + (j * m + i).
  have -> : m * k = i * (m * n) + j * m by rewrite ek mulnDr [j * m]mulnC mulnCA.
  rewrite mn /p; lia.
rewrite modnMDl modn_small //.
have le : j * m + i <= q.+1.
  by have := idx_lt hj hi; rewrite [n * m]mulnC mn ltnS.
rewrite ltn_neqAle le andbT; apply/eqP => e.
have e2 : j * m + i = n.-1 * m + m.-1.
  have : n.-1 * m + m = m * n by rewrite -mulSnr prednK // mulnC.
  rewrite mn => h; rewrite e /p; lia.
have /andP[/eqP ej /eqP ei] : (j == n.-1) && (i == m.-1).
  by rewrite -(@idx_inj m) ?e2 //; lia.
have : nat_of_ord k = q.+1.
  rewrite ek ej ei; have : m.-1 * n + n = m * n by rewrite -mulSnr prednK.
  rewrite mn; lia.
by move=> h; move: hk; rewrite h /p ltnn.
Qed.

Lemma mtD1_pi (k : 'I_p) : mtD1 (mtpi k) = mtD0 k.
Proof.
have hk := ltn_ord k.
have hi : k %/ n < m by rewrite ltn_divLR // mn; apply: leq_trans hk _.
rewrite /mtD1 /mtD0 mtpi_div modnMDl (modn_small hi) divnMDl // (divn_small hi).
by rewrite addn0.
Qed.

Lemma mtpi_inj : injective mtpi.
Proof.
move=> k k' /(congr1 val); rewrite /= !mtpi_div => /eqP.
have hk := ltn_ord k; have hk' := ltn_ord k'.
rewrite idx_inj; first last.
- by rewrite ltn_divLR // mn; apply: leq_trans hk' _.
- by rewrite ltn_divLR // mn; apply: leq_trans hk _.
move=> /andP[/eqP e1 /eqP e2]; apply: val_inj => /=.
by rewrite (divn_eq k n) (divn_eq k' n) e1 e2.
Qed.

Lemma mtD_0 : mtD1 0 = mtD0 0.
Proof. by rewrite /mtD1 /mtD0 !mod0n !div0n. Qed.

Lemma mtD_p : mtD1 p = mtD0 p.
Proof.
have e1 : p = n.-1 * m + m.-1.
  have : n.-1 * m + m = m * n by rewrite -mulSnr prednK // mulnC.
  rewrite mn /p; lia.
have e2 : p = m.-1 * n + n.-1.
  have : m.-1 * n + n = m * n by rewrite -mulSnr prednK.
  rewrite mn /p; lia.
rewrite /mtD1 /mtD0 {1 2}e1 e2 !modnMDl !divnMDl // !modn_small ?divn_small ?addn0 //; lia.
Qed.

Definition mtdone (c : nat) (k : 'I_p) : bool :=
  [exists c' : 'I_p, (0 < c') && (c' < c) && fconnect mtpi c' k].

Lemma mtdoneS (c : 'I_p) k : 0 < c -> mtdone c.+1 k = mtdone c k || fconnect mtpi c k.
Proof.
move=> c0; apply/existsP/orP => [[c' /andP[/andP[h0 h1] h2]]|[/existsP[c' /andP[/andP[h0 h1] h2]]|h]].
- move: h1; rewrite ltnS leq_eqVlt => /orP[/eqP/val_inj <-|lt]; first by right.
  by left; apply/existsP; exists c'; rewrite h0 lt.
- by exists c'; rewrite h0 h2 (leq_trans h1).
- by exists c; rewrite c0 ltnSn h.
Qed.

Lemma mtdone_conn c k k' : fconnect mtpi k k' -> mtdone c k = mtdone c k'.
Proof.
move=> h; apply/existsP/existsP => -[c' /andP[h0 h1]]; exists c'; rewrite h0 /=.
  exact: connect_trans h1 h.
by apply: connect_trans h1 _; rewrite (fconnect_sym mtpi_inj).
Qed.

Lemma iter_neq (c : 'I_p) i j : i < j < order mtpi c -> iter i mtpi c != iter j mtpi c.
Proof.
move=> h; have hj : j < order mtpi c by lia.
have hi : i < order mtpi c by lia.
rewrite -!(nth_traject mtpi (n:=order mtpi c)) // nth_uniq ?size_traject //; first by lia.
exact: orbit_uniq.
Qed.

(** the set of positions already rewritten after k steps of the cycle *)
Definition mtseen (c : 'I_p) k (x : 'I_p) : bool := x \in traject mtpi (mtpi c) k.

Lemma mtseenS (c : 'I_p) k x : mtseen c k.+1 x = mtseen c k x || (x == iter k.+1 mtpi c).
Proof. by rewrite /mtseen trajectSr mem_rcons inE -iterSr orbC. Qed.

Lemma mtseen_order (c : 'I_p) x : mtseen c (order mtpi c) x = fconnect mtpi c x.
Proof.
have -> : fconnect mtpi c x = fconnect mtpi (mtpi c) x.
  by rewrite (same_fconnect1 mtpi_inj).
have e : order mtpi c = order mtpi (mtpi c).
  by apply: (eq_order_cycle (p := orbit mtpi c)); rewrite ?cycle_orbit ?in_orbit //;
     [exact: mtpi_inj | rewrite -fconnect_orbit fconnect1].
by rewrite /mtseen e fconnect_orbit.
Qed.

Lemma mtseen_notin (c : 'I_p) k : k.+1 < order mtpi c -> mtseen c k (iter k.+1 mtpi c) = false.
Proof.
move=> hk; apply/negbTE/negP => /trajectP[i hi]; rewrite -iterSr => e.
by have := @iter_neq c i.+1 k.+1; rewrite e eqxx => /(_ _)/negP; apply=> //; lia.
Qed.

Lemma mtseen_c (c : 'I_p) k : k < order mtpi c -> mtseen c k c = false.
Proof.
move=> hk; apply/negbTE/negP => /trajectP[i hi]; rewrite -iterSr => e.
by have := @iter_neq c 0 i.+1; rewrite -e eqxx => /(_ _)/negP; apply=> //; lia.
Qed.

Lemma mt_cycle_ok (c : 'I_p) (d : seq T) (vis : seq bool) fuel :
  0 < c -> mtdone c c = false -> q.+2 <= fuel -> size d = q.+2 -> size vis = q.+2 ->
  (forall k : 'I_p, vget d k = Ok (if mtdone c k then mtD1 k else mtD0 k)) ->
  vget d p = Ok (mtD0 p) ->
  wp (loop_ fuel (mt_cycle m c) (d, vis, nat_of_ord c, mtD0 c))
    (fun st => [/\ size st.1 = q.+2, size st.2 = q.+2,
       forall k : 'I_p, vget st.1 k = Ok (if mtdone c k || fconnect mtpi c k then mtD1 k else mtD0 k),
       vget st.1 p = Ok (mtD0 p) &
       forall k : 'I_p, k != c -> vget st.2 k = if fconnect mtpi c k then Ok true else vget vis k]).
Proof.
move=> c0 ndone hf sd sv Hd Hp.
have ndone' k : mtdone c (iter k mtpi c) = false.
  by rewrite -(mtdone_conn c (fconnect_iter mtpi k c)).
have ole : order mtpi c <= p by rewrite /order -[X in _ <= X]card_ord max_card.
apply: (wp_loop (I := fun r (st : seq T * seq bool * nat * T) => exists k,
  [/\ k < order mtpi c, r = order mtpi c - k, st.1.2 = iter k mtpi c,
      st.2 = mtD0 (iter k mtpi c) &
      [/\ size st.1.1.1 = q.+2, size st.1.1.2 = q.+2,
      forall x : 'I_p, vget st.1.1.1 x = Ok (if mtdone c x || mtseen c k x then mtD1 x else mtD0 x),
      vget st.1.1.1 p = Ok (mtD0 p) &
      forall x : 'I_p, vget st.1.1.2 x = if mtseen c k x then Ok true else vget vis x]])
  (k := order mtpi c)).
- by apply: leq_trans hf; rewrite ltnS.
- exists 0; split=> //; rewrite ?order_gt0 ?subn0 //.
  by split=> //= x; rewrite /mtseen /= orbF.
move=> r [[[d' vis'] idx] prev] [k [hk er]]; cbn [fst snd] => -> -> [sd' sv' Hd' Hp' Hv'].
have e1 : usub (size d') 1 = Ok p by rewrite sd' /usub /= subn1.
have e2 : umod (m * iter k mtpi c) p = Ok (nat_of_ord (iter k.+1 mtpi c)).
  by rewrite iterS mtpiE.
rewrite /mt_cycle e1; cbn [bind]; rewrite e2; cbn [bind]; rewrite Hd'; cbn [bind].
have ltN (x : 'I_p) : x < q.+2 by apply: leq_trans (ltn_ord x) _.
rewrite vsetE ?sd' //=; set x1 := iter k.+1 mtpi c.
have x1E : mtpi (iter k mtpi c) = x1 by rewrite /x1 iterS.
have Hd2 (x : 'I_p) : vget (upd d' (mtpi (iter k mtpi c)) (mtD0 (iter k mtpi c))) x
   = Ok (if mtdone c x || mtseen c k.+1 x then mtD1 x else mtD0 x).
  rewrite vget_upd ?sd' // x1E mtseenS -/x1 !val_eqE.
  case: (altP (x =P x1)) => [->|ne]; first by rewrite !orbT -[in RHS]x1E mtD1_pi.
  by rewrite orbF Hd'.
have Hp2 : vget (upd d' (mtpi (iter k mtpi c)) (mtD0 (iter k mtpi c))) p = Ok (mtD0 p).
  rewrite vget_upd ?sd' //; case: eqP => [e|_]; last exact: Hp'.
  by have := ltn_ord (mtpi (iter k mtpi c)); rewrite -e ltnn.
rewrite x1E val_eqE; case: (altP (x1 =P c)) => [xc|xc].
  have ek : k.+1 = order mtpi c.
    apply/eqP; rewrite eqn_leq hk /= leqNgt; apply/negP => lt.
    by have := @iter_neq c 0 k.+1; rewrite -/x1 xc eqxx lt => /(_ isT).
  rewrite -x1E; split=> //=.
  + by rewrite size_upd.
  + by move=> x; rewrite Hd2 ek mtseen_order.
  + move=> x xnc; rewrite Hv' -mtseen_order -ek mtseenS -/x1 xc (negPf xnc) orbF.
    by [].
have hk1 : k.+1 < order mtpi c.
  rewrite ltn_neqAle hk andbT; apply/eqP => e.
  by move/eqP: xc; apply; rewrite /x1 e (iter_order mtpi_inj).
rewrite vsetE ?sv' //=; exists (order mtpi c - k.+1); first by lia.
exists k.+1; split=> //.
  have -> : mtdone c x1 = false by apply: ndone'.
  by have -> : mtseen c k x1 = false by apply: mtseen_notin.
rewrite -x1E; split; rewrite ?size_upd //.
move=> x; rewrite vget_upd ?sv' // Hv' x1E mtseenS -/x1 val_eqE orbC.
by case: eqP.
Qed.

Lemma mt_ok (M : mat T) : rep m n M f -> wp (mt M) (fun R => rep n m R (fun i j => f j i)).
Proof.
move=> H; rewrite /mt (rep_size H) mn (rep_no_rows H).
have -> : usub q.+2 1 = Ok p by rewrite /usub /= subn1.
cbn [bind]; have [fuel efuel hfuel] : exists2 fuel, fuel = q.+2 & q.+2 <= fuel by exists q.+2.
rewrite -[X in loop_ X]efuel.
have ltN (x : 'I_p) : x < q.+2 by apply: leq_trans (ltn_ord x) _.
have H0 := repr_flat (proj2 H); rewrite mn in H0.
apply: wpe_bind.
apply: (wpe_for (fun c st => [/\ size st.1 = q.+2, size st.2 = q.+2,
    forall k : 'I_p, vget st.1 k = Ok (if mtdone c k then mtD1 k else mtD0 k),
    vget st.1 p = Ok (mtD0 p) &
    forall k : 'I_p, c <= k -> vget st.2 k = Ok (mtdone c k)])) => //.
- have nd (k : 'I_p) : mtdone 1 k = false.
    by apply/existsP => -[c' /andP[/andP[]]]; case: (nat_of_ord c').
  split=> /=.
  + by rewrite (repr1_size H0).
  + by rewrite size_nseq.
  + by move=> k; rewrite nd (repr1_get H0).
  + by rewrite (repr1_get H0).
  + by move=> k _; rewrite nd; apply: (vget_nseq false (ltN k)).
- move=> c0 [d vis] /= /andP[c1 cp] [sd sv Hd Hp Hv].
  pose c : 'I_p := Ordinal cp.
  rewrite (Hv c) //= -/(nat_of_ord c).
  case: (boolP (mtdone c c)) => dc /=.
    have E (k : 'I_p) : mtdone c.+1 k = mtdone c k.
      rewrite mtdoneS //; case: (boolP (fconnect mtpi c k)) => [h|]; last by rewrite orbF.
      by rewrite -(mtdone_conn c h) dc.
    split=> // k; first by rewrite (E k).
    by move=> hk; rewrite (E k); apply: Hv; apply: leq_trans hk.
  have := Hd c; rewrite (negPf dc) => -> /=.
  apply: wpe_mono (@mt_cycle_ok c d vis fuel c1 (negbTE dc) hfuel sd sv Hd Hp).
  move=> [d' vis'] /= [sd' sv' Hd' Hp' Hv']; split=> //.
  + by move=> k; rewrite Hd' (mtdoneS (c:=c)).
  + move=> k hk; rewrite Hv'; last by rewrite -val_eqE /= gtn_eqF.
    rewrite (mtdoneS (c:=c)) //; case: (fconnect _ _ _); rewrite ?orbT // orbF.
    by apply: Hv; apply: leq_trans hk.
move=> [d vis] /= [sd _ Hd Hp _].
rewrite /cols /udiv /= sd -[m == 0]negbK -lt0n m0 /= -mn mulKn //.
have Hfin : repr1 (n * m) d mtD1.
  rewrite mulnC mn; split=> // k hk.
  case: (ltngtP k p) => [lt|gt|->]; last by rewrite Hp mtD_p.
  - rewrite (Hd (Ordinal lt)); case: k hk lt => [|k] hk lt /=.
      by case: ifP => // _; rewrite mtD_0.
    suff -> : mtdone q.+1 (Ordinal lt) by [].
    by apply/existsP; exists (Ordinal lt); rewrite /= ltnS connect0 andbT; rewrite ltnS in lt.
  - by move: hk; rewrite ltnS leqNgt gt.
apply: rep_Mat; apply: repr_ext (flat_repr Hfin) _ => i j hi hj.
by rewrite /mtD1 modnMDl divnMDl // (modn_small hj) (divn_small hj) addn0.
Qed.

End Mt.

Lemma rep_mt T (M : mat T) m n f : rep m n M f -> 0 < m -> 0 < n ->
  wp (mt M) (fun R => rep n m R (fun i j => f j i)).
Proof.
move=> H m0 n0; case E : (m * n) => [|[|q]]; first by nia.
  have [em en] : m = 1 /\ n = 1 by nia.
  rewrite em en in H *; rewrite /mt (rep_size H) /= (rep_no_rows H).
  have Mk : Mat 1 (data M) = M by case: (M) (rep_no_rows H) => r d /= ->.
  rewrite Mk (rep_cols H) //=.
  apply: rep_Mat; apply: repr_ext (proj2 H) _ => i j.
  by rewrite !ltnS !leqn0 => /eqP -> /eqP ->.
exact: (@mt_ok _ m n q f E M H).
Qed.
