(** * QREval: the order of evaluation of qr.rs (new, get_r, get_h), for every
    scalar whose division and square root do not fail (f32, f64). *)
From mathcomp Require Import all_ssreflect zify.
From Verif Require Import Base Scalar Hoare ModelMatrix ModelQR Spec MatrixProofs MatrixProofs2 LUProofs LUEval.

Set Implicit Arguments.
Unset Strict Implicit.
Unset Printing Implicit Defensive.

Section QREval.
Variable S : scalar.
Variables (sdiv : S -> S -> S) (sq : S -> S).
Hypothesis sdivE : forall x y, n_div x y = Ok (sdiv x y).
Hypothesis sqE : forall x, s_sqrt x = Ok (sq x).
Variables m n : nat.

(** the sum over the rows k .. m-1 of x_i y_i, from above *)
Definition qdot (k : nat) (x y : nat -> S) : S := sdot (m - k) (fun i => x (k + i)) (fun i => y (k + i)).
Lemma qdot_ext k x y x' y' : (forall i, k <= i < m -> x i = x' i) -> (forall i, k <= i < m -> y i = y' i) ->
  qdot k x y = qdot k x' y'.
Proof. by move=> h1 h2; apply: sdot_ext => l hl; [apply: h1|apply: h2]; lia. Qed.

Lemma for_qdot k (x y : nat -> S) (body : nat -> S -> res S) : k <= m ->
  (forall i s, k <= i < m -> body i s = Ok (n_add s (n_mul (x i) (y i)))) ->
  for_ k m body (n_zero S) = Ok (qdot k x y).
Proof.
move=> km h; rewrite (for_foldl_nat (h := fun s i => n_add s (n_mul (x i) (y i)))) //; congr Ok.
rewrite /qdot /sdot -[iota k _](_ : [seq k + i | i <- iota 0 (m - k)] = _).
  by elim: (iota 0 (m - k)) (n_zero S) => //= i l IH s; rewrite IH.
by rewrite -iotaDl addn0.
Qed.

(** the new diagonal element, the Householder vector, the factor of column j *)
Definition q_a (k : nat) (f : nat -> nat -> S) : S :=
  let r := sq (qdot k (fun i => f i k) (fun i => f i k)) in
  if s_ltb (n_zero S) (f k k) then n_neg r else r.
Definition q_u (k : nat) (f : nat -> nat -> S) (i : nat) : S := if i == k then n_sub (f k k) (q_a k f) else f i k.
Definition q_fac (k : nat) (f : nat -> nat -> S) (j : nat) : S :=
  sdiv (qdot k (q_u k f) (fun i => f i j)) (n_mul (q_a k f) (q_u k f k)).
Definition q_step (k : nat) (f : nat -> nat -> S) (i j : nat) : S :=
  if s_eqb (q_a k f) (n_zero S) then f i j
  else if j == k then q_u k f i
  else if (k < j) && (k <= i) then n_add (f i j) (n_mul (q_fac k f j) (q_u k f i))
  else f i j.
Fixpoint q_seq (a : nat -> nat -> S) (k : nat) : nat -> nat -> S :=
  if k is k'.+1 then q_step k' (q_seq a k') else a.
Definition q_rd (a : nat -> nat -> S) (k : nat) : S := q_a k (q_seq a k).

Lemma q_step_ext k f f' : k < n -> (k < m) -> (forall i j, i < m -> j < n -> f i j = f' i j) ->
  q_a k f = q_a k f' /\ forall i j, i < m -> j < n -> q_step k f i j = q_step k f' i j.
Proof.
move=> kn km h.
have ha : q_a k f = q_a k f'.
  by rewrite /q_a h //; congr (if _ then n_neg (sq _) else sq _); apply: qdot_ext => i hi; apply: h; lia.
have hu i : i < m -> q_u k f i = q_u k f' i by move=> hi; rewrite /q_u ha !h.
split=> // i j hi hj; rewrite /q_step ha h //; case: ifP => // _; case: ifP => [_|_]; first exact: hu.
case: ifP => // _; rewrite hu //; congr (n_add _ (n_mul _ _)); rewrite /q_fac ha hu //; congr sdiv.
by apply: qdot_ext => l hl; [apply: hu|apply: h]; lia.
Qed.

Lemma qr_norm_ev k d f : k < m -> k < n -> repr m n d f ->
  qr_norm_sqr k m n d = Ok (qdot k (fun i => f i k) (fun i => f i k)).
Proof.
move=> km kn Hd; rewrite /qr_norm_sqr; apply: for_qdot; first exact: ltnW.
by move=> i s hi; rewrite (repr_get Hd) //; lia.
Qed.

Lemma col_update_ev k c w (x : seq S) f (fac : S) (u : nat -> S) (body : nat -> seq S -> res (seq S)) :
  (k <= m)%N -> (c < w)%N -> repr m w x f ->
  (forall row x f', (k <= row < m)%N -> repr m w x f' ->
     (forall i j, (i < m)%N -> (j < w)%N -> j != c -> f' i j = f i j) ->
     (forall i, (row <= i < m)%N -> f' i c = f i c) ->
     body row x = vset x (row * w + c) (n_add (f row c) (n_mul fac (u row)))) ->
  wp (for_ k m body x) (fun x' => repr m w x' (fun i j =>
     if (j == c) && (k <= i)%N then n_add (f i c) (n_mul fac (u i)) else f i j)).
Proof.
move=> km cw Hx Hb.
apply: (wpe_for (fun r x => repr m w x (fun i j =>
     if (j == c) && (k <= i < r)%N then n_add (f i c) (n_mul fac (u i)) else f i j))) => //.
- by apply: repr_ext Hx _ => i j _ _; case: ifP => // /andP[_]; lia.
- move=> row x1 hrow Hx1; rewrite (Hb row x1 _ hrow Hx1).
  + apply: (wpe_repr_set Hx1) => //; first by lia.
    move=> v Hv; apply: repr_ext Hv _ => i j hi hj.
    case: (altP (i =P row)) => [->|ne] /=.
      have -> : (k <= row < row)%N = false by lia.
      by have -> : (k <= row < row.+1)%N by [lia]; rewrite andbF andbT.
    by have -> : (k <= i < row.+1)%N = (k <= i < row)%N by lia.
  + by move=> i j hi hj /negPf ->.
  + move=> i hi; case: ifP => // /andP[_]; lia.
- by move=> x1 Hx1; apply: repr_ext Hx1 _ => i j hi hj; rewrite hi andbT.
Qed.

Lemma qr_reflect_ev k a d f : (k < m)%N -> (k < n)%N -> repr m n d f ->
  wp (qr_reflect k m n a d) (fun d' => repr m n d' (fun i j =>
     if (k < j)%N && (k <= i)%N then
       n_add (f i j) (n_mul (sdiv (qdot k (fun i => f i k) (fun i => f i j)) (n_mul a (f k k))) (f i k)) else f i j)).
Proof.
move=> km kn Hd; rewrite /qr_reflect addn1.
pose G i j := n_add (f i j) (n_mul (sdiv (qdot k (fun i => f i k) (fun i => f i j)) (n_mul a (f k k))) (f i k)).
apply: (wpe_for (fun c d => repr m n d (fun i j => if (k < j < c)%N && (k <= i)%N then G i j else f i j))) => //.
- by apply: repr_ext Hd _ => i j _ _; case: ifP => // /andP[]; lia.
- move=> c d1 hc Hd1; have cn : (c < n)%N by lia.
  rewrite (for_qdot (x := fun i => f i k) (y := fun i => f i c)); [|exact: ltnW|]; last first.
    move=> r s hr; rewrite (repr_get Hd1) //; [|by lia]; cbn [bind].
    rewrite (repr_get Hd1) //; [|by lia]; cbn [bind].
    rewrite ltnn; cbn [andb]; by have -> : (k < c < c)%N = false by lia.
  cbn [bind]; rewrite (repr_get Hd1) //; cbn [bind]; rewrite ltnn; cbn [andb].
  rewrite sdivE; cbn [bind].
  set fac := sdiv _ _.
  apply: wpe_mono; last first.
    apply: (@col_update_ev k c n d1 _ fac (fun r => f r k) _ (ltnW km) cn Hd1).
    move=> row x f' hrow Hx Hne He.
    rewrite (repr_get Hx) //; [|by lia]; cbn [bind].
    rewrite (repr_get Hx) //; [|by lia]; cbn [bind].
    rewrite He; last by lia.
    rewrite Hne //; [|by lia|by lia].
    by rewrite [(k < k < c)%N](_ : _ = false) /=; [have -> : (k < c < c)%N = false by lia|lia].
  move=> x Hx; apply: repr_ext Hx _ => i j hi hj.
  case: (altP (j =P c)) => [->|ne]; cbn [andb].
    have -> : (k < c < c)%N = false by lia.
    by have -> : (k < c < c.+1)%N by [lia]; case: (k <= i)%N.
  by have -> : (k < j < c.+1)%N = (k < j < c)%N by lia.
- by move=> d1 Hd1; apply: repr_ext Hd1 _ => i j hi hj; rewrite hj andbT.
Qed.

Lemma hh_ev k d rd f r : (k < m)%N -> (k < n)%N -> repr m n d f -> repr1 (minn m n) rd r ->
  wp (perform_householder_reflection k m n (d, rd)) (fun st =>
    repr m n st.1 (q_step k f) /\ repr1 (minn m n) st.2 (fun i => if i == k then q_a k f else r i)).
Proof.
move=> km kn Hd Hr; rewrite /perform_householder_reflection (qr_norm_ev km kn Hd).
cbn [bind]; rewrite (repr_get Hd) //; cbn [bind]; rewrite sqE; cbn [bind].
rewrite -/(q_a k f).
apply: wpe_bind; apply: wpe_vset; first by rewrite (repr1_size Hr) leq_min km.
have Hr' : repr1 (minn m n) (upd rd k (q_a k f)) (fun i => if i == k then q_a k f else r i).
  by apply: repr1_upd Hr _ _ => //; rewrite leq_min km.
case: (boolP (s_eqb (q_a k f) (n_zero S))) => a0; cbn [negb].
  apply: wpe_ok; split=> //; by apply: repr_ext Hd _ => i j _ _; rewrite /q_step a0.
apply: wpe_bind; apply: (wpe_repr_set Hd) => // v Hv.
set f1 := (fun i j => _) in Hv.
apply: wpe_bind; apply: wpe_mono (qr_reflect_ev (q_a k f) km kn Hv).
move=> d1 Hd1; apply: wpe_ok; split=> //; apply: repr_ext Hd1 _ => i j hi hj.
have f1k i' : f1 i' k = q_u k f i' by rewrite /f1 /q_u eqxx andbT.
have f1j i' j' : j' != k -> f1 i' j' = f i' j' by rewrite /f1 => /negPf ->; rewrite andbF.
rewrite /q_step (negPf a0); case: (altP (j =P k)) => [->|nj].
  by rewrite ltnn; cbn [andb]; rewrite f1k.
case: ifP => h; last by rewrite f1j.
rewrite f1j // !f1k; congr (n_add _ (n_mul (sdiv _ _) _)).
by apply: qdot_ext => i' _; [rewrite f1k|rewrite f1j].
Qed.

Variables (M : mat S) (a : nat -> nat -> S).
Hypothesis HM : rep m n M a.
Hypothesis m0 : 0 < m.
Hypothesis n0 : 0 < n.
Local Notation mn := (minn m n).

Lemma qr_new_ev g : wp (qr_new g M) (fun d => rep m n (qr d) (q_seq a mn) /\ repr1 mn (rdiag d) (q_rd a)).
Proof.
have [_ Hrepr] := HM.
rewrite /qr_new (rep_cols HM) //; cbn [bind]; rewrite /rows (rep_no_rows HM).
apply: wpe_bind.
apply: (wpe_for (fun k st => repr m n st.1 (q_seq a k) /\
   exists r, repr1 mn st.2 r /\ forall i, i < k -> r i = q_rd a i)) => //.
- split; first exact: Hrepr.
  exists (nth (n_zero S) (alloc_dirty_vec g mn)); split=> //.
  by have := repr1_nth (n_zero S) (alloc_dirty_vec g mn); rewrite size_alloc.
- move=> k [d rd] /= hk [Hd [r [Hr rE]]].
  apply: wpe_mono (hh_ev _ _ Hd Hr); [|lia|lia].
  move=> [d1 r1] /= [H1 H2]; split=> //; eexists; split; first exact: H2.
  move=> i hi; cbn beta; case: (altP (i =P k)) => [->//|ne]; apply: rE; lia.
move=> [d rd] /= [Hd [r [Hr rE]]]; apply: wpe_bind; apply: wpe_mono (new_rep m0 n0 Hd) => Q HQ.
by apply: wpe_ok; split=> //; apply: repr1_ext Hr _.
Qed.

(** the upper trapezoidal matrix after k steps *)
Definition wfnS (f : nat -> nat -> S) (r : nat -> S) k i j : S :=
  if (j < k)%N then (if (i < j)%N then f i j else if i == j then r j else n_zero S) else f i j.
Definition hfnS (f : nat -> nat -> S) i j : S := if (j <= i)%N then f i j else n_zero S.

Section Getters.
Variables (d : qr_decomp S) (f : nat -> nat -> S) (r : nat -> S).
Hypothesis Hd : rep m n (qr d) f.
Hypothesis Hr : repr1 mn (rdiag d) r.

Lemma qr_get_r_ev g : wp (qr_get_r g d) (fun R => rep m n R (wfnS f r mn)).
Proof.
rewrite /qr_get_r (rep_cols Hd) //; cbn [bind]; rewrite /rows (rep_no_rows Hd).
apply: wpe_bind.
apply: wpe_mono (for_fill2 (G := wfnS f r mn) _ _ _); last 2 first.
- by rewrite size_alloc.
- move=> i j d1 hi hj _; rewrite /wfnS.
  case: (ltnP j mn) => jm.
    case: (ltnP i j) => ij; first by rewrite /get_data (rep_vget Hd).
    case: (altP (i =P j)) => [->|ne] //; by rewrite (repr1_get Hr).
  have -> : (i < j)%N by move: jm; rewrite geq_min; lia.
  by rewrite /get_data (rep_vget Hd).
by move=> x Hx; apply: new_rep.
Qed.

Lemma qr_get_h_ev g : wp (qr_get_h g d) (fun R => rep m n R (hfnS f)).
Proof.
rewrite /qr_get_h (rep_cols Hd) //; cbn [bind]; rewrite /rows (rep_no_rows Hd).
apply: wpe_bind.
apply: wpe_mono (for_fill2 (G := hfnS f) _ _ _); last 2 first.
- by rewrite size_alloc.
- by move=> i j d1 hi hj _; rewrite /hfnS; case: ifP => // ij; rewrite /get_data (rep_vget Hd).
by move=> x Hx; apply: new_rep.
Qed.

(** get_q: the reflections applied, last first, to the identity *)
Definition q_back (k : nat) (h : nat -> nat -> S) (i j : nat) : S :=
  if s_eqb (f k k) (n_zero S) then h i j
  else if (k <= j) && (k <= i) then
    n_add (h i j) (n_mul (sdiv (qdot k (fun l => f l k) (fun l => h l j)) (n_mul (r k) (f k k))) (f i k))
  else h i j.
Fixpoint q_gs (t : nat) : nat -> nat -> S :=
  if t is t'.+1 then q_back (mn - t) (q_gs t') else fun i j => if (i == j) && (i < mn) then n_one S else n_zero S.

Lemma qr_apply_q_ev k q h : k < mn -> s_eqb (f k k) (n_zero S) = false -> repr m m q h ->
  wp (qr_apply_q d m n k q) (fun q' => repr m m q' (q_back k h)).
Proof.
move=> hk u0 Hq; move: (hk); rewrite leq_min => /andP[km kn].
rewrite /qr_apply_q.
apply: (wpe_for (fun c q => repr m m q (fun i j =>
     if (k <= j < c)%N && (k <= i)%N then q_back k h i j else h i j))) => //; first exact: ltnW.
- by apply: repr_ext Hq _ => i j _ _; case: ifP => // /andP[]; lia.
- move=> c q1 hc Hq1; have cm : (c < m)%N by lia.
  have cc : (k <= c < c)%N = false by lia.
  rewrite (for_qdot (x := fun l => f l k) (y := fun l => h l c)); [|exact: ltnW|]; last first.
    move=> l s hl; rewrite /get_data (rep_vget Hd) //; [|by lia]; cbn [bind].
    rewrite (repr_get Hq1) //; [|by lia]; cbn [bind].
    by rewrite cc.
  cbn [bind]; rewrite (repr1_get Hr) //; cbn [bind]; rewrite /get_data (rep_vget Hd) //; cbn [bind].
  rewrite sdivE; cbn [bind].
  set fac := sdiv _ _.
  apply: wpe_mono; last first.
    apply: (@col_update_ev k c m q1 _ fac (fun r => f r k) _ (ltnW km) cm Hq1).
    move=> row x f' hrow Hx Hne He.
    rewrite (repr_get Hx) //; [|by lia]; cbn [bind].
    rewrite (rep_vget Hd) //; [|by lia]; cbn [bind].
    by rewrite He; last by lia.
  move=> x Hx; apply: repr_ext Hx _ => i j hi hj.
  case: (altP (j =P c)) => [->|ne]; cbn [andb].
    rewrite cc; have -> : (k <= c < c.+1)%N by lia.
    case: (leqP k i) => ki //=; by rewrite /q_back u0 ki; have -> : (k <= c)%N by lia.
  by have -> : (k <= j < c.+1)%N = (k <= j < c)%N by lia.
- move=> q1 Hq1; apply: repr_ext Hq1 _ => i j hi hj; rewrite hj andbT /q_back u0.
  by case: (_ && _).
Qed.

Lemma qr_get_q_ev : wp (qr_get_q d) (fun Q => rep m m Q (q_gs mn)).
Proof.
rewrite /qr_get_q (rep_cols Hd) //; cbn [bind]; rewrite /rows (rep_no_rows Hd).
apply: wpe_bind; apply: (wpe_for (fun k q => repr m m q (fun i j => if (i == j) && (i < k)%N then n_one S else n_zero S))) => //.
- split; first by rewrite size_nseq.
  by move=> i j hi hj; rewrite vget_nseq ?idx_lt // ltn0 andbF.
- move=> k q hk Hq; have km : (k < m)%N by move: hk; rewrite leq_min; lia.
  apply: (wpe_repr_set Hq) => // v Hv; apply: repr_ext Hv _ => i j hi hj.
  rewrite ltnS; case: (altP (i =P k)) => [->|ne] /=; last first.
    by have -> : (i <= k)%N = (i < k)%N by lia.
  by rewrite ltnn leqnn andbF andbT eq_sym; case: (k == j).
move=> q0 Hq0; apply: wpe_bind.
apply: (wpe_for_rev (fun k q => repr m m q (q_gs (mn - k)))) => //.
- by rewrite subnn.
- move=> k q hk Hq; have hk' : (k < mn)%N by lia.
  move: (hk'); rewrite leq_min => /andP[km kn].
  rewrite /get_data (rep_vget Hd) //; cbn [bind].
  have -> : (mn - k = (mn - k.+1).+1)%N by lia.
  have e : (mn - (mn - k.+1).+1 = k)%N by lia.
  rewrite [q_gs _.+1]/(q_back (mn - (mn - k.+1).+1) (q_gs (mn - k.+1))) e.
  case: (boolP (s_eqb (f k k) (n_zero S))) => u0; cbn [negb].
    exact: wpe_ok.
  apply: wpe_mono (qr_apply_q_ev hk' (negPf u0) Hq) => q' Hq'; apply: repr_ext Hq' _ => i j _ _.
  by rewrite /q_back (negPf u0).
by rewrite subn0 => q Hq; apply: new_rep Hq.
Qed.
End Getters.
End QREval.
