(** * QRProofs: the QR decomposition (src/decomp/qr.rs) in exact arithmetic. *)
From mathcomp Require Import all_ssreflect all_algebra zify ring.
From mathcomp Require Import fingroup perm.
From Verif Require Import Base Scalar Hoare ModelMatrix ModelLU ModelQR Spec MatrixProofs MatrixProofs2 LUProofs LUThms.

Set Implicit Arguments.
Unset Strict Implicit.
Unset Printing Implicit Defensive.
Import Order.TTheory GRing.Theory Num.Theory.
Local Open Scope ring_scope.

Section QR.
Variable F : rcfType.
Variables eps tiny : F.
Local Notation S := (exactE eps tiny).
Variables m n : nat.

(** one column update: y + fac * u on the rows k.. *)
Lemma col_update_ok k c w (x : seq F) f (fac : F) (u : nat -> F) (body : nat -> seq F -> res (seq F)) :
  (k <= m)%N -> (c < w)%N -> repr m w x f ->
  (forall row x f', (k <= row < m)%N -> repr m w x f' ->
     (forall i j, (i < m)%N -> (j < w)%N -> j != c -> f' i j = f i j) ->
     (forall i, (row <= i < m)%N -> f' i c = f i c) ->
     body row x = vset x (row * w + c) (f row c + fac * u row)) ->
  wp (for_ k m body x) (fun x' => repr m w x' (fun i j =>
     if (j == c) && (k <= i)%N then f i c + fac * u i else f i j)).
Proof.
move=> km cw Hx Hb.
apply: (wpe_for (fun r x => repr m w x (fun i j =>
     if (j == c) && (k <= i < r)%N then f i c + fac * u i else f i j))) => //.
- by apply: repr_ext Hx _ => i j _ _; case: ifP => // /andP[_]; lia.
- move=> row x1 hrow Hx1; rewrite (Hb row x1 _ hrow Hx1).
  + apply: (wpe_repr_set Hx1) => //; first by lia.
    move=> v Hv; apply: repr_ext Hv _ => i j hi hj.
    case: (altP (i =P row)) => [->|ne] /=.
      have -> : (k <= row < row)%N = false by lia.
      by have -> : (k <= row < row.+1)%N by [lia]; rewrite andbF andbT.
    by have -> : (k <= i < row.+1)%N = (k <= i < row)%N by lia.
  + by move=> i j hi hj /negPf ->.
  + move=> i hi; case: ifP => // /andP[_]; lia.
- by move=> x1 Hx1; apply: repr_ext Hx1 _ => i j hi hj; rewrite hi andbT.
Qed.

Lemma qr_norm_sqr_ok k d f : (k < m)%N -> (k < n)%N -> repr m n d f ->
  qr_norm_sqr (S:=S) k m n d = Ok (\sum_(k <= i < m) f i k * f i k).
Proof.
move=> km kn Hd; rewrite /qr_norm_sqr (for_sum0 (G := fun i => f i k * f i k)) //.
by move=> i s hi; rewrite (repr_get Hd) //; lia.
Qed.

Definition dotk (f : nat -> nat -> F) k j := \sum_(k <= r < m) f r k * f r j.

Lemma qr_reflect_ok k a d f : (k < m)%N -> (k < n)%N -> a != 0 -> f k k != 0 -> repr m n d f ->
  wp (qr_reflect (S:=S) k m n a d) (fun d' => repr m n d' (fun i j =>
     if (k < j)%N && (k <= i)%N then f i j + dotk f k j / (a * f k k) * f i k else f i j)).
Proof.
move=> km kn a0 u0 Hd; rewrite /qr_reflect addn1.
apply: (wpe_for (fun c d => repr m n d (fun i j =>
     if (k < j < c)%N && (k <= i)%N then f i j + dotk f k j / (a * f k k) * f i k else f i j))) => //.
- by apply: repr_ext Hd _ => i j _ _; case: ifP => // /andP[]; lia.
- move=> c d1 hc Hd1; have cn : (c < n)%N by lia.
  rewrite (for_sum0 (G := fun r => f r k * f r c)); last first.
    move=> r s hr; rewrite (repr_get Hd1) //; [|by lia]; cbn [bind].
    rewrite (repr_get Hd1) //; [|by lia]; cbn [bind].
    rewrite ltnn /=; by have -> /= : (k < c < c)%N = false by lia.
  cbn [bind]; rewrite (repr_get Hd1) //; cbn [bind]; rewrite ltnn /=.
  rewrite mulf_eq0 (negPf a0) (negPf u0) /=.
  set fac := _ / _.
  apply: wpe_mono; last first.
    apply: (@col_update_ok k c n d1 _ fac (fun r => f r k) _ (ltnW km) cn Hd1).
    move=> row x f' hrow Hx Hne He.
    rewrite (repr_get Hx) //; [|by lia]; cbn [bind].
    rewrite (repr_get Hx) //; [|by lia]; cbn [bind].
    rewrite He; last by lia.
    rewrite Hne //; [|by lia|by lia].
    by rewrite [(k < k < c)%N](_ : _ = false) /=; [have -> : (k < c < c)%N = false by lia|lia].
  move=> x Hx; apply: repr_ext Hx _ => i j hi hj.
  case: (altP (j =P c)) => [->|ne] /=.
    have -> : (k < c < c)%N = false by lia.
    by have -> : (k < c < c.+1)%N by [lia]; case: (k <= i)%N.
  by have -> : (k < j < c.+1)%N = (k < j < c)%N by lia.
- by move=> d1 Hd1; apply: repr_ext Hd1 _ => i j hi hj; rewrite hj andbT.
Qed.

(** The facts about one reflection: [f] before, [f'] after, [a] the new
    diagonal element. *)
Definition hh_step (k : nat) (f f' : nat -> nat -> F) (a : F) : Prop :=
  [/\ a * a = \sum_(k <= i < m) f i k * f i k,
      a = 0 -> forall i j, (i < m)%N -> (j < n)%N -> f' i j = f i j &
      a != 0 -> f k k - a != 0 /\
        forall i j, (i < m)%N -> (j < n)%N -> f' i j =
          if (j == k) && (k <= i)%N then (if i == k then f k k - a else f i k)
          else if (k < j)%N && (k <= i)%N then
            f i j + dotk (fun i j => if (i == k) && (j == k) then f k k - a else f i j) k j /
                     (a * (f k k - a)) * (if i == k then f k k - a else f i k)
          else f i j].

Lemma hh_ok k d rd f r : (k < m)%N -> (k < n)%N -> repr m n d f -> repr1 (minn m n) rd r ->
  wp (perform_householder_reflection (S:=S) k m n (d, rd)) (fun st => exists f' a,
    [/\ repr m n st.1 f', repr1 (minn m n) st.2 (fun i => if i == k then a else r i) & hh_step k f f' a]).
Proof.
move=> km kn Hd Hr; rewrite /perform_householder_reflection (qr_norm_sqr_ok km kn Hd).
cbn [bind]; rewrite (repr_get Hd) //; cbn [bind].
set ss := \sum_(k <= i < m) _.
have ss0 : 0 <= ss by rewrite /ss; apply: sumr_ge0 => i _; rewrite -expr2 sqr_ge0.
rewrite /= ltNge ss0 /=.
set a := (if _ then _ else _).
have aa : a * a = ss by rewrite /a; case: ifP => _; rewrite ?mulrNN -expr2 sqr_sqrtr.
apply: wpe_bind; apply: wpe_vset; first by rewrite (repr1_size Hr) leq_min km.
have Hr' : repr1 (minn m n) (upd rd k a) (fun i => if i == k then a else r i).
  by apply: repr1_upd Hr _ _ => //; rewrite leq_min km.
case: (altP (a =P 0)) => [a0|a0] /=.
  exists f, a; split=> //; split=> // h; by rewrite a0 eqxx in h.
apply: wpe_bind; apply: (wpe_repr_set Hd) => // v Hv.
have u0 : f k k - a != 0.
  rewrite subr_eq0 /a; case: (Order.TotalTheory.ltP 0 (f k k)) => h.
    by rewrite gt_eqF // (le_lt_trans _ h) // oppr_le0 sqrtr_ge0.
  apply/negP => /eqP e; move: a0; rewrite /a ltNge h /= -e; case/negP; apply/eqP.
  by apply: le_anti; rewrite h e sqrtr_ge0.
set f1 := (fun i j => _) in Hv.
have f1k : f1 k k = f k k - a by rewrite /f1 !eqxx.
apply: wpe_bind; apply: wpe_mono (qr_reflect_ok km kn a0 _ Hv); last by rewrite f1k.
move=> d1 Hd1 /=; eexists; exists a; split; [exact: Hd1|by []|split=> //].
  by move=> h; rewrite h eqxx in a0.
move=> _; split=> // i j hi hj.
case: (altP (j =P k)) => [->|nj] /=.
  rewrite ltnn /= /f1 eqxx andbT; case: (altP (i =P k)) => [->|ni]; first by rewrite leqnn.
  by case: ifP.
have fj i' : f1 i' j = f i' j by rewrite /f1 (negPf nj) andbF.
rewrite fj f1k; case: ifP => // _; congr (_ + _ * _).
by rewrite /f1 eqxx andbT; case: eqP => // ->.
Qed.

(** ** Reflections as matrices *)
Definition ucol (f : nat -> nat -> F) k : 'cV[F]_m := \col_i (if (k <= i)%N then f i k else 0).
Definition refl (f : nat -> nat -> F) (r : nat -> F) k : 'M[F]_m :=
  if r k == 0 then 1%:M else 1%:M + (r k * f k k)^-1 *: (ucol f k *m (ucol f k)^T).

(** the partially triangularised matrix that the data represents *)
Definition wfn (f : nat -> nat -> F) (r : nat -> F) k i j : F :=
  if (j < k)%N then (if (i < j)%N then f i j else if i == j then r j else 0) else f i j.
Definition wmx (f : nat -> nat -> F) (r : nat -> F) k : 'M[F]_(m, n) := mxf m n (wfn f r k).

Lemma refl_tr f r k : (refl f r k)^T = refl f r k.
Proof.
rewrite /refl; case: ifP => _; first by rewrite trmx1.
by rewrite linearD /= trmx1 linearZ /= trmx_mul trmxK.
Qed.

Lemma ucol_sq f k : ((ucol f k)^T *m ucol f k) = (\sum_(k <= i < m) f i k * f i k)%:M.
Proof.
apply/matrixP => i j; rewrite !mxE !ord1 eqxx mulr1n.
rewrite (eq_bigr (fun i : 'I_m => if (k <= i)%N then f i k * f i k else 0)); last first.
  by move=> l _; rewrite !mxE; case: ifP => _; rewrite ?mulr0.
rewrite (sum_fn m (fun i => if (k <= i)%N then f i k * f i k else 0)).
case: (leqP k m) => km.
  rewrite (@big_cat_nat _ _ _ k) //= big_nat big1 ?add0r.
    by apply: eq_big_nat => l /andP[-> _].
  by move=> l /andP[_ hl]; rewrite leqNgt hl.
rewrite [RHS]big_geq; last exact: ltnW.
by rewrite big_nat big1 // => l /andP[_ hl]; have -> : (k <= l)%N = false by lia.
Qed.

(** orthogonality of a reflection *)
Definition hh_ok_at (f : nat -> nat -> F) (r : nat -> F) (k : nat) : Prop :=
  r k != 0 -> f k k != 0 /\ \sum_(k <= i < m) f i k * f i k = - (r k * f k k) *+ 2.

Lemma refl_invol f r k : hh_ok_at f r k -> refl f r k *m refl f r k = 1%:M.
Proof.
rewrite /hh_ok_at /refl; case: (altP (r k =P 0)) => [_ _|r0 /(_ isT) [f0 ss]]; first by rewrite mulmx1.
set u := ucol f k; set c := r k * f k k; have c0 : c != 0 by rewrite mulf_neq0.
rewrite mulmxDl mul1mx mulmxDr mulmx1 -scalemxAl -scalemxAr mulmxA -(mulmxA u).
rewrite ucol_sq ss mul_mx_scalar -scalemxAl !scalerA -addrA -!scalerDl.
rewrite -/c; have -> : c^-1 + (c^-1 + c^-1 * (c^-1 * (- c *+ 2))) = 0; last by rewrite scale0r addr0.
by rewrite mulr2n mulrDr !mulrN mulVf //; ring.
Qed.

Lemma refl_orth f r k : hh_ok_at f r k -> (refl f r k)^T *m refl f r k = 1%:M.
Proof. by move=> H; rewrite refl_tr refl_invol. Qed.

(** applying a reflection to a column *)
Lemma sum_from (G : nat -> F) k : (k <= m)%N ->
  \sum_(l < m) (if (k <= l)%N then G l else 0) = \sum_(k <= l < m) G l.
Proof.
move=> km; rewrite (sum_fn m (fun i => if (k <= i)%N then G i else 0)).
rewrite (@big_cat_nat _ _ _ k) //= big_nat big1 ?add0r.
  by apply: eq_big_nat => l /andP[-> _].
by move=> l /andP[_ hl]; rewrite leqNgt hl.
Qed.

Lemma refl_app f r k p (g : nat -> nat -> F) (i : 'I_m) (j : 'I_p) : (k <= m)%N -> r k != 0 ->
  (refl f r k *m mxf m p g) i j = g i j +
    (\sum_(k <= l < m) f l k * g l j) / (r k * f k k) * (if (k <= i)%N then f i k else 0).
Proof.
rewrite /refl => km /negPf ->; rewrite mulmxDl mul1mx mxE -scalemxAl [X in _ + X]mxE mxE; congr (_ + _).
rewrite -mulmxA mxE big_ord1 mxE [X in _ * (_ * X)]mxE.
rewrite -(sum_from _ km); set s1 := \sum_(l < m) _; set s2 := \sum_(l < m) _.
have -> : s1 = s2.
  by apply: eq_bigr => l _; rewrite !mxE; case: ifP; rewrite ?mul0r.
by rewrite [_ * s2]mulrC !mulrA [_^-1 * _]mulrC.
Qed.

(** one step of the invariant *)
Lemma hh_step_mx k f f' r a : (k < m)%N -> (k < n)%N -> hh_step k f f' a ->
  let r' := fun i => if i == k then a else r i in
  [/\ hh_ok_at f' r' k, wmx f r k = refl f' r' k *m wmx f' r' k.+1,
      (forall l, (l < k)%N -> refl f' r' l = refl f r l) &
      (forall l, (l < k)%N -> hh_ok_at f r l -> hh_ok_at f' r' l)].
Proof.
move=> km kn [aa H0 H1] r'.
have r'k : r' k = a by rewrite /r' eqxx.
have col l i : (l < k)%N -> (l < n)%N -> (i < m)%N -> f' i l = f i l.
  move=> lk ln im; case: (altP (a =P 0)) => [a0|a0]; first by rewrite H0.
  have [_ ->] := H1 a0 => //.
  have -> : (l == k) = false by lia.
  by have -> : (k < l)%N = false by lia.
have r'l l : (l < k)%N -> r' l = r l by rewrite /r' => lk; have -> : (l == k) = false by lia.
have uE l : (l < k)%N -> ucol f' l = ucol f l.
  move=> lk; apply/matrixP => i j; rewrite !mxE; case: ifP => // _.
  by rewrite col //; lia.
have Hok : hh_ok_at f' r' k.
  move=> h; rewrite r'k in h *; have [u0 H] := H1 h.
  have fkk : f' k k = f k k - a by rewrite H // eqxx leqnn.
  split; first by rewrite fkk.
  rewrite big_ltn // fkk.
  have -> : \sum_(k.+1 <= i < m) f' i k * f' i k = \sum_(k.+1 <= i < m) f i k * f i k.
    apply: eq_big_nat => i hi; rewrite H //; [|by lia].
    rewrite eqxx; have -> : (k <= i)%N by lia.
    by have -> : (i == k) = false by lia.
  rewrite big_ltn // in aa; move/eqP: aa; rewrite addrC -subr_eq => /eqP <-.
  by rewrite mulr2n; ring.
split=> //.
- have Wout (i : 'I_m) (j : 'I_n) : (i < k)%N -> wmx f r k i j = wmx f' r' k.+1 i j.
    move=> ik; rewrite !mxE.
    have fE : f' i j = f i j.
      case: (altP (a =P 0)) => [a0|a0]; first by rewrite H0.
      have [_ ->] := H1 a0 => //; have -> : (k <= i)%N = false by lia.
      by rewrite !andbF.
    rewrite /wfn fE; case: (ltngtP j k) => jk.
    + by have -> : (j < k.+1)%N by [lia]; rewrite r'l.
    + by have -> : (j < k.+1)%N = false by lia.
    + by have -> : (j < k.+1)%N by [lia]; have -> : (i < j)%N by lia.
  case: (altP (a =P 0)) => [a0|a0].
    rewrite /refl r'k a0 eqxx mul1mx; apply/matrixP => i j.
    case: (ltnP i k) => ik; first exact: Wout.
    rewrite !mxE /wfn H0 //; case: (ltngtP j k) => jk.
    + by have -> : (j < k.+1)%N by [lia]; rewrite r'l.
    + by have -> : (j < k.+1)%N = false by lia.
    + have -> : (j < k.+1)%N by lia.
      have -> : (i < j)%N = false by lia.
      rewrite jk r'k a0.
      have -> : f i k = 0.
        have : \sum_(k <= i0 < m) f i0 k * f i0 k = 0 by rewrite -aa a0 mul0r.
        rewrite (@big_cat_nat _ _ _ i) //=; [|exact: ltnW].
        rewrite (@big_ltn _ _ _ i) // => /eqP.
        have nn lo hi : 0 <= \sum_(lo <= i0 < hi) f i0 k * f i0 k.
          by apply: sumr_ge0 => l _; rewrite -expr2 sqr_ge0.
        rewrite addrCA paddr_eq0 ?addr_ge0 //; last by rewrite -expr2 sqr_ge0.
        by rewrite mulf_eq0 orbb => /andP[/eqP -> _].
      by case: eqP.
  have [u0 H] := H1 a0.
  have fkk : f' k k = f k k - a by rewrite H // eqxx leqnn.
  have uE' i : (k <= i < m)%N -> f' i k = if i == k then f k k - a else f i k.
    by move=> hi; rewrite H //; [rewrite eqxx; have -> : (k <= i)%N by lia|lia].
  have inv := refl_invol Hok.
  suff -> : wmx f' r' k.+1 = refl f' r' k *m wmx f r k by rewrite mulmxA inv mul1mx.
  apply/matrixP => i j; rewrite refl_app ?r'k //; last exact: ltnW.
  case: (ltnP i k) => ik; first by rewrite mulr0 addr0 -Wout // mxE.
  rewrite mxE fkk (uE' i) ?ik ?ltn_ord //.
  have sumE : \sum_(k <= l < m) f' l k * wfn f r k l j =
     dotk (fun i j => if (i == k) && (j == k) then f k k - a else f i j) k k * 0 +
     \sum_(k <= l < m) (if l == k then f k k - a else f l k) * wfn f r k l j.
    rewrite mulr0 add0r; apply: eq_big_nat => l hl; by rewrite uE'.
  rewrite sumE mulr0 add0r; case: (ltngtP j k) => jk.
  + (* already reduced column *)
    rewrite [X in X / _]big_nat [X in X / _]big1 ?mul0r ?addr0; last first.
      move=> l hl; rewrite /wfn jk; have -> : (l < j)%N = false by lia.
      by have -> : (l == j) = false by [lia]; rewrite mulr0.
    rewrite /wfn jk; have -> : (j < k.+1)%N by lia.
    have -> : (i < j)%N = false by lia.
    by rewrite r'l.
  + (* column to the right *)
    rewrite {1}/wfn; have -> : (j < k.+1)%N = false by lia.
    rewrite H // jk ik; have -> /= : (j == k :> nat) = false by lia.
    rewrite {1}/wfn; have -> : (j < k)%N = false by lia.
    congr (_ + _ / _ * _); apply: eq_big_nat => l hl.
    rewrite eqxx andbT; have -> : (j == k :> nat) = false by lia.
    rewrite andbF /wfn; have -> : (j < k)%N = false by lia.
    by case: eqP => // ->.
  + (* the column itself *)
    rewrite jk /wfn ltnSn ltnn; have -> : (i < k)%N = false by lia.
    have -> : \sum_(k <= l < m) (if l == k then f k k - a else f l k) * f l k = - (a * (f k k - a)).
      rewrite big_ltn // eqxx.
      have -> : \sum_(k.+1 <= l < m) (if l == k then f k k - a else f l k) * f l k =
                \sum_(k.+1 <= l < m) f l k * f l k.
        by apply: eq_big_nat => l hl; have -> : (l == k) = false by lia.
      rewrite big_ltn // in aa; move/eqP: aa; rewrite addrC -subr_eq => /eqP <-.
      by ring.
    rewrite mulNr divff ?mulf_neq0 // r'k; case: (altP (i =P k :> nat)) => [->|ne].
      by ring.
    by rewrite mulN1r subrr.
- by move=> l lk; rewrite /refl uE // r'l // col //; lia.
- move=> l lk h; rewrite /hh_ok_at r'l // col //; [|by lia|by lia].
  move=> /h [h1 h2]; split=> //; rewrite -h2; apply: eq_big_nat => i hi.
  by rewrite col //; lia.
Qed.

(** the product of the first k reflections *)
Fixpoint hprod (f : nat -> nat -> F) (r : nat -> F) k : 'M[F]_m :=
  if k is k'.+1 then hprod f r k' *m refl f r k' else 1%:M.

Lemma hprod_orth f r k : (forall l, (l < k)%N -> hh_ok_at f r l) ->
  (hprod f r k)^T *m hprod f r k = 1%:M.
Proof.
elim: k => [|k IH] H /=; first by rewrite trmx1 mulmx1.
rewrite trmx_mul mulmxA -(mulmxA _ _ (hprod f r k)) IH ?mulmx1; last by move=> l hl; apply: H; lia.
by rewrite refl_orth //; apply: H.
Qed.

Lemma hprod_orth' f r k : (forall l, (l < k)%N -> hh_ok_at f r l) ->
  hprod f r k *m (hprod f r k)^T = 1%:M.
Proof. by move=> H; apply: mulmx1C; apply: hprod_orth. Qed.

Lemma hprod_ext f r f' r' k : (forall l, (l < k)%N -> refl f' r' l = refl f r l) ->
  hprod f' r' k = hprod f r k.
Proof.
elim: k => [|k IH] H //=; rewrite IH ?H // => l hl; apply: H; lia.
Qed.

(** what the decomposition of the matrix with elements [a] is *)
Definition qr_ok (a f : nat -> nat -> F) (r : nat -> F) k : Prop :=
  [/\ (forall l, (l < k)%N -> hh_ok_at f r l),
      (forall l, (l < k)%N -> r l = 0 -> forall i, (l <= i < m)%N -> f i l = 0) &
      mxf m n a = hprod f r k *m wmx f r k].

Lemma qr_new_ok g M a : rep m n M a -> (0 < m)%N -> (0 < n)%N ->
  wp (qr_new (S:=S) g M) (fun d => exists f r,
    [/\ rep m n (qr d) f, repr1 (minn m n) (rdiag d) r & qr_ok a f r (minn m n)]).
Proof.
move=> HM m0 n0; rewrite /qr_new (rep_cols HM) // [bind _ _]/= /rows (rep_no_rows HM) /get_data.
apply: wpe_bind; apply: (wpe_for (fun k st => exists f r,
   [/\ repr m n st.1 f, repr1 (minn m n) st.2 r & qr_ok a f r k])) => //.
- exists a, g; split; [by case: HM|exact: repr1_mkseq|split=> //].
  by rewrite /= mul1mx; apply/matrixP => i j; rewrite !mxE.
- move=> k [d rd] hk [f [r [/= Hd Hr [H1 H2 H3]]]].
  have km : (k < m)%N by move: hk; rewrite leq_min; lia.
  have kn : (k < n)%N by move: hk; rewrite leq_min; lia.
  apply: wpe_mono (hh_ok km kn Hd Hr) => -[d' rd'] [f' [x [/= Hd' Hr' Hs]]].
  have [S1 S2 S3 S4] := hh_step_mx r km kn Hs.
  set r' := (fun i => if i == k then x else r i) in S1 S2 S3 S4 Hr' *.
  exists f', r'; split=> //; split.
  + move=> l; rewrite ltnS leq_eqVlt => /orP[/eqP ->|lk] //.
    by apply: S4 => //; apply: H1.
  + move=> l; rewrite ltnS leq_eqVlt => /orP[/eqP ->|lk].
      rewrite /r' eqxx => x0 i hi; case: Hs => [e E0 _]; rewrite E0 //; [|by lia].
      move: e; rewrite x0 mul0r => /esym/eqP; rewrite big_nat_cond psumr_eq0; last first.
        by move=> l' _; rewrite -expr2 sqr_ge0.
      move/allP/(_ i); rewrite mem_index_iota hi /= => /(_ isT).
      by rewrite -expr2 sqrf_eq0 => /eqP.
    have e : (l == k) = false by lia.
    rewrite /r' e => r0 i hi; have := H2 l lk r0 i hi.
    case: Hs => [_ E0 E1]; have ln : (l < n)%N by lia.
    have im : (i < m)%N by lia.
    case: (altP (x =P 0)) => [x0|x0]; first by rewrite E0.
    have [_ ->] := E1 x0 => //; rewrite e /=.
    by have -> : (k < l)%N = false by lia.
  + by rewrite H3 S2 mulmxA /= (hprod_ext S3).
- move=> [d rd] [f [r [/= Hd Hr H]]].
  apply: wpe_bind; apply: wpe_mono (new_rep m0 n0 Hd) => Q HQ /=.
  by exists f, r.
Qed.

Section Getters.
Variables (d : qr_decomp S) (f : nat -> nat -> F) (r : nat -> F) (a : nat -> nat -> F).
Hypothesis Hd : rep m n (qr d) f.
Hypothesis Hr : repr1 (minn m n) (rdiag d) r.
Hypothesis Hok : qr_ok a f r (minn m n).
Hypothesis m0 : (0 < m)%N.
Hypothesis n0 : (0 < n)%N.
Local Notation mn := (minn m n).

Lemma qr_get_r_ok g : wp (qr_get_r g d) (fun R => rep m n R (wfn f r mn)).
Proof.
rewrite /qr_get_r (rep_cols Hd) //= /rows (rep_no_rows Hd).
apply: wpe_bind.
apply: wpe_mono (for_fill2 (G := wfn f r mn) _ _ _); last 2 first.
- by rewrite size_alloc.
- move=> i j d1 hi hj _; rewrite /wfn.
  case: (ltnP j mn) => jm.
    case: (ltnP i j) => ij; first by rewrite (rep_vget Hd).
    case: (altP (i =P j)) => [->|ne] //=; by rewrite (repr1_get Hr).
  have -> : (i < j)%N by move: jm; rewrite geq_min; lia.
  by rewrite (rep_vget Hd).
by move=> x Hx; apply: new_rep.
Qed.

Definition hfn i j : F := if (j <= i)%N then f i j else 0.

Lemma qr_get_h_ok g : wp (qr_get_h g d) (fun R => rep m n R hfn).
Proof.
rewrite /qr_get_h (rep_cols Hd) //= /rows (rep_no_rows Hd).
apply: wpe_bind.
apply: wpe_mono (for_fill2 (G := hfn) _ _ _); last 2 first.
- by rewrite size_alloc.
- by move=> i j d1 hi hj _; rewrite /hfn; case: ifP => // ij; rewrite (rep_vget Hd).
by move=> x Hx; apply: new_rep.
Qed.

Lemma qr_full_rank_ok : (n <= m)%N ->
  qr_is_full_rank d = Ok (all (fun j => r j != 0) (iota 0 n)).
Proof.
move=> nm; rewrite /qr_is_full_rank (rep_cols Hd) //=.
have e : mn = n by apply/minn_idPr.
suff /wp_ex [c -> /= ->] : wp (forc 0 n (fun j (_ : unit) =>
         x <-- vget (rdiag d) j ;;
         if s_eqb x (n_zero S) then Ok (Stop false) else Ok (Next tt)) tt)
   (fun c => (match c with Next _ => true | Stop b => b end) = all (fun j => r j != 0) (iota 0 n)) by [].
apply: (wpe_forc (fun k _ => all (fun j => r j != 0) (iota 0 k))
                 (fun b => b = all (fun j => r j != 0) (iota 0 n))) => //.
move=> j [] /= hj H; rewrite (repr1_get Hr) ?e //=.
case: (altP (r j =P 0)) => r0 /=.
  by apply/esym/allPn; exists j; rewrite ?mem_iota ?r0 ?eqxx.
by rewrite -[_ && _]/(all (fun j => r j != 0) (iota 0 j.+1)) -addn1 iotaD all_cat H /= r0.
Qed.

Lemma qr_full_rank_wide : (m < n)%N ->
  qr_is_full_rank d = if all (fun j => r j != 0) (iota 0 m) then Err Panic else Ok false.
Proof.
move=> lt; rewrite /qr_is_full_rank (rep_cols Hd) //=.
have e : mn = m by apply/minn_idPl/ltnW.
set body := (fun j (_ : unit) => _).
have step j : (j < m)%N -> body j tt = Ok (if r j == 0 then Stop false else Next tt).
  by move=> hj; rewrite /body (repr1_get Hr) ?e //=; case: eqP.
have last_ : body m tt = Err Panic.
  by rewrite /body vget_oob // (repr1_size Hr) e.
rewrite /forc subn0.
suff gen k lo : (lo + k)%N = m -> forc_n (n - lo) lo body tt =
   if all (fun j => r j != 0) (iota lo k) then Err Panic else Ok (Stop false).
  have := gen m 0%N (add0n m); rewrite subn0 => ->; by case: ifP.
elim: k lo => [|k IH] lo elo.
  have -> : (n - lo)%N = (n - lo).-1.+1 by lia.
  by rewrite /=; have -> : lo = m by [lia]; rewrite last_.
have -> : (n - lo)%N = (n - lo.+1).+1 by lia.
rewrite /= step; last by lia.
by case: (altP (r lo =P 0)) => r0 //=; rewrite IH //; lia.
Qed.

(** *** get_q *)
Local Notation E0 := (pid_mx mn : 'M[F]_m).
Definition dfn (i j : nat) : F := ((i == j) && (i < mn)%N)%:R.

Lemma dfnE : mxf m m dfn = E0.
Proof. by apply/matrixP => i j; rewrite !mxE. Qed.

Lemma qr_apply_q_ok k q h : (k < mn)%N -> r k != 0 -> f k k != 0 -> repr m m q h ->
  wp (qr_apply_q (S:=S) d m n k q) (fun q' => repr m m q' (fun i j =>
     if (k <= j)%N && (k <= i)%N then
       h i j + (\sum_(k <= l < m) f l k * h l j) / (r k * f k k) * f i k
     else h i j)).
Proof.
move=> hk r0 u0 Hq; move: (hk); rewrite leq_min => /andP[km kn].
rewrite /qr_apply_q.
apply: (wpe_for (fun c q => repr m m q (fun i j =>
     if (k <= j < c)%N && (k <= i)%N then
       h i j + (\sum_(k <= l < m) f l k * h l j) / (r k * f k k) * f i k
     else h i j))) => //; first exact: ltnW.
- by apply: repr_ext Hq _ => i j _ _; case: ifP => // /andP[]; lia.
- move=> c q1 hc Hq1; have cm : (c < m)%N by lia.
  have cc : (k <= c < c)%N = false by lia.
  rewrite (for_sum0 (G := fun l => f l k * h l c)); last first.
    move=> l s hl; rewrite (rep_vget Hd) //; [|by lia]; cbn [bind].
    rewrite (repr_get Hq1) //; [|by lia]; cbn [bind].
    by rewrite cc.
  cbn [bind]; rewrite (repr1_get Hr) //; cbn [bind]; rewrite (rep_vget Hd) //; cbn [bind].
  rewrite /= mulf_eq0 (negPf r0) (negPf u0) /=.
  set fac := _ / _.
  apply: wpe_mono; last first.
    apply: (@col_update_ok k c m q1 _ fac (fun r => f r k) _ (ltnW km) cm Hq1).
    move=> row x f' hrow Hx Hne He.
    rewrite (repr_get Hx) //; [|by lia]; cbn [bind].
    rewrite (rep_vget Hd) //; [|by lia]; cbn [bind].
    by rewrite He; last by lia.
  move=> x Hx; apply: repr_ext Hx _ => i j hi hj.
  case: (altP (j =P c)) => [->|ne] /=.
    rewrite cc; by have -> : (k <= c < c.+1)%N by [lia]; case: (k <= i)%N.
  by have -> : (k <= j < c.+1)%N = (k <= j < c)%N by lia.
- by move=> q1 Hq1; apply: repr_ext Hq1 _ => i j hi hj; rewrite hj andbT.
Qed.

Lemma qr_get_q_ok : wp (qr_get_q (S:=S) d) (fun Q => exists h, rep m m Q h /\ mxf m m h = hprod f r mn *m E0).
Proof.
rewrite /qr_get_q (rep_cols Hd) //; cbn [bind]; rewrite /rows (rep_no_rows Hd).
apply: wpe_bind; apply: (wpe_for (fun k q => repr m m q (fun i j => ((i == j) && (i < k)%N)%:R))) => //.
- split; first by rewrite size_nseq.
  move=> i j hi hj; rewrite vget_nseq ?idx_lt // ltn0 andbF.
  by [].
- move=> k q hk Hq; have km : (k < m)%N by move: hk; rewrite leq_min; lia.
  apply: (wpe_repr_set Hq) => // v Hv; apply: repr_ext Hv _ => i j hi hj.
  rewrite ltnS; case: (altP (i =P k)) => [->|ne] /=; last first.
    by have -> : (i <= k)%N = (i < k)%N by lia.
  by rewrite ltnn leqnn andbF andbT eq_sym; case: (k == j).
move=> q0 Hq0.
have [K1 K2 _] := Hok.
apply: wpe_bind.
apply: (wpe_for_rev (fun k q => exists h, [/\ repr m m q h,
   hprod f r k *m mxf m m h = hprod f r mn *m E0 &
   forall c i, (c < k)%N -> (i < m)%N -> h i c = (i == c)%:R])) => //.
- exists dfn; split.
  + by apply: repr_ext Hq0 _.
  + by rewrite dfnE.
  + move=> c i hc hi; rewrite /dfn; case: (altP (i =P c)) => [->|] //=; by rewrite hc.
- move=> k q hk [h [Hq Hh Hz]]; have hk' : (k < mn)%N by lia.
  move: (hk'); rewrite leq_min => /andP[km kn].
  rewrite (rep_vget Hd) //; cbn [bind].
  have [hk0 hk1] : (f k k == 0 -> r k = 0) /\ (r k = 0 -> f k k == 0).
    split; last by move=> /(K2 k hk') /(_ k) ->; rewrite ?eqxx ?leqnn ?km.
    move=> /eqP f0; apply/eqP; apply/negPn/negP => /(K1 k hk') [].
    by rewrite f0 eqxx.
  rewrite [s_eqb _ _]/=; case: (altP (f k k =P 0)) => [f0|f0] /=.
    exists h; split=> //.
      by rewrite -Hh /= /refl hk0 ?f0 eqxx ?mulmx1.
    by move=> c i hc hi; apply: Hz => //; lia.
  have r0 : r k != 0 by apply/negP => /eqP/hk1; rewrite (negPf f0).
  apply: wpe_mono (qr_apply_q_ok hk' r0 f0 Hq) => q' Hq'.
  set h' := (fun i j => _) in Hq'; exists h'; split=> //.
  + rewrite -Hh /= -mulmxA; congr (_ *m _).
    apply/matrixP => i j; rewrite refl_app //; last exact: ltnW.
    rewrite mxE /h'; case: (ltnP i k) => ik.
      by rewrite andbF mulr0 addr0.
    rewrite andbT; case: (leqP k j) => // jk.
    rewrite big_nat big1 ?mul0r ?addr0 // => l hl.
    rewrite Hz //; [|by lia|by lia]; have -> : (l == j) = false by lia.
    by rewrite mulr0.
  + move=> c i hc hi; rewrite /h'; have -> : (k <= c)%N = false by lia.
    by apply: Hz => //; lia.
move=> q [h [Hq Hh _]]; apply: wpe_mono (new_rep m0 m0 Hq) => Q HQ.
by exists h; split=> //; rewrite -Hh /= mul1mx.
Qed.

Lemma wmx_E0 : E0 *m wmx f r mn = wmx f r mn.
Proof.
apply/matrixP => i j; rewrite mxE.
rewrite (bigD1 i) //= big1 ?addr0; last first.
  by move=> l li; rewrite !mxE; have -> : (i == l :> nat) = false by [apply/negbTE; rewrite eq_sym];  rewrite mul0r.
rewrite !mxE eqxx /=; case: (ltnP i mn) => im; first by rewrite mul1r.
rewrite mul0r /wfn; move: im; rewrite geq_min => im.
have hi := ltn_ord i; have hj := ltn_ord j.
have -> : (j < mn)%N by rewrite leq_min; lia.
have -> : (i < j)%N = false by lia.
by have -> : (i == j :> nat) = false by lia.
Qed.
End Getters.
End QR.
