(** * OrthesProofs: the Householder reduction to Hessenberg form (eigen.rs orthes) *)
From mathcomp Require Import all_ssreflect all_algebra zify ring.
From Verif Require Import Base Scalar Hoare ModelMatrix ModelEigen Spec SpecDecomp LUProofs LUThms Orth TredProofs TqlProofs.

Set Implicit Arguments.
Unset Strict Implicit.
Unset Printing Implicit Defensive.
Import Order.TTheory GRing.Theory Num.Theory.
Local Open Scope ring_scope.

Lemma for_rev_sum0 (V : zmodType) lo hi (G : nat -> V) (body : nat -> V -> res V) : (lo <= hi)%N ->
  (forall k s, (lo <= k < hi)%N -> body k s = Ok (s + G k)) ->
  for_rev lo hi body 0 = Ok (\sum_(lo <= k < hi) G k).
Proof.
move=> le H; have : wp (for_rev lo hi body 0) (fun s => s = \sum_(lo <= k < hi) G k).
  apply: (wpe_for_rev (fun i s => s = \sum_(i <= k < hi) G k)) => //; first by rewrite big_geq.
  by move=> i s hi' ->; rewrite H //= [in RHS]big_ltn 1?addrC //; lia.
by case: for_rev => //= s ->.
Qed.

Section Orthes.
Variable F : rcfType.
Variables eps tiny : F.
Local Notation S := (exactE eps tiny).
Variable n : nat.
Implicit Types (f V : nat -> nat -> F) (o x u : nat -> F).

Lemma house_first m (x : nat -> F) : (m < n)%N -> (exists2 k, (m <= k < n)%N & x k != 0) ->
  let s := \sum_(m <= k < n) x k * x k in
  let f0 := x m in
  let g := if 0 < f0 then - Num.sqrt s else Num.sqrt s in
  let h := s - f0 * g in
  let u k := if k == m then f0 - g else x k in
  [/\ h != 0, g != 0, \sum_(m <= l < n) u l * u l = h *+ 2, \sum_(m <= l < n) u l * x l = h &
     h = - (u m * g)].
Proof.
move=> i0 [k0 ki xk] s f0 g h u.
have s_gt0 : 0 < s.
  rewrite /s (bigD1_seq k0) ?mem_index_iota ?iota_uniq //=.
  by rewrite ltr_spaddl ?sumr_ge0 // => *; rewrite -expr2 ?sqr_ge0 // lt_def sqrf_eq0 xk sqr_ge0.
have gg : g * g = s.
  by rewrite -expr2 /g; case: ifP => _; rewrite ?sqrrN sqr_sqrtr // ltW.
have fg : f0 * g <= 0.
  rewrite /g; case: ltP => hf; first by rewrite mulrN oppr_le0 mulr_ge0 ?sqrtr_ge0 ?ltW.
  by rewrite mulr_le0_ge0 ?sqrtr_ge0.
have S1 (G H : nat -> F) : (forall k, (m < k < n)%N -> G k = H k) ->
   \sum_(m <= l < n) G l = \sum_(m <= l < n) H l - H m + G m.
  move=> E; rewrite !(@big_ltn _ _ _ m n) //= [H m + _]addrC addrK addrC; congr (_ + _).
  by apply: eq_big_nat.
have uE : u m = f0 - g by rewrite /u eqxx.
split.
- by rewrite gt_eqF // /h subr_gt0 (le_lt_trans fg).
- by apply: contraTneq s_gt0 => g0; rewrite -gg g0 mul0r ltxx.
- rewrite (S1 _ (fun l => x l * x l)); last by move=> k hk; rewrite /u; have -> : (k == m) = false by lia.
  rewrite uE -/s -/f0 /h -gg mulr2n; ring.
- rewrite (S1 _ (fun l => x l * x l)); last by move=> k hk; rewrite /u; have -> : (k == m) = false by lia.
  by rewrite uE -/s -/f0 /h mulrBl; move: (f0 * f0) (g * f0) (mulrC g f0) => z1 z2 <-; ring.
- by rewrite uE /h -gg; ring.
Qed.

(** a vector that is zero before m *)
Definition padm m u (a : nat) : F := if (m <= a)%N then u a else 0.

Lemma padm_sum m u (G : nat -> F) : (m <= n)%N ->
  \sum_(0 <= l < n) padm m u l * G l = \sum_(m <= l < n) u l * G l.
Proof.
move=> hm; rewrite (@big_cat_nat _ _ _ m) //= big_nat big1 ?add0r.
  by apply: eq_big_nat => l /andP[h _]; rewrite /padm h.
by move=> l /andP[_ h]; rewrite /padm leqNgt h mul0r.
Qed.

Lemma padm_norm m u : (m <= n)%N ->
  \sum_(0 <= l < n) padm m u l * padm m u l = \sum_(m <= l < n) u l * u l.
Proof.
by move=> hi; rewrite padm_sum //; apply: eq_big_nat => l /andP[hl _]; rewrite /padm hl.
Qed.

(** the matrix that is left to reduce: columns before m-1 are zero below the subdiagonal *)
Definition wm m f a b : F := if (b.+1 < m)%N && (b.+1 < a)%N then 0 else f a b.

(** the reflections that are kept in ort and below the subdiagonal *)
Definition uo f o k a : F := if a == k then o k else f a k.-1.
Definition ho f o k : F := if k == 0%N then 0 else - (o k * f k k.-1).
Definition hso f o k : 'M[F]_n := house n (padm k (uo f o k)) (ho f o k).
Fixpoint hpo f o k : 'M[F]_n := if k is k'.+1 then hpo f o k' *m hso f o k' else 1%:M.

(** *** the loops *)
Lemma orthes_scale_ok m h f : (0 < m < n)%N -> repr n n h f ->
  orthes_scale (S:=S) n m h = Ok (\sum_(m <= i < n) `|f i m.-1|).
Proof.
move=> hm Hh; rewrite /orthes_scale; apply: for_sum0 => k s hk.
by rewrite subn1 (repr_get Hh) //; lia.
Qed.

Lemma orthes_vec_ok m sc h f ort o : (0 < m < n)%N -> sc != 0 -> repr n n h f -> repr1 n ort o ->
  wp (orthes_vec (S:=S) n m sc h ort) (fun st =>
    repr1 n st.1 (fun k => if (m <= k)%N then f k m.-1 / sc else o k) /\
    st.2 = \sum_(m <= k < n) (f k m.-1 / sc) * (f k m.-1 / sc)).
Proof.
move=> hm sc0 Hh Ho; rewrite /orthes_vec.
apply: (wpe_for_rev (fun i (st : seq F * F) =>
    repr1 n st.1 (fun k => if (i <= k)%N then f k m.-1 / sc else o k) /\
    st.2 = \sum_(i <= k < n) (f k m.-1 / sc) * (f k m.-1 / sc))) => //; first by lia.
  split; last by rewrite big_geq.
  by apply: repr1_ext Ho _ => k hk; iflia.
move=> i [or h1] hi [Hor Hh1]; cbn [fst snd] in Hor, Hh1.
rewrite subn1 (repr_get Hh); [|by lia|by lia].
cbn [bind]; exs; rewrite (negPf sc0); cbn [bind].
apply: wpe_bind; apply: (wpe_repr1_set Hor); [by lia|] => or2 Hor2.
apply: wpe_ok; split.
  apply: repr1_ext Hor2 _ => k hk; case: (altP (k =P i)) => [->|ki]; first by rewrite leqnn.
  by have -> : (i < k)%N = (i <= k)%N by lia.
by rewrite Hh1 [in RHS]big_ltn 1?addrC //; lia.
Qed.

Lemma orthes_left_ok m h ort hd u f : (0 < m < n)%N -> h != 0 ->
  (forall k, (m <= k < n)%N -> vget ort k = Ok (u k)) -> repr n n hd f ->
  wp (orthes_left (S:=S) n m h ort hd) (fun hd => repr n n hd
   (fun a b => if (m <= a)%N && (m <= b)%N then f a b - (\sum_(m <= l < n) u l * f l b) / h * u a else f a b)).
Proof.
move=> hm h0 Hu Hf; rewrite /orthes_left; apply: wpe_mono; last first.
  apply: (for_own (fun a b => b) (fun a b => if (m <= a)%N then f a b - (\sum_(m <= l < n) u l * f l b) / h * u a else f a b) _ Hf); first by lia.
  move=> j v1 f1 hj Hv1 E1.
  have {}E1 a : (a < n)%N -> f1 a j = f a j by move=> ha; apply: E1 => //; [lia|rewrite eqxx].
  rewrite (@for_rev_sum0 _ _ _ (fun i => u i * f i j)); [|by lia|]; last first.
    move=> k s hk; rewrite Hu // (repr_get Hv1); [|by lia|by lia].
    by cbn [bind]; exs; rewrite E1 //; lia.
  cbn [bind]; exs; rewrite (negPf h0); cbn [bind].
  set q := (_ / h); apply: wpe_mono; last first.
    apply: (for_own (fun a b => if b == j then a else n) (fun a b => f1 a b - q * u a) _ Hv1); first by lia.
    move=> i v2 f2 hi Hv2 E2.
    rewrite (repr_get Hv2); [|by lia|by lia].
    cbn [bind]; rewrite Hu //; cbn [bind]; apply: (wpe_repr_set Hv2); [by lia|by lia|] => v3 Hv3.
    apply: repr_ext Hv3 _ => a b ha hb; exs.
    case: (altP (b =P j)) => [->|bj]; rewrite ?andbT ?andbF; last by iflia.
    by case: (altP (a =P i)) => [->|//]; rewrite E2 ?eqxx //; lia.
  move=> v2 Hv2; apply: repr_ext Hv2 _ => a b ha hb; case: (altP (b =P j)) => [->|bj] /=; last by iflia.
  by rewrite ha andbT E1.
move=> v Hv; apply: repr_ext Hv _ => a b ha hb; rewrite hb andbT andbC.
by case: ifP.
Qed.

Lemma orthes_right_ok m h ort hd u f : (0 < m < n)%N -> h != 0 ->
  (forall k, (m <= k < n)%N -> vget ort k = Ok (u k)) -> repr n n hd f ->
  wp (orthes_right (S:=S) n m h ort hd) (fun hd => repr n n hd
   (fun a b => if (m <= b)%N then f a b - (\sum_(m <= l < n) u l * f a l) / h * u b else f a b)).
Proof.
move=> hm h0 Hu Hf; rewrite /orthes_right; apply: wpe_mono; last first.
  apply: (for_own (fun a b => a) (fun a b => if (m <= b)%N then f a b - (\sum_(m <= l < n) u l * f a l) / h * u b else f a b) _ Hf); first by lia.
  move=> j v1 f1 hj Hv1 E1.
  have {}E1 b : (b < n)%N -> f1 j b = f j b by move=> ha; apply: E1; rewrite ?eqxx //; lia.
  rewrite (@for_rev_sum0 _ _ _ (fun i => u i * f j i)); [|by lia|]; last first.
    move=> k s hk; rewrite Hu // (repr_get Hv1); [|by lia|by lia].
    by cbn [bind]; exs; rewrite E1 //; lia.
  cbn [bind]; exs; rewrite (negPf h0); cbn [bind].
  set q := (_ / h); apply: wpe_mono; last first.
    apply: (for_own (fun a b => if a == j then b else n) (fun a b => f1 a b - q * u b) _ Hv1); first by lia.
    move=> i v2 f2 hi Hv2 E2.
    rewrite (repr_get Hv2); [|by lia|by lia].
    cbn [bind]; rewrite Hu //; cbn [bind]; apply: (wpe_repr_set Hv2); [by lia|by lia|] => v3 Hv3.
    apply: repr_ext Hv3 _ => a b ha hb; exs.
    case: (altP (a =P j)) => [->|bj] /=; last by iflia.
    by case: (altP (b =P i)) => [->|//]; rewrite E2 ?eqxx //; lia.
  move=> v2 Hv2; apply: repr_ext Hv2 _ => a b ha hb; case: (altP (a =P j)) => [->|bj] /=; last by iflia.
  by rewrite hb andbT E1.
by move=> v Hv; apply: repr_ext Hv _ => a b ha hb; rewrite ha.
Qed.
Lemma absr0 m (G : nat -> F) : \sum_(m <= k < n) `|G k| = 0 -> forall k, (m <= k < n)%N -> G k = 0.
Proof.
move/eqP; rewrite psumr_eq0 // => /allP H k ki.
by apply/eqP; rewrite -normr_eq0; apply: (H k); rewrite mem_index_iota.
Qed.

Lemma absr_neq0 m (G : nat -> F) : \sum_(m <= k < n) `|G k| != 0 -> exists2 k, (m <= k < n)%N & G k != 0.
Proof.
move=> H; have : has (fun k => G k != 0) (index_iota m n).
  apply: contraR H; rewrite -all_predC => /allP H; rewrite big_seq big1 // => k /H /=.
  by rewrite negbK => /eqP ->; rewrite normr0.
by move=> /hasP[k]; rewrite mem_index_iota => ki h; exists k.
Qed.

Lemma house_scale (c : F) u h : c != 0 -> house n (fun a => c * u a) (c * c * h) = house n u h.
Proof.
move=> c0; rewrite /house !mulf_eq0 (negPf c0) /=; case: ifP => // /negbT h0.
congr (_ - _); apply/matrixP => i j; rewrite !mxE !big_ord1 !mxE.
by field; rewrite c0 h0.
Qed.

Definition orel m f o f' o' :=
  [/\ forall k, (k < m)%N -> o' k = o k,
      forall a b, (a < n)%N -> (b.+1 < m)%N -> f' a b = f a b,
      f' m m.-1 != 0 -> ho f' o' m != 0,
      ho f' o' m != 0 -> \sum_(m <= l < n) uo f' o' m l * uo f' o' m l = ho f' o' m *+ 2 &
      mxf n n (wm m f) = hso f' o' m *m mxf n n (wm m.+1 f') *m hso f' o' m].

Lemma orthes_step_ok m hd ort f o : (0 < m < n)%N -> repr n n hd f -> repr1 n ort o ->
  wp (orthes_step (S:=S) n m (hd, ort)) (fun st => exists f' o',
    [/\ repr n n st.1 f', repr1 n st.2 o' & orel m f o f' o']).
Proof.
move=> hm Hf Ho; rewrite /orthes_step (orthes_scale_ok hm Hf); cbn [bind].
set sc := \sum_(m <= i < n) _; exs; case: (altP (sc =P 0)) => sc0; cbn [negb].
  have z := absr0 sc0; cbn beta in z.
  apply: wpe_ok; exists f, o; split=> //.
  have h0 : ho f o m = 0 by rewrite /ho z ?mulr0 ?oppr0; [case: ifP|lia].
  split=> //; [by rewrite z ?eqxx //; lia|by rewrite h0 eqxx|].
  rewrite /hso h0 /house eqxx mul1mx mulmx1; apply/matrixP => a b; rewrite !mxE /wm.
  case: (ltngtP b.+1 m) => bm /=; rewrite ?ltnS; [by have -> : (b < m)%N by lia|by have -> : (b < m)%N = false by lia|].
  have -> : (b < m)%N by lia.
  by case: ifP => // ba; rewrite -[val b]/(b.+1.-1) bm z //; have := ltn_ord a; lia.
apply: wpe_bind; apply: wpe_mono (orthes_vec_ok hm sc0 Hf Ho) => -[ort1 h1] [Ho1 Hh1]; cbn [fst snd] in Ho1, Hh1.
pose x k := f k m.-1 / sc.
rewrite (repr1_get Ho1); last by lia.
cbn [bind]; rewrite leqnn -/(x m).
have xne : exists2 k, (m <= k < n)%N & x k != 0.
  by have [k ki dk] := absr_neq0 sc0; exists k; rewrite // mulf_neq0 ?invr_eq0.
have mn : (m < n)%N by lia.
have := house_first mn xne.
rewrite -Hh1; set f0 := x m; cbn zeta.
have h1ge : 0 <= h1 by rewrite Hh1 sumr_ge0 // => k _; rewrite -expr2 sqr_ge0.
rewrite [h1 < 0]ltNge h1ge; cbn [negb bind].
set g := (if 0 < f0 then _ else _); set h := h1 - f0 * g.
pose u k := if k == m then f0 - g else x k; move=> [h0 g0 Hu Hx hE].
apply: wpe_bind; apply: (wpe_repr1_set Ho1); first by lia.
move=> ort2 Ho2.
have Hu2 k : (m <= k < n)%N -> vget ort2 k = Ok (u k).
  move=> hk; rewrite (repr1_get Ho2); last by lia.
  by rewrite /u; case: eqP => // _; have -> : (m <= k)%N by lia.
apply: wpe_bind; apply: wpe_mono (orthes_left_ok hm h0 Hu2 Hf) => hd1 Hf1.
apply: wpe_bind; apply: wpe_mono (orthes_right_ok hm h0 Hu2 Hf1) => hd2 Hf2.
rewrite Hu2; last by lia.
cbn [bind]; apply: wpe_bind; apply: (wpe_repr1_set Ho2); first by lia.
move=> ort3 Ho3; apply: wpe_bind; rewrite subn1; apply: (wpe_repr_set Hf2); [by lia|by lia|] => hd3 Hf3.
pose f1 a b := if (m <= a)%N && (m <= b)%N then f a b - (\sum_(m <= l < n) u l * f l b) / h * u a else f a b.
pose f2 a b := if (m <= b)%N then f1 a b - (\sum_(m <= l < n) u l * f1 a l) / h * u b else f1 a b.
pose f' a b := if (a == m) && (b == m.-1) then sc * g else f2 a b.
pose o' k := if k == m then sc * u m else if k == m then f0 - g else if (m <= k)%N then x k else o k.
apply: wpe_ok; exists f', o'; split; [exact: Hf3|exact: Ho3|].
have o'm : o' m = sc * u m by rewrite /o' eqxx.
have f'm : f' m m.-1 = sc * g by rewrite /f' !eqxx.
have f'lo a b : (b < m)%N -> (a == m) && (b == m.-1) = false -> f' a b = f a b.
  move=> bm E; rewrite /f' E /f2 leqNgt bm /= /f1; by have -> : (m <= b)%N = false by [lia]; rewrite andbF.
have f'hi a b : (m <= b)%N -> f' a b = f2 a b.
  by move=> mb; rewrite /f'; have -> : (b == m.-1) = false by [lia]; rewrite andbF.
have scx k : f k m.-1 = sc * x k by rewrite /x mulrCA divff ?mulr1.
have uoE a : (m <= a)%N -> uo f' o' m a = sc * u a.
  move=> ma; rewrite /uo /u; case: eqP => [_|am]; first by rewrite o'm /u eqxx.
  by rewrite f'lo ?scx //; [lia|case: eqP am].
have hoE : ho f' o' m = sc * sc * h.
  rewrite /ho o'm f'm; have -> : (m == 0%N) = false by lia.
  by rewrite hE; rewrite -/(u m); ring.
have hsE : hso f' o' m = house n (padm m u) h.
  rewrite /hso hoE -[RHS](house_scale _ _ sc0); apply: house_ext => // _ a ha; rewrite /padm.
  by case: ifP => ma; rewrite ?mulr0 // uoE.
split.
- by move=> k km; rewrite /o'; do 2?[have -> : (k == m) = false by lia]; have -> : (m <= k)%N = false by lia.
- by move=> a b _ bm; apply: f'lo; [lia|have -> : (b == m.-1) = false by [lia]; rewrite andbF].
- by rewrite hoE !mulf_neq0.
- move=> _; rewrite hoE.
  have -> : \sum_(m <= l < n) uo f' o' m l * uo f' o' m l = sc * sc * \sum_(m <= l < n) u l * u l.
    by rewrite mulr_sumr; apply: eq_big_nat => l /andP[hl _]; rewrite uoE // mulrACA.
  by rewrite Hu mulrnAr.
rewrite hsE; set H := house _ _ _.
have HH : H *m H = 1%:M by apply: house_invol => _; rewrite padm_norm ?Hu //; lia.
suff E : H *m mxf n n (wm m f) *m H = mxf n n (wm m.+1 f').
  by rewrite -E !mulmxA HH mul1mx -mulmxA HH mulmx1.
rewrite /H house_lE // house_rE //; apply/matrixP => a b; rewrite !mxE.
have an := ltn_ord a; have bn := ltn_ord b.
have tE (c : nat) : \sum_(0 <= l < n) padm m u l * wm m f l c =
   if (m <= c)%N then \sum_(m <= l < n) u l * f l c else if c == m.-1 then sc * h else 0.
  rewrite padm_sum; last by lia.
  case: (leqP m c) => mc.
    by apply: eq_big_nat => l _; rewrite /wm; have -> : (c.+1 < m)%N = false by lia.
  case: eqP => [->|cm].
    rewrite -Hx mulr_sumr; apply: eq_big_nat => l hl; rewrite /wm; have -> : (m.-1.+1 < m)%N = false by lia.
    by rewrite scx mulrCA.
  rewrite big_nat big1 // => l hl; rewrite /wm; have -> : (c.+1 < m)%N && (c.+1 < l)%N by lia.
  by rewrite mulr0.
have XE (c : nat) : (m <= c)%N -> wm m f a c - padm m u a * (\sum_(0 <= l < n) padm m u l * wm m f l c) / h = f1 a c.
  move=> mc; rewrite tE mc /f1 mc andbT /padm /wm; have -> : (c.+1 < m)%N = false by lia.
  by case: ifP => _ /=; [rewrite [u a * _]mulrC mulrAC|rewrite !mul0r subr0].
have -> : \sum_(0 <= l < n) (wm m f a l - padm m u a * (\sum_(0 <= l0 < n) padm m u l0 * wm m f l0 l) / h) * padm m u l
   = \sum_(m <= l < n) u l * f1 a l.
  under eq_bigr do rewrite mulrC.
  rewrite padm_sum; last by lia.
  by apply: eq_big_nat => l /andP[ml _]; rewrite XE.
case: (leqP m b) => mb.
  rewrite XE // /wm; have -> : (b.+1 < m.+1)%N = false by lia.
  by rewrite /= f'hi // /f2 mb /padm mb.
rewrite /padm [(m <= b)%N]leqNgt mb /= mulr0 subr0 -/(padm m u).
rewrite tE [(m <= b)%N]leqNgt mb /= /wm ltnS mb.
case: eqP => [bm|bm].
  have -> : (b.+1 < m)%N = false by lia.
  cbn [andb]; case: (ltngtP b.+1 a) => ba.
  - have -> : (m <= a)%N by lia.
    rewrite mulrA mulfK // bm scx /u; have -> : (a == m :> nat) = false by lia.
    by rewrite mulrC subrr.
  - have -> : (m <= a)%N = false by lia.
    by rewrite !mul0r subr0 f'lo //; have -> : (a == m :> nat) = false by lia.
  - have am : a = m :> nat by lia.
    rewrite am leqnn mulrA mulfK // bm f'm scx /u eqxx -/f0; ring.
rewrite mulr0 mul0r subr0; have -> : (b.+1 < m)%N by lia.
by case: ifP => // _; rewrite f'lo //; have -> : (b == m.-1 :> nat) = false by [lia]; rewrite andbF.
Qed.

Lemma hso_ext f o f' o' l : (forall a, (a < n)%N -> f a l.-1 = f' a l.-1) -> o l = o' l -> (l < n)%N ->
  hso f o l = hso f' o' l.
Proof.
move=> Ef Eo ln; apply: house_ext; first by rewrite /ho; case: ifP => // _; rewrite Ef // Eo.
by move=> _ a ha; rewrite /padm /uo; case: ifP => // _; case: eqP => // _; rewrite Ef.
Qed.

Lemma hpo_ext f o f' o' m : (m <= n)%N ->
  (forall a b, (a < n)%N -> (b.+1 < m)%N -> f a b = f' a b) -> (forall k, (k < m)%N -> o k = o' k) ->
  hpo f o m = hpo f' o' m.
Proof.
elim: m => //= m IH mn Ef Eo; rewrite IH; [|by lia|by move=> a b ha hb; apply: Ef; lia|by move=> k hk; apply: Eo; lia].
congr (_ *m _); case: (posnP m) => [->|m0]; first by rewrite /hso /ho eqxx /house eqxx.
apply: hso_ext; last by lia.
  by move=> a ha; apply: Ef; lia.
by apply: Eo.
Qed.

Lemma hpo1 f o : hpo f o 1 = 1%:M.
Proof. by rewrite /= mul1mx /hso /ho /house !eqxx. Qed.

Definition okrefl f o m := forall l, (0 < l < m)%N ->
  (f l l.-1 != 0 -> ho f o l != 0) /\
  (ho f o l != 0 -> \sum_(l <= a < n) uo f o l a * uo f o l a = ho f o l *+ 2).

Lemma hpo_orth f o m : (m <= n)%N -> okrefl f o m -> orthogonal (hpo f o m).
Proof.
elim: m => [|m IH] mn ok /=; first exact: orthogonal1.
apply: orthogonalM; first by apply: IH; [lia|move=> l hl; apply: ok; lia].
apply: house_orth => h0; rewrite padm_norm; last by lia.
case: (posnP m) => [m0|m0]; first by move: h0; rewrite m0 eqxx.
by apply: (proj2 (ok m _)) => //; lia.
Qed.

Definition red_inv f m (st : seq F * seq F) := exists f' o',
  [/\ repr n n st.1 f', repr1 n st.2 o', okrefl f' o' m &
      mxf n n f = hpo f' o' m *m mxf n n (wm m f') *m (hpo f' o' m)^T].

Lemma orthes_red_ok hd ort f o : (1 < n)%N -> repr n n hd f -> repr1 n ort o ->
  wp (for_ 1 n.-1 (orthes_step (S:=S) n) (hd, ort)) (red_inv f n.-1).
Proof.
move=> n1 Hf Ho; apply: (wpe_for (red_inv f)) => //; first by lia.
  exists f, o; split=> //; first by move=> l; lia.
  by rewrite hpo1 mul1mx trmx1 mulmx1; apply/matrixP => a b; rewrite !mxE.
move=> m [hd1 ort1] hm [f1 [o1 [Hf1 Ho1 ok1 E1]]]; cbn [fst snd] in Hf1, Ho1.
have hm' : (0 < m < n)%N by lia.
apply: wpe_mono (orthes_step_ok hm' Hf1 Ho1) => -[hd2 ort2] [f2 [o2 [Hf2 Ho2 [R1 R2 R3 R4 R5]]]].
cbn [fst snd] in Hf2, Ho2; exists f2, o2; split=> //.
- move=> l hl; case: (ltngtP l m) => lm; [|by lia|by rewrite lm].
  have Ef a : (a < n)%N -> f2 a l.-1 = f1 a l.-1 by move=> ha; apply: R2 => //; lia.
  have hE : ho f2 o2 l = ho f1 o1 l by rewrite /ho; case: ifP => // _; rewrite R1 // Ef //; lia.
  have [|k1 k2] := ok1 l; first by lia.
  split; first by rewrite hE Ef; [exact: k1|lia].
  rewrite hE => /k2 <-; apply: eq_big_nat => a ha.
  by rewrite /uo R1 // Ef //; lia.
- rewrite E1 R5 /= (@hpo_ext f2 o2 f1 o1); [|by lia|by move=> a b; apply: R2|by move=> k; apply: R1].
  by rewrite trmx_mul house_tr !mulmxA.
Qed.

Lemma orthes_id_ok v f0 : repr n n v f0 ->
  wp (orthes_id (S:=S) n v) (fun v => repr n n v (fun a b => (a == b)%:R)).
Proof.
move=> Hv; rewrite /orthes_id; apply: wpe_mono; last first.
  apply: (for_own (fun a b => a) (fun a b => (a == b)%:R) _ Hv) => //.
  move=> i v1 f1 hi Hv1 _; apply: wpe_mono; last first.
    apply: (for_own (fun a b => if a == i then b else n) (fun a b => (a == b)%:R) _ Hv1) => //.
    move=> j v2 f2 hj Hv2 _; apply: (wpe_repr_set Hv2); [by lia|by lia|] => v3 Hv3.
    apply: repr_ext Hv3 _ => x y hx hy; case: (altP (x =P i)) => [->|xi] /=; last by iflia.
    by case: eqP => // ->; exs; case: eqP.
  move=> v2 Hv2; apply: repr_ext Hv2 _ => x y hx hy; case: (x == i) => /=; first by rewrite hy.
  by rewrite ltnn.
by move=> v1 Hv1; apply: repr_ext Hv1 _ => x y hx hy; rewrite hx.
Qed.

Definition acc_inv f o m (st : seq F * seq F) := exists o1 V,
  [/\ repr1 n st.1 o1, repr n n st.2 V, forall l, (l < m)%N -> o1 l = o l,
      forall a b, (a < n)%N -> (b < n)%N -> (a < m)%N || (b < m)%N -> V a b = (a == b)%:R &
      hpo f o n.-1 = hpo f o m *m mxf n n V].

Lemma orthes_acc_ok hd f o m st : (0 < m < n.-1)%N -> repr n n hd f -> okrefl f o n.-1 ->
  acc_inv f o m.+1 st -> wp (orthes_acc (S:=S) n hd m st) (acc_inv f o m).
Proof.
move=> hm Hf ok; case: st => ort v [o1 [V [Ho1 HV R1 R2 R3]]]; cbn [fst snd] in Ho1, HV.
rewrite /orthes_acc subn1 (repr_get Hf); [|by lia|by lia].
cbn [bind]; exs; case: (altP (f m m.-1 =P 0)) => fm; cbn [negb].
  apply: wpe_ok; exists o1, V; split=> //; first by move=> l hl; apply: R1; lia.
    by move=> a b ha hb h; apply: R2 => //; lia.
  rewrite R3 /= /hso; have -> : ho f o m = 0 by rewrite /ho fm mulr0 oppr0; case: ifP.
  by rewrite /house eqxx mulmx1.
have hE : ho f o m = - (o m * f m m.-1) by rewrite /ho; have -> : (m == 0%N) = false by lia.
have [|/(_ fm) ho0 ok2] := ok m; first by lia.
have om0 : o m != 0 by apply: contraNneq ho0 => h; rewrite hE h mul0r oppr0.
apply: wpe_bind; apply: wpe_mono; last first.
  apply: (for_own1 (fun a => f a m.-1) _ Ho1); first by lia.
  by move=> k w f1 hk Hw _; rewrite (repr_get Hf) //; lia.
move=> ort2 Ho2; cbn beta in Ho2.
pose u := uo f o m.
have Hu k : (m <= k < n)%N -> vget ort2 k = Ok (u k).
  move=> hk; rewrite (repr1_get Ho2); last by lia.
  rewrite /u /uo; case: eqP => [->|km]; last by have -> : (m + 1 <= k < n)%N by lia.
  by rewrite R1 //; have -> : (m + 1 <= m < n)%N = false by lia.
apply: wpe_bind; apply: wpe_mono; last first.
  apply: (for_own (fun a b => b) (fun a b => if (m <= a)%N then V a b - u a * (\sum_(m <= l < n) u l * V l b) / ho f o m else V a b) _ HV); first by lia.
  move=> j v1 f1 hj Hv1 E1.
  have {}E1 a : (a < n)%N -> f1 a j = V a j by move=> ha; apply: E1; rewrite ?eqxx //; lia.
  rewrite (@for_sum0 _ _ _ (fun i => u i * V i j)); last first.
    move=> k s hk; rewrite Hu // (repr_get Hv1); [|by lia|by lia].
    by cbn [bind]; exs; rewrite E1 //; lia.
  cbn [bind]; rewrite Hu; last by lia.
  have um : u m = o m by rewrite /u /uo eqxx.
  cbn [bind]; exs; rewrite um (negPf om0); cbn [bind].
  set q := (_ / f m m.-1); apply: wpe_mono; last first.
    apply: (for_own (fun a b => if b == j then a else n) (fun a b => f1 a b + q * u a) _ Hv1); first by lia.
    move=> i v2 f2 hi Hv2 E2.
    rewrite (repr_get Hv2); [|by lia|by lia].
    cbn [bind]; rewrite Hu //; cbn [bind]; apply: (wpe_repr_set Hv2); [by lia|by lia|] => v3 Hv3.
    apply: repr_ext Hv3 _ => a b ha hb; exs.
    case: (altP (b =P j)) => [->|bj]; rewrite ?andbT ?andbF; last by iflia.
    by case: (altP (a =P i)) => [->|//]; rewrite E2 ?eqxx //; lia.
  move=> v2 Hv2; apply: repr_ext Hv2 _ => a b ha hb; case: (altP (b =P j)) => [->|bj] /=; last by iflia.
  rewrite ha andbT E1 //; case: ifP => // _; rewrite /q hE.
  by move: (\sum_(m <= l < n) _) (u a) => z1 z2; field; rewrite fm om0.
move=> v2 Hv2; apply: wpe_ok; cbn [fst snd].
do 2!eexists; split; [exact: Ho2|exact: Hv2| | |].
- by move=> l lm; have -> : (m + 1 <= l < n)%N = false by [lia]; apply: R1; lia.
- move=> a b ha hb; case: (ltnP a m) => am /=.
    by move=> _; have -> : (m <= a)%N = false by [lia]; rewrite R2; [case: ifP|lia|lia|lia].
  by move=> bm; have -> : (m <= b < n)%N = false by [lia]; apply: R2; lia.
rewrite R3 /= -mulmxA; congr (_ *m _).
rewrite /hso house_lE //; apply/matrixP => a b; rewrite !mxE.
have an := ltn_ord a; have bn := ltn_ord b.
rewrite padm_sum; last by lia.
rewrite bn andbT -/u; case: (leqP m b) => mb.
  by rewrite /padm; case: ifP => // _; rewrite !mul0r subr0.
rewrite big_nat big1 ?mulr0 ?mul0r ?subr0 // => l hl.
by rewrite R2 ?orbT //; [have -> : (l == b) = false by [lia]; rewrite mulr0|lia|lia].
Qed.

(** the Hessenberg part of the working matrix *)
Definition hessf f a b : F := if (b.+1 < a)%N then 0 else f a b.

Theorem orthes_ok gort hd v f f0 : (0 < n)%N -> repr n n hd f -> repr n n v f0 ->
  wp (orthes (S:=S) n gort hd v) (fun st => exists f' V,
    [/\ repr n n st.1 f', repr n n st.2 V, orthogonal (mxf n n V) &
        mxf n n f = mxf n n V *m mxf n n (hessf f') *m (mxf n n V)^T]).
Proof.
move=> n0 Hf Hv; rewrite /orthes.
have -> : usub n 1 = Ok n.-1 by rewrite /usub n0 subn1.
cbn [bind]; have Ho := repr1_mkseq n gort.
have idE : mxf n n (fun a b => (a == b)%:R) = 1%:M :> 'M[F]_n.
  by apply/matrixP => a b; rewrite !mxE.
case: (ltngtP n 1) => [|n1|n1]; first by lia.
  apply: wpe_bind; apply: wpe_mono (orthes_red_ok n1 Hf Ho) => -[hd1 ort1] [f1 [o1 [Hf1 Ho1 ok1 E1]]].
  cbn [fst snd] in Hf1, Ho1; apply: wpe_bind; apply: wpe_mono (orthes_id_ok Hv) => v1 Hv1.
  apply: wpe_bind; apply: (wpe_for_rev (acc_inv f1 o1)); first by lia.
  - exists o1, (fun a b => (a == b)%:R); split=> //.
    by rewrite idE mulmx1.
  - by move=> i st hi; apply: orthes_acc_ok => //; lia.
  move=> [ort2 v2] [o2 [V [Ho2 HV _ _ E2]]]; cbn [fst snd] in HV; apply: wpe_ok.
  exists f1, V; split=> //.
    by rewrite -[mxf n n V]mul1mx -(hpo1 f1 o1) -E2; apply: hpo_orth => //; lia.
  rewrite -[mxf n n V]mul1mx -(hpo1 f1 o1) -E2 E1; congr (_ *m _ *m _).
  apply/matrixP => a b; rewrite !mxE /wm /hessf; have := ltn_ord a.
  by case: (ltnP b.+1 a) => h; rewrite ?andbF ?andbT // => an; have -> : (b.+1 < n.-1)%N by lia.
rewrite for_nil; last by lia.
cbn [bind]; apply: wpe_bind; apply: wpe_mono (orthes_id_ok Hv) => v1 Hv1.
have -> : for_rev 1 n.-1 (orthes_acc (S:=S) n hd) (alloc_dirty_vec gort n, v1) = Ok (alloc_dirty_vec gort n, v1).
  by rewrite n1.
cbn [bind]; apply: wpe_ok; exists f, (fun a b => (a == b)%:R); split=> //.
  by rewrite idE; apply: orthogonal1.
rewrite idE mul1mx trmx1 mulmx1; apply/matrixP => a b; rewrite !mxE /hessf.
by have -> : (b.+1 < a)%N = false by have := ltn_ord a; lia.
Qed.

End Orthes.
