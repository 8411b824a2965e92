(** * TqlProofs: tql2 (src/decomp/eigen.rs:141-246) in exact arithmetic. *)
From mathcomp Require Import all_ssreflect all_algebra all_fingroup zify ring.
From Verif Require Import Base Scalar Hoare ModelMatrix ModelHypot ModelEigen Spec SpecDecomp MatrixProofs LUProofs LUThms MiscThms Orth TredProofs.

Set Implicit Arguments.
Unset Strict Implicit.
Unset Printing Implicit Defensive.
Import Order.TTheory GRing.Theory Num.Theory.
Local Open Scope ring_scope.

(** decide the conditions of the goal by linear arithmetic *)
Ltac iflia := repeat match goal with |- context [if ?c then _ else _] =>
  first [have -> : c = true by lia | have -> : c = false by lia] end.

(** linear arithmetic over the naturals only: drop the hypotheses about F *)
Ltac nl F := repeat match goal with H : ?T |- _ => match T with context [F] => clear H end end; lia.

Section Tql.
Variable F : rcfType.
Variables eps tiny : F.
Local Notation S := (exactE eps tiny).
Variable n : nat.
Implicit Types (V : nat -> nat -> F) (d e : nat -> F).

Definition upd (d : nat -> F) k x j : F := if j == k then x else d j.

(** the matrix in the middle of a sweep, upper triangle: the planes above i have
    been rotated, (p, c, s) is the pending part of row i *)
Definition upf i p c s d e (a b : nat) : F :=
  if a == b then (if a == i then c * p else d a)
  else if b == a.+1 then (if a == i then s * p else if b == i then c * e a else e a)
  else if (b == a.+2) && (b == i.+1) then s * e a else 0.
Definition swf i p c s d e a b : F :=
  if (a <= b)%N then upf i p c s d e a b else upf i p c s d e b a.

Lemma swfC i p c s d e a b : swf i p c s d e a b = swf i p c s d e b a.
Proof. by rewrite /swf; case: (ltngtP a b) => // ->. Qed.

Lemma sweep_conj i p c s r c1 s1 d e : (i.+1 < n)%N ->
  c1 ^+ 2 = 1 - s1 ^+ 2 -> p = c1 * r -> e i = s1 * r ->
  let p1 := c1 * d i - s1 * (c * e i) in
  let d1 := upd d i.+1 (c * p + s1 * (c1 * (c * e i) + s1 * d i)) in
  let e1 := upd e i.+1 (s * r) in
  let G := givens n i i.+1 c1 (- s1) in
  G^T *m mxf n n (swf i.+1 p c s d e) *m G = mxf n n (swf i p1 c1 s1 d1 e1).
Proof.
move=> ii cs pE eE p1 d1 e1 G.
rewrite givens_lE; [|by lia|by lia|by lia].
rewrite givens_rE; [|by lia|by lia|by lia].
apply/matrixP => a b; rewrite !mxE.
move: (nat_of_ord a) (nat_of_ord b) => {}a {}b.
wlog : a b / (a <= b)%N.
  move=> H; case: (leqP a b) => ab; first by apply: H.
  rewrite swfC -H; last by lia.
  rewrite /rot2 !(swfC _ _ _ _ _ _ _ i) !(swfC _ _ _ _ _ _ _ i.+1) (swfC _ _ _ _ _ _ a b).
  do ![case: ifP => _]; ring.
move=> ab.
have ca : a = i \/ a = i.+1 \/ (a <> i /\ a <> i.+1) by lia.
have cb : b = i \/ b = i.+1 \/ (b <> i /\ b <> i.+1) by lia.
rewrite /rot2 /swf /upf /p1 /d1 /e1 /upd.
case: ca => [ai|[ai|[ai ak]]]; case: cb => [bi|[bi|[bi bk]]]; try by lia.
- subst a b; iflia; rewrite ?pE ?eE; ring: cs.
- subst a b; iflia; rewrite ?pE ?eE; ring: cs.
- have [bb|bb] : b = i.+2 \/ b <> i.+2 by lia.
    subst a b; iflia; rewrite ?pE ?eE; ring: cs.
  subst a; iflia; ring.
- subst a b; iflia; rewrite ?pE ?eE; ring: cs.
- have [bb|bb] : b = i.+2 \/ b <> i.+2 by lia.
    subst a b; iflia; rewrite ?pE ?eE; ring: cs.
  subst a; iflia; ring.
- have [bb|bb] : i = a.+1 \/ i <> a.+1 by lia.
    subst i b; iflia; rewrite ?pE ?eE; ring: cs.
  subst b; iflia; ring.
- have [bb|bb] : i = a.+1 \/ i <> a.+1 by lia.
    subst i b; iflia; rewrite ?pE ?eE; ring: cs.
  subst b; iflia; ring.
- have [bb|bb] : a = b \/ a <> b by lia.
    by subst b; iflia.
  have [bc|bc] : b = a.+1 \/ b <> a.+1 by lia.
    by subst b; iflia.
  by iflia.
Qed.

Lemma tql2_rot_ok (E : err -> Prop) i c s v f : (i.+1 < n)%N -> repr n n v f ->
  wpe E (tql2_rot (S:=S) n i c s v) (fun v => repr n n v (rot2 i i.+1 c (- s) f)).
Proof.
move=> ii Hv; rewrite /tql2_rot; apply: wpe_mono; last first.
  apply: (for_own (fun a b => if (b == i) || (b == i.+1) then a else n) (rot2 i i.+1 c (- s) f) _ Hv) => //.
  move=> k v1 f1 hk Hv1 E1; rewrite addn1.
  rewrite (repr_get Hv1); [|by lia|by lia]; cbn [bind].
  rewrite (repr_get Hv1); [|by lia|by lia]; cbn [bind].
  apply: wpe_bind; apply: (wpe_repr_set Hv1); [by lia|by lia|] => v2 Hv2.
  rewrite (repr_get Hv2); [|by lia|by lia]; cbn [bind]; rewrite eqxx /=.
  have -> : (i == i.+1) = false by lia.
  apply: (wpe_repr_set Hv2); [by lia|by lia|] => v3 Hv3; apply: repr_ext Hv3 _ => a b ha hb.
  have E1' b' : (b' < n)%N -> (b' == i) || (b' == i.+1) -> f1 k b' = f k b'.
    by move=> hb' h; rewrite E1 //; rewrite h eqxx.
  exs; rewrite /rot2; case: (altP (b =P i)) => [->|bi] /=.
    rewrite andbT; case: (altP (a =P k)) => [->|ak].
      by rewrite !E1' ?eqxx ?orbT //; [rewrite mulNr|lia].
    by have -> : (i == i.+1) = false by [lia]; rewrite andbF.
  rewrite andbF; case: (altP (b =P i.+1)) => [->|bk] /=.
    rewrite andbT; case: (altP (a =P k)) => [->|ak] //.
    by rewrite !E1' ?eqxx ?orbT //; [rewrite mulNr opprK addrC|lia].
  by rewrite andbF; have -> : (n == k) = false by lia.
move=> v' Hv'; apply: repr_ext Hv' _ => a b ha hb; rewrite leq0n /=.
case: (altP (b =P i)) => [->|bi] /=; first by rewrite ha.
case: (altP (b =P i.+1)) => [->|bk] /=; first by rewrite ha.
by rewrite ltnn /rot2 (negPf bi) (negPf bk).
Qed.

(** the indicator of the indices >= l *)
Definition indf l (a b : nat) : F := if (a == b) && (l <= a)%N then 1 else 0.

Lemma ind_conj l i c s : (l <= i)%N -> (i.+1 < n)%N -> c ^+ 2 = 1 - s ^+ 2 ->
  (givens n i i.+1 c s)^T *m mxf n n (indf l) *m givens n i i.+1 c s = mxf n n (indf l).
Proof.
move=> li ii cs; rewrite givens_lE; [|by lia|by lia|by lia].
rewrite givens_rE; [|by lia|by lia|by lia].
apply/matrixP => a b; rewrite !mxE; move: (nat_of_ord a) (nat_of_ord b) => {}a {}b.
have ca : a = i \/ a = i.+1 \/ (a <> i /\ a <> i.+1) by lia.
have cb : b = i \/ b = i.+1 \/ (b <> i /\ b <> i.+1) by lia.
rewrite /rot2 /indf.
case: ca => [ai|[ai|[ai ak]]]; case: cb => [bi|[bi|[bi bk]]]; try (subst a); try (subst b); iflia;
  try (ring: cs).
Qed.

(** conjugation by the accumulated matrix *)
Definition cong V f : 'M[F]_n := mxf n n V *m mxf n n f *m (mxf n n V)^T.

Lemma cong_rot i c s V f f' : (i.+1 < n)%N -> c ^+ 2 = 1 - s ^+ 2 ->
  (givens n i i.+1 c s)^T *m mxf n n f *m givens n i i.+1 c s = mxf n n f' ->
  cong (rot2 i i.+1 c s V) f' = cong V f.
Proof.
move=> ii cs E; rewrite /cong -givens_rE; [|by lia|by lia|by lia].
have [G1 G2] : orthogonal (givens n i i.+1 c s).
  by apply: givens_orth; [lia|lia|lia|ring: cs].
rewrite trmx_mul -E !mulmxA -[X in X *m mxf n n f]mulmxA G2 mulmx1.
by rewrite -[X in X *m _ = _]mulmxA G2 mulmx1.
Qed.

Lemma rot_orth i c s V : (i.+1 < n)%N -> c ^+ 2 = 1 - s ^+ 2 ->
  orthogonal (mxf n n V) -> orthogonal (mxf n n (rot2 i i.+1 c s V)).
Proof.
move=> ii cs o; rewrite -givens_rE; [|by lia|by lia|by lia].
by apply: orthogonalM => //; apply: givens_orth; [lia|lia|lia|ring: cs].
Qed.

Definition sw_inv l m d0 e0 X Y i (st : seq F * seq F * seq F * qlvars S) : Prop :=
  let '(ee, dd, v, q) := st in
  exists e1 d1 V,
  [/\ repr1 n ee e1, repr1 n dd d1, repr n n v V,
      [/\ forall j, (j <= i)%N -> d1 j = d0 j /\ e1 j = e0 j,
          forall j, (m < j)%N -> d1 j = d0 j /\ e1 j = e0 j,
          forall j, (i < j < m)%N -> e1 j != 0 &
          if (i < m)%N then ql_s q != 0 /\ e1 m = 0 else ql_s q = 0] /\
      [/\ ql_c q ^+ 2 = 1 - ql_s q ^+ 2, ql_c2 q ^+ 2 = 1 - ql_s2 q ^+ 2, ql_c3 q ^+ 2 <= 1 &
          (i < m)%N -> e1 i.+1 * ql_s q = ql_s2 q * e0 i] &
   [/\ ql_p q = ql_c q * d0 i - ql_s q * (ql_c2 q * e0 i),
       (i < m)%N -> ql_s q * (ql_c2 q * d0 i.+1 - ql_s2 q * (ql_c3 q * e0 i.+1)) = ql_c q * e0 i,
       orthogonal (mxf n n V) &
       cong V (swf i (ql_p q) (ql_c q) (ql_s q) d1 e1) = X /\ cong V (indf l) = Y]].

Lemma tql2_sweep_ok l m d0 e0 X Y i st : (l <= i < m)%N -> (m < n)%N ->
  (forall j, (l <= j < m)%N -> e0 j != 0) ->
  sw_inv l m d0 e0 X Y i.+1 st ->
  wp (tql2_sweep (S:=S) n i st) (sw_inv l m d0 e0 X Y i).
Proof.
move=> hi mn ne; case: st => [[[ee dd] v] [p c c2 c3 s s2]] [e1 [d1 [V [He Hd Hv [[A1 A2 A3 A4] [K1 K2 K3 K4]] [B1 B2 B3 [B4 B5]]]]]].
cbn [ql_p ql_c ql_c2 ql_c3 ql_s ql_s2] in *.
rewrite /tql2_sweep; cbn [ql_p ql_c ql_c2 ql_c3 ql_s ql_s2].
rewrite (repr1_get He); last by lia.
cbn [bind]; rewrite hypot_ok_L; cbn [bind].
set r := Num.sqrt _.
have [di ei] := A1 i (leqnSn i).
have e0i : e1 i != 0 by rewrite ei; apply: ne; lia.
have rr : r * r = p ^+ 2 + e1 i ^+ 2 by rewrite -expr2 sqr_sqrtr // addr_ge0 ?sqr_ge0.
have r0 : r != 0.
  apply: contraNneq e0i => r0; move/eqP: rr; rewrite r0 mul0r eq_sym paddr_eq0 ?sqr_ge0 //.
  by move=> /andP[_]; rewrite sqrf_eq0.
rewrite !addn1; apply: wpe_bind; apply: (wpe_repr1_set He); first by lia.
move=> ee1 He1; rewrite (repr1_get He1); last by lia.
have -> : (i == i.+1) = false by lia.
cbn [bind]; exs; rewrite (negPf r0); cbn [bind].
rewrite (repr1_get Hd); last by lia.
cbn [bind]; apply: wpe_bind; apply: (wpe_repr1_set Hd); first by lia.
move=> dd1 Hd1; apply: wpe_bind; apply: wpe_mono; last first.
  by apply: (tql2_rot_ok (i := i) _ _ _ _ Hv); lia.
move=> v1 Hv1; cbn beta in Hv1; apply: wpe_ok.
set c1 := p / r; set s1 := e1 i / r.
have cs : c1 ^+ 2 = 1 - s1 ^+ 2.
  rewrite /c1 /s1 !expr_div_n; apply/eqP; rewrite eq_sym subr_eq -mulrDl -rr -expr2 divff //.
  by rewrite expf_neq0.
have cs' : c1 ^+ 2 = 1 - (- s1) ^+ 2 by rewrite sqrrN.
have pE : p = c1 * r by rewrite /c1 divfK.
have eE : e1 i = s1 * r by rewrite /s1 divfK.
have s10 : s1 != 0 by rewrite /s1 mulf_neq0 ?invr_eq0.
eexists _, _, _; split; [exact: He1|exact: Hd1|exact: Hv1| |]; cbn [ql_p ql_c ql_c2 ql_c3 ql_s ql_s2].
- split; last first.
    split=> //; first by rewrite K2 ler_subl_addl ler_addr sqr_ge0.
    move=> _; rewrite eqxx -ei eE; exs.
    ring.
  split.
  + by move=> j ji; iflia; apply: A1; lia.
  + by move=> j ji; iflia; apply: A2; lia.
  + move=> j ji; case: (altP (j =P i.+1)) => [j1|j1]; last by apply: A3; lia.
    move: A4; have -> : (i.+1 < m)%N by lia.
    by move=> [s0 _]; rewrite mulf_neq0.
  + have -> : (i < m)%N by lia.
    split=> //; case: (altP (m =P i.+1)) A4 => [->|mi].
      by rewrite ltnn => s0; exs; rewrite s0 mul0r.
    by have -> : (i.+1 < m)%N by [lia]; move=> [].
- split.
  + by rewrite -di -ei.
  + by move=> _; rewrite -ei -B1 pE eE; ring.
  + by apply: rot_orth => //; lia.
  + split; last by rewrite (@cong_rot i c1 (- s1) V (indf l)) //; [lia|apply: ind_conj; [lia|lia|]].
    rewrite (@cong_rot i c1 (- s1) V (swf i.+1 p c s d1 e1)) //; [lia|].
    by apply: sweep_conj; [lia| | | ].
Qed.

(** the symmetric tridiagonal matrix: diagonal d, element (a,a+1) is e_a *)
Definition tri0 d e (a b : nat) : F :=
  if a == b then d a else if b == a.+1 then e a else if a == b.+1 then e b else 0.
(** the same, with the shift f added from index l on *)
Definition trif l f d e (a b : nat) : F := tri0 d e a b + f * indf l a b.

Lemma cong_add V g1 g2 (f : F) :
  cong V (fun a b => g1 a b + f * g2 a b) = cong V g1 + f *: cong V g2.
Proof.
rewrite /cong; have -> : mxf n n (fun a b => g1 a b + f * g2 a b) = mxf n n g1 + f *: mxf n n g2.
  by apply/matrixP => a b; rewrite !mxE.
by rewrite mulmxDr mulmxDl -scalemxAr -scalemxAl.
Qed.

Lemma cong_ext V f g : (forall a b, (a < n)%N -> (b < n)%N -> f a b = g a b) -> cong V f = cong V g.
Proof. by move=> H; rewrite /cong; congr (_ *m _ *m _); apply/matrixP => a b; rewrite !mxE H. Qed.

Lemma swf_start m d e : swf m (d m) 1 0 d e =2 tri0 d (upd e m 0).
Proof.
move=> a b; rewrite /swf /upf /tri0 /upd !mul1r !mul0r.
case: (ltngtP a b) => ab.
  have -> : (a == b.+1) = false by lia.
  case: (altP (b =P a.+1)) => [->|ba]; last by rewrite if_same.
  by rewrite if_same.
- have -> : (b == a.+1) = false by lia.
  case: (altP (a =P b.+1)) => [->|ba]; last by rewrite if_same.
  by rewrite if_same.
- by subst b; case: ifP => // /eqP ->.
Qed.

Lemma swf_end l p c s d e : (forall j, (j < l)%N -> e j = 0) ->
  swf l p c s d e =2 tri0 (upd d l (c * p)) (upd e l (s * p)).
Proof.
move=> e0 a b; rewrite /swf /upf /tri0 /upd.
case: (ltngtP a b) => ab.
- have -> : (a == b.+1) = false by lia.
  case: (altP (b =P a.+1)) => [ba|ba].
    case: ifP => // al; case: ifP => // /eqP bl; rewrite e0 ?mulr0 //; lia.
  case: ifP => // h; rewrite e0 ?mulr0 //; lia.
- have -> : (b == a.+1) = false by lia.
  case: (altP (a =P b.+1)) => [ba|ba].
    case: ifP => // al; case: ifP => // /eqP bl; rewrite e0 ?mulr0 //; lia.
  case: ifP => // h; rewrite e0 ?mulr0 //; lia.
- by [].
Qed.

(** one QL step with Wilkinson's shift: c, s, c2, s2, c3 are the last rotations, t the shift
    parameter, p the last diagonal element of the triangular factor (Hoffmann and Parlett's
    argument that b1^2 b2 decreases) *)
Lemma wilkinson (c s c2 s2 c3 t b1 b2 p b1' b2' : F) :
  c ^+ 2 = 1 - s ^+ 2 -> c2 ^+ 2 = 1 - s2 ^+ 2 -> c3 ^+ 2 <= 1 -> 1 <= t ^+ 2 ->
  p = c * (b1 / t) - s * (c2 * b1) -> p * t = - s * s2 * c3 * b2 ->
  b1' = s * p -> b2' * s = s2 * b1 ->
  [/\ b1' ^+ 2 <= b2 ^+ 2,
      (b1' ^+ 2) ^+ 2 * b2' ^+ 2 <= 4%:R * (b1 ^+ 2) ^+ 3 &
      2%:R * ((b1' ^+ 2) ^+ 2 * b2' ^+ 2) <= (b1 ^+ 2) ^+ 2 * b2 ^+ 2].
Proof.
move=> cs cs2 c31 t1 pE ptE b1E b2E.
have t0 : t != 0 by apply: contraTneq t1 => ->; rewrite expr0n /= ler10.
have s1 : s ^+ 2 <= 1 by rewrite -subr_ge0 -cs sqr_ge0.
have s21 : s2 ^+ 2 <= 1 by rewrite -subr_ge0 -cs2 sqr_ge0.
have P0 := sqr_ge0 p; have B0 := sqr_ge0 b1; have B20 := sqr_ge0 b2.
set z := s ^+ 2 * s2 ^+ 2.
have z0 : 0 <= z by rewrite mulr_ge0 ?sqr_ge0.
have z1 : z <= 1 by rewrite /z -[1]mulr1 ler_pmul ?sqr_ge0.
have H1 : p ^+ 2 <= z * b2 ^+ 2.
  apply: (@le_trans _ _ (p ^+ 2 * t ^+ 2)); first by rewrite ler_pemulr.
  rewrite -exprMn ptE; have -> : (- s * s2 * c3 * b2) ^+ 2 = z * b2 ^+ 2 * c3 ^+ 2 by rewrite /z; ring.
  by rewrite ler_pimulr // mulr_ge0.
have H2 : p ^+ 2 <= 2%:R * b1 ^+ 2 * (1 - z).
  have -> : p = b1 * (c / t - s * c2) by rewrite pE; ring.
  rewrite exprMn (_ : 2%:R * b1 ^+ 2 * (1 - z) = b1 ^+ 2 * (2%:R * (1 - z))); last by ring.
  apply: ler_wpmul2l => //.
  have : (c / t) ^+ 2 <= c ^+ 2.
    by rewrite expr_div_n ler_pdivr_mulr ?ler_pemulr ?sqr_ge0 // (lt_le_trans ltr01).
  move: (c / t) => u uc.
  have -> : 1 - z = c ^+ 2 + (s * c2) ^+ 2 by rewrite exprMn cs cs2 /z; ring.
  move: (s * c2) => w; apply: (@le_trans _ _ (2%:R * (u ^+ 2 + w ^+ 2))); last first.
    by rewrite ler_wpmul2l ?ler0n // ler_add2r.
  rewrite -subr_ge0; have -> : 2%:R * (u ^+ 2 + w ^+ 2) - (u - w) ^+ 2 = (u + w) ^+ 2 by ring.
  exact: sqr_ge0.
have b1p : b1' ^+ 2 <= p ^+ 2 by rewrite b1E exprMn ler_pimull.
have Phi : (b1' ^+ 2) ^+ 2 * b2' ^+ 2 <= (p ^+ 2) ^+ 2 * b1 ^+ 2.
  have -> : (b1' ^+ 2) ^+ 2 * b2' ^+ 2 = b1' ^+ 2 * (p ^+ 2 * (b2' * s) ^+ 2) by rewrite b1E; ring.
  have -> : (p ^+ 2) ^+ 2 * b1 ^+ 2 = p ^+ 2 * (p ^+ 2 * b1 ^+ 2) by ring.
  apply: ler_pmul => //; first by exact: sqr_ge0.
    by apply: mulr_ge0 => //; exact: sqr_ge0.
  by apply: ler_wpmul2l => //; rewrite b2E exprMn ler_pimull.
split.
- apply: le_trans b1p _; apply: le_trans H1 _; by rewrite ler_pimull.
- apply: le_trans Phi _.
  have H3 : p ^+ 2 <= 2%:R * b1 ^+ 2.
    by apply: le_trans H2 _; rewrite ler_pimulr ?(mulr_ge0 (ler0n _ _)) // ler_subl_addl ler_addr.
  have -> : 4%:R * (b1 ^+ 2) ^+ 3 = (2%:R * b1 ^+ 2) * (2%:R * b1 ^+ 2) * b1 ^+ 2 by ring.
  by rewrite [(p ^+ 2) ^+ 2]expr2 ler_wpmul2r // ler_pmul.
- apply: le_trans (ler_wpmul2l _ Phi) _; first exact: ler0n.
  have H4 : (p ^+ 2) ^+ 2 <= (z * b2 ^+ 2) * (2%:R * b1 ^+ 2 * (1 - z)) by rewrite [(p ^+ 2) ^+ 2]expr2 ler_pmul.
  have H5 : 4%:R * (z * (1 - z)) <= 1.
    rewrite -subr_ge0; have -> : 1 - 4%:R * (z * (1 - z)) = (2%:R * z - 1) ^+ 2 by ring.
    exact: sqr_ge0.
  have -> : 2%:R * ((p ^+ 2) ^+ 2 * b1 ^+ 2) = (p ^+ 2) ^+ 2 * (2%:R * b1 ^+ 2) by ring.
  apply: le_trans (ler_wpmul2r _ H4) _; first by rewrite mulr_ge0 ?ler0n.
  have -> : z * b2 ^+ 2 * (2%:R * b1 ^+ 2 * (1 - z)) * (2%:R * b1 ^+ 2) =
    (4%:R * (z * (1 - z))) * ((b1 ^+ 2) ^+ 2 * b2 ^+ 2) by ring.
  by rewrite ler_pimull // mulr_ge0 ?sqr_ge0.
Qed.

Definition it_post l m (bound f : F) d e V (fin : bool) (st : seq F * seq F * seq F * F) : Prop :=
  let '(ee, dd, v, f') := st in
  exists e' d' V',
  [/\ repr1 n ee e', repr1 n dd d', repr n n v V', orthogonal (mxf n n V') &
   [/\ forall j, (l < j < m)%N -> e' j != 0,
       e' m = 0, forall j, (j < l)%N || (m < j)%N -> e' j = e j,
       (`|e' l| <= bound) = fin /\
       [/\ e' l ^+ 2 <= e l.+1 ^+ 2,
           (e' l ^+ 2) ^+ 2 * e' l.+1 ^+ 2 <= 4%:R * (e l ^+ 2) ^+ 3 &
           2%:R * ((e' l ^+ 2) ^+ 2 * e' l.+1 ^+ 2) <= (e l ^+ 2) ^+ 2 * e l.+1 ^+ 2] &
      cong V' (trif l f' d' e') = cong V (trif l f d (upd e m 0)) /\
      f' ^+ 2 <= (d l + f) ^+ 2 + (d l.+1 + f) ^+ 2 + (e l ^+ 2 + e l ^+ 2)]].

Lemma tql2_iter_ok l m (bound f : F) ee dd v d e V : (l < m < n)%N ->
  (forall j, (l <= j < m)%N -> e j != 0) -> (forall j, (j < l)%N -> e j = 0) ->
  repr1 n ee e -> repr1 n dd d -> repr n n v V -> orthogonal (mxf n n V) ->
  wp (tql2_iter (S:=S) n l m bound (ee, dd, v, f)) (fun c =>
    match c with
    | Next st => it_post l m bound f d e V false st
    | Stop st => it_post l m bound f d e V true st
    end).
Proof.
move=> lm ne ez He Hd Hv oV; rewrite /tql2_iter !addn1.
rewrite (repr1_get Hd); last by lia.
cbn [bind]; rewrite (repr1_get Hd); last by lia.
cbn [bind]; rewrite (repr1_get He); last by lia.
cbn [bind]; have el0 : e l != 0 by apply: ne; lia.
have two0 : (2%:R : F) != 0 by rewrite pnatr_eq0.
exs; rewrite mulf_eq0 (negPf two0) (negPf el0); cbn [orb bind].
set p := (d l.+1 - d l) / _; rewrite hypot_ok_L; cbn [bind].
set r := (if p < 0 then _ else _).
have rr : r ^+ 2 = p ^+ 2 + 1.
  by rewrite /r; case: ifP => _; rewrite ?sqrrN sqr_sqrtr ?expr1n // addr_ge0 ?sqr_ge0 ?ler01.
have pr0 : p + r != 0.
  apply/eqP => h; have : r = - p by apply/eqP; rewrite -addr_eq0 addrC h.
  move=> rp; move/eqP: rr; rewrite rp sqrrN eq_sym -subr_eq0 addrAC subrr add0r oner_eq0 //.
have pr1 : 1 <= (p + r) ^+ 2.
  have h : 0 <= p * r.
    rewrite /r; case: (ltP p 0) => p0; last by rewrite mulr_ge0 ?sqrtr_ge0.
    by rewrite mulr_le0 ?oppr_le0 ?sqrtr_ge0 // ltW.
  rewrite (_ : (p + r) ^+ 2 = 1 + (p ^+ 2 + p ^+ 2 + (p * r + p * r))); last first.
    have -> : (p + r) ^+ 2 = p ^+ 2 + r ^+ 2 + (p * r + p * r) by ring.
    by rewrite rr; ring.
  by rewrite ler_addl !addr_ge0 ?sqr_ge0.
exs; rewrite (negPf pr0); cbn [bind].
apply: wpe_bind; apply: (wpe_repr1_set Hd); first by lia.
move=> dd1 Hd1; apply: wpe_bind; apply: (wpe_repr1_set Hd1); first by lia.
move=> dd2 Hd2; rewrite (repr1_get Hd2); last by lia.
cbn [bind]; rewrite (repr1_get Hd2); last by lia.
rewrite eqxx; have -> : (l == l.+1) = false by lia.
rewrite eqxx; cbn [bind]; set h := d l - _.
pose ds j := if j == l then e l / (p + r) else if j == l.+1 then e l * (p + r) else
   if (l.+1 < j)%N then d j - h else d j.
apply: wpe_bind; apply: wpe_mono; last first.
  apply: (for_own1 (fun j => d j - h) _ Hd2); first by lia.
  move=> k dd3 d3 hk Hd3 E3; rewrite (repr1_get Hd3); last by lia.
  by cbn [bind]; rewrite E3; [iflia|lia|lia].
move=> dd3 Hd3; have {}Hd3 : repr1 n dd3 ds.
  apply: repr1_ext Hd3 _ => j hj; rewrite /ds addn2 hj andbT.
  case: (altP (j =P l)) => [->|jl]; first by iflia.
  by case: (altP (j =P l.+1)) => [->|jl1]; first by iflia.
rewrite (repr1_get Hd3); last by lia.
cbn [bind]; rewrite (repr1_get He); last by lia.
cbn [bind].
have dsl : ds l = e l / (p + r) by rewrite /ds eqxx.
have dsl1 : ds l.+1 = e l * (p + r) by rewrite /ds eqxx; iflia.
have shift1 : d l.+1 + f = ds l.+1 + (f + h).
  rewrite dsl1 /h; have -> : d l.+1 = d l + 2%:R * e l * p.
    by rewrite /p; field; rewrite el0.
  apply/eqP; rewrite -subr_eq0; apply/eqP.
  have -> : d l + 2%:R * e l * p + f - (e l * (p + r) + (f + (d l - e l / (p + r)))) =
     e l * (p ^+ 2 + 1 - r ^+ 2) / (p + r) by field.
  by rewrite rr subrr mulr0 mul0r.
have shiftE : trif l f d (upd e m 0) =2 trif l (f + h) ds (upd e m 0).
  move=> a b; rewrite /trif /tri0 /indf; case: (altP (a =P b)) => [_|ab] //=; last by rewrite !mulr0 !addr0.
  case: (leqP l a) => la; last first.
    by rewrite !mulr0 !addr0 /ds; iflia.
  rewrite !mulr1; case: (altP (a =P l)) => [->|al].
    by rewrite dsl /h; move: (e l / (p + r)) => z; ring.
  case: (altP (a =P l.+1)) => [->//|al1]; rewrite /ds; iflia; ring.
have dd_el : ds l * ds l.+1 = e l ^+ 2 by rewrite dsl dsl1; field.
set X := cong V (tri0 ds (upd e m 0)); set Y := cong V (indf l).
apply: (wpe_bind2 (P := sw_inv l m ds e X Y l)).
  apply: (wpe_for_rev (sw_inv l m ds e X Y)) => //; first by lia.
  - exists e, ds, V; split=> //.
      split; first by split=> //; [move=> j hj; lia|rewrite ltnn].
      by cbn [ql_p ql_c ql_c2 ql_c3 ql_s ql_s2]; split; rewrite ?ltnn ?expr1n //; exs; rewrite expr0n subr0.
    split=> //; cbn [ql_p ql_c ql_c2 ql_c3 ql_s ql_s2].
    + by rewrite mul1r mul0r subr0.
    + by rewrite ltnn.
    + by split=> //; apply: cong_ext => a b _ _; apply: swf_start.
  - by move=> i st hi Hst; apply: tql2_sweep_ok => //; lia.
case=> [[[ee4 dd4] v4] [p4 c4 c24 c34 s4 s24]] [e4 [d4 [V4 [He4 Hd4 Hv4 [[A1 A2 A3 A4] [K1 K2 K3 K4]] [B1 B2 B3 [B4 B5]]]]]].
cbn [ql_p ql_c ql_c2 ql_c3 ql_s ql_s2] in *.
have lm' : (l < m)%N by lia.
rewrite (repr1_get He4); last by lia.
have [_ ->] := A1 l (leqnn l).
cbn [bind]; have dl1n : e l * (p + r) != 0 by rewrite mulf_neq0.
exs; rewrite (negPf dl1n); cbn [bind].
have pE : - s4 * s24 * c34 * e l.+1 * e l / (e l * (p + r)) = p4.
  have {}B2 := B2 lm'.
  have H1 : p4 * e l = - s4 * s24 * c34 * e l.+1 * ds l.
    transitivity ((c4 * e l) * ds l - s4 * c24 * e l ^+ 2); first by rewrite B1; ring.
    by rewrite -B2 -dd_el; ring.
  rewrite -[RHS](mulfK el0) H1 dsl; move: (e l.+1) => z; field; by rewrite el0 pr0.
rewrite pE; apply: wpe_bind; apply: (wpe_repr1_set He4); first by lia.
move=> ee5 He5; apply: wpe_bind; apply: (wpe_repr1_set Hd4); first by lia.
move=> dd5 Hd5; rewrite (repr1_get He5); last by lia.
rewrite eqxx; cbn [bind].
have fin b : (`|s4 * p4| <= bound) = b -> it_post l m bound f d e V b (ee5, dd5, v4, f + h).
  move=> hb; eexists _, _, _; split; [exact: He5|exact: Hd5|exact: Hv4|exact: B3|].
  split.
  - by move=> j hj; iflia; apply: A3.
  - by move: A4; rewrite lm'; iflia; move=> [].
  - by move=> j hj; iflia; case/orP: hj => hj; [apply: (proj2 (A1 _ _)); lia|apply: (proj2 (A2 _ _))].
  - rewrite eqxx; split=> //; have -> : (l.+1 == l) = false by lia.
    have P1 : p4 = c4 * (e l / (p + r)) - s4 * (c24 * e l) by rewrite B1 dsl.
    have P2 : p4 * (p + r) = - s4 * s24 * c34 * e l.+1.
      by rewrite -pE; move: (e l.+1) => z; field; rewrite pr0 el0.
    exact: (wilkinson K1 K2 K3 pr1 P1 P2 erefl (K4 lm')).
  split.
    transitivity (cong V (trif l (f + h) ds (upd e m 0))); last by apply: cong_ext => a b' _ _; rewrite shiftE.
    rewrite /trif !cong_add -/X -/Y -B4 -B5; congr (_ + _); apply: cong_ext => a b' _ _.
    rewrite swf_end // => j hj; rewrite (proj2 (A1 _ _)) ?ez //; lia.
  rewrite shift1; have -> : d l + f = ds l + (f + h) by rewrite dsl /h; move: (e l / (p + r)) => z; ring.
  rewrite -dd_el -subr_ge0.
  have -> : (ds l + (f + h)) ^+ 2 + (ds l.+1 + (f + h)) ^+ 2 + (ds l * ds l.+1 + ds l * ds l.+1) - (f + h) ^+ 2
     = (ds l + ds l.+1 + (f + h)) ^+ 2 by ring.
  exact: sqr_ge0.
by case: ifP => hb; apply: fin.
Qed.

(** loop rule with an iteration count: the fuel need not be tolerated to run out if the
    invariant cannot survive that many iterations *)
Lemma wpe_loop_count (E : err -> Prop) B R (I : nat -> B -> Prop) (J : R -> Prop) fuel
    (body : B -> res (ctl B R)) s (Q : R -> Prop) :
  I 0%N s ->
  (forall k s, I k s -> wpe E (body s) (fun c => match c with Next s' => I k.+1 s' | Stop r => J r end)) ->
  (E OutOfFuel \/ forall s, ~ I fuel s) ->
  (forall r, J r -> Q r) ->
  wpe E (loop_ fuel body s) Q.
Proof.
move=> I0 step out fin; rewrite -[fuel]add0n in out; move: (0%N) I0 out => k.
elim: fuel k s => [|f IH] k s Ik /=; first by rewrite addn0 => -[|/(_ s)//].
rewrite addnS -addSn => out.
apply: wpe_bind; apply: wpe_mono (step k s Ik) => -[s' Is'|r Jr] /=.
  exact: IH Is' out.
exact: fin.
Qed.

Lemma wp_wpp A (m : res A) Q : wp m Q -> wpp m Q.
Proof. by case: m. Qed.

(** ** Dropping an off-diagonal element *)
Lemma trif_upd0 l f d e k a b : trif l f d (upd e k 0) a b =
  if (a == k) && (b == k.+1) || (b == k) && (a == k.+1) then 0 else trif l f d e a b.
Proof.
rewrite /trif /tri0 /indf /upd.
case: (ltngtP a b) => ab /=; rewrite ?mulr0 ?addr0.
- have -> : (a == b.+1) = false by lia.
  have -> : (b == k) && (a == k.+1) = false by lia.
  by rewrite orbF; case: (altP (b =P a.+1)) => [->|ba]; rewrite ?eqSS ?andbb ?if_same.
- have -> : (b == a.+1) = false by lia.
  have -> : (a == k) && (b == k.+1) = false by lia.
  by rewrite /=; case: (altP (a =P b.+1)) => [->|ba]; rewrite ?eqSS ?andbb ?if_same.
- by have -> : (a == k) && (b == k.+1) || (b == k) && (a == k.+1) = false by lia.
Qed.

Lemma drop_le l f d e k :
  fro (mxf n n (trif l f d (upd e k 0))) <= fro (mxf n n (trif l f d e)).
Proof.
by apply: fro_le => a b; rewrite !mxE trif_upd0; case: ifP => // _; rewrite normr0.
Qed.

Lemma drop_diff l f d e k :
  fro (mxf n n (trif l f d e) - mxf n n (trif l f d (upd e k 0))) <= `|e k| *+ 2.
Proof.
case: (ltnP k.+1 n) => kn; last first.
  rewrite (_ : _ - _ = 0) ?fro0 ?mulrn_wge0 //; apply/matrixP => a b; rewrite !mxE trif_upd0.
  have := ltn_ord a; have := ltn_ord b => hb ha; have -> : (a == k :> nat) && (b == k.+1 :> nat) || (b == k :> nat) && (a == k.+1 :> nat) = false by lia.
  by rewrite subrr.
have k0 : (k < n)%N by lia.
pose i0 := Ordinal k0; pose i1 := Ordinal kn.
rewrite (_ : _ - _ = \matrix_(a, b) (if (a == i0) && (b == i1) then e k else 0) +
                     \matrix_(a, b) (if (a == i1) && (b == i0) then e k else 0)); last first.
  apply/matrixP => a b; rewrite !mxE trif_upd0 -!val_eqE /= [X in _ || X]andbC.
  case: ifP => [|h].
    case/orP => /andP[/eqP -> /eqP ->].
      by rewrite !eqxx subr0 /trif /tri0 /indf; iflia; ring.
    by rewrite !eqxx subr0 /trif /tri0 /indf; iflia; ring.
  by rewrite subrr; iflia; rewrite addr0.
apply: le_trans (froD _ _) _; rewrite mulr2n; apply: ler_add.
  rewrite (@fro_single _ _ _ i0 i1) ?mxE ?eqxx // => a b; rewrite xpair_eqE mxE => /negPf -> //.
rewrite (@fro_single _ _ _ i1 i0) ?mxE ?eqxx // => a b; rewrite xpair_eqE mxE => /negPf -> //.
Qed.

Lemma fro_cong V f : orthogonal (mxf n n V) -> fro (cong V f) = fro (mxf n n f).
Proof. by move=> o; rewrite /cong fro_orth_r ?fro_orth_l //; apply: orthogonalT. Qed.

Lemma cong_sub V f g : cong V f - cong V g = mxf n n V *m (mxf n n f - mxf n n g) *m (mxf n n V)^T.
Proof. by rewrite /cong mulmxBr mulmxBl. Qed.

Lemma drop_cong V l f d e k : orthogonal (mxf n n V) ->
  fro (cong V (trif l f d e) - cong V (trif l f d (upd e k 0))) <= `|e k| *+ 2.
Proof.
move=> o; rewrite cong_sub fro_orth_r ?fro_orth_l //; last exact: orthogonalT.
exact: drop_diff.
Qed.

(** ** One eigenvalue *)
Lemma tql2_find_ok l bound ee e : (l < n)%N -> 0 <= bound -> repr1 n ee e -> e n.-1 = 0 ->
  wp (tql2_find (S:=S) n l bound ee) (fun m =>
    [/\ (l <= m < n)%N, `|e m| <= bound & forall j, (l <= j < m)%N -> bound < `|e j|]).
Proof.
move=> ln b0 He en; rewrite /tql2_find.
apply: wpe_bind; apply: (wpe_forc (fun m (_ : unit) => forall j, (l <= j < m)%N -> `|e j| <= bound = false)
  (fun m => [/\ (l <= m < n)%N, `|e m| <= bound & forall j, (l <= j < m)%N -> bound < `|e j|])).
- by lia.
- by move=> j; lia.
- move=> i _ hi H; rewrite (repr1_get He); last by lia.
  cbn [bind]; exs; case: ifP => hb; cbn [wpe].
    split=> //.
    by move=> j hj; rewrite ltNge H.
  move=> j hj; case: (altP (j =P i)) => [-> //|ji]; apply: H; lia.
- move=> _ H; have := H n.-1; rewrite en normr0 b0 => h; exfalso.
  by have := h _; have -> : (l <= n.-1 < n)%N by [lia]; move=> /(_ isT).
- by move=> m Hm; apply: wpe_ok.
Qed.

Lemma trif_entry l f d e a : (a < n)%N -> (l <= a)%N ->
  `|d a + f| <= fro (mxf n n (trif l f d e)).
Proof.
move=> an la; have := fro_entry (mxf n n (trif l f d e)) (Ordinal an) (Ordinal an).
by rewrite mxE /trif /tri0 /indf /= eqxx la mulr1.
Qed.

Lemma trif_entry_off l f d e a : (a.+1 < n)%N ->
  `|e a| <= fro (mxf n n (trif l f d e)).
Proof.
move=> an; have a0 : (a < n)%N by lia.
have := fro_entry (mxf n n (trif l f d e)) (Ordinal a0) (Ordinal an).
rewrite mxE /trif /tri0 /indf /=; iflia; by rewrite mulr0 addr0.
Qed.

(** the 2x2 block at l *)
Lemma trif_block l f d e : (l.+1 < n)%N ->
  (d l + f) ^+ 2 + (d l.+1 + f) ^+ 2 + (e l ^+ 2 + e l ^+ 2) <= fro (mxf n n (trif l f d e)) ^+ 2.
Proof.
move=> ln; have l0 : (l < n)%N by lia.
pose i0 := Ordinal l0; pose i1 := Ordinal ln.
have ne : i1 != i0 by rewrite -val_eqE /=; lia.
rewrite /fro sqr_sqrtr; last by do 2!(apply: sumr_ge0 => ? _); apply: sqr_ge0.
have nn (G : 'I_n -> 'I_n -> F) (P Q : pred 'I_n) : 0 <= \sum_(i | P i) \sum_(j | Q j) G i j ^+ 2.
  by do 2!(apply: sumr_ge0 => ? _); apply: sqr_ge0.
have n1 (G : 'I_n -> F) (Q : pred 'I_n) : 0 <= \sum_(j | Q j) G j ^+ 2.
  by apply: sumr_ge0 => ? _; apply: sqr_ge0.
rewrite (bigD1 i0) //= (bigD1 i1 (P := fun i => i != i0)) //=.
rewrite (bigD1 i0) //= (bigD1 i1 (P := fun i => i != i0)) //=.
rewrite [X in _ <= _ + (X + _)](bigD1 i0) //= [X in _ <= _ + (_ + X + _)](bigD1 i1 (P := fun i => i != i0)) //=.
rewrite !mxE /trif /tri0 /indf /=; iflia.
set x1 := \sum_(i | _) _; set x2 := \sum_(i | _) _; set x3 := \sum_(i | _) _.
have x1p : 0 <= x1 by apply: n1.
have x2p : 0 <= x2 by apply: n1.
have x3p : 0 <= x3 by apply: sumr_ge0 => i _; apply: n1.
have H : 0 <= x1 + x2 + x3 by rewrite !addr_ge0.
rewrite -subr_ge0; apply: le_trans H _.
by rewrite le_eqVlt; apply/orP; left; apply/eqP; ring.
Qed.

Variable A : 'M[F]_n.
Hypothesis eps0 : 0 <= eps.
Variable N : F.
Hypothesis NE : N = fro A.
(** either running out of fuel is tolerated, or there is enough of it *)
Variable E : err -> Prop.
Variable fuel : nat.
Hypothesis EF : E OutOfFuel \/ (2 <= fuel)%N /\ 16%:R <= 2%:R ^+ fuel * eps ^+ 6.

Lemma wp_wpe B (m : res B) Q : wp m Q -> wpe E m Q.
Proof. by case: m. Qed.

Definition tq_inv l (st : seq F * seq F * seq F * F * F) : Prop :=
  let '(ee, dd, v, f, tst1) := st in
  exists e d V,
  [/\ repr1 n ee e, repr1 n dd d, repr n n v V, orthogonal (mxf n n V) &
   [/\ forall j, (j < l)%N -> e j = 0, e n.-1 = 0,
       fro (A - cong V (trif l f d e)) <= eps * N *+ (12 * l),
       fro (mxf n n (trif l f d e)) <= N &
       `|f| <= N /\ 0 <= tst1 <= N *+ 3]].

Lemma tql2_step_ok l st : (l < n)%N -> tq_inv l st ->
  wpe E (tql2_step (S:=S) fuel n l st) (tq_inv l.+1).
Proof.
move=> ln; case: st => [[[[ee dd] v] f] tst1] [e [d [V [He Hd Hv oV [ez en errA leN [fN /andP[t0 tN]]]]]]].
have N0 : 0 <= N by rewrite NE; apply: fro_ge0.
rewrite /tql2_step (repr1_get Hd) //; cbn [bind]; rewrite (repr1_get He) //; cbn [bind].
set t1 := s_max _ _.
have elN : `|e l| <= N.
  case: (ltnP l.+1 n) => hl; first by apply: le_trans leN; apply: trif_entry_off.
  by have -> : l = n.-1 by [nl F]; rewrite en normr0.
have dlN : `|d l| <= N + N.
  rewrite -[d l](addrK f); apply: le_trans (ler_norm_sub _ _) _; apply: ler_add => //.
  by apply: le_trans leN; apply: trif_entry.
have t1N : 0 <= t1 <= N *+ 3.
  rewrite /t1; exs; case: ifP => _; last by rewrite t0.
  by rewrite addr_ge0 //= [N *+ 3]mulrSr mulr2n ler_add.
have {t1N} [t10 t1N] : 0 <= t1 /\ t1 <= N *+ 3 by case/andP: t1N.
exs; set bound := eps * t1.
have b0 : 0 <= bound by rewrite mulr_ge0.
have bN : bound <= eps * N *+ 3 by rewrite -mulrnAr ler_wpmul2l.
have t1p : `|e l| <= t1.
  rewrite /t1; exs; case: (ltP tst1) => [_|]; first by rewrite ler_addr.
  by apply: le_trans; rewrite ler_addr.
have bE : bound = eps * t1 by [].
clearbody bound t1.
apply: wpe_bind; apply: wp_wpe; apply: wpe_mono (tql2_find_ok ln b0 He en) => m [hm em nzb].
have nz j : (l <= j < m)%N -> e j != 0.
  by move=> hj; rewrite -normr_gt0; apply: le_lt_trans (nzb j hj).
(* the end of the step *)
have fin (X : 'M[F]_n) (k : nat) e1 d1 V1 f1 ee1 dd1 v1 : (k <= 2)%N ->
   repr1 n ee1 e1 -> repr1 n dd1 d1 -> repr n n v1 V1 -> orthogonal (mxf n n V1) ->
   (forall j, (j < l)%N -> e1 j = 0) -> e1 n.-1 = 0 ->
   cong V1 (trif l f1 d1 e1) = X -> fro (A - X) <= eps * N *+ (12 * l) + bound *+ k ->
   `|e1 l| *+ 2 <= bound *+ (4 - k) -> fro X <= N -> `|f1| <= N ->
   wp (dl <-- vget dd1 l ;; d <-- vset dd1 l (dl + f1) ;; e <-- vset ee1 l 0 ;; Ok (e, d, v1, f1, t1))
     (tq_inv l.+1).
  move=> k2 He1 Hd1 Hv1 oV1 ez1 en1 XE errX elb XN f1N.
  rewrite (repr1_get Hd1) //; cbn [bind].
  apply: wpe_bind; apply: (wpe_repr1_set Hd1) => // dd2 Hd2.
  apply: wpe_bind; apply: (wpe_repr1_set He1) => // ee2 He2; apply: wpe_ok.
  have Etr : trif l.+1 f1 (fun j => if j == l then d1 l + f1 else d1 j) (fun j => if j == l then 0 else e1 j) =2
     trif l f1 d1 (upd e1 l 0).
    move=> a b; rewrite /trif /tri0 /indf /upd; case: (altP (a =P b)) => //= ab.
    case: (ltngtP a l) => al //; first by rewrite al mulr0 mulr1 addr0.
  have EX : mxf n n (trif l.+1 f1 (fun j => if j == l then d1 l + f1 else d1 j) (fun j => if j == l then 0 else e1 j))
      = mxf n n (trif l f1 d1 (upd e1 l 0)).
    by apply/matrixP => a b; rewrite !mxE Etr.
  eexists _, _, V1; split; [exact: He2|exact: Hd2|exact: Hv1|exact: oV1|].
  split=> //.
  - by move=> j jl; case: ifP => // jl'; apply: ez1; nl F.
  - by rewrite en1 if_same.
  - rewrite (@cong_ext V1 _ (trif l f1 d1 (upd e1 l 0))); last by move=> a b _ _; apply: Etr.
    set C := cong V1 _; have -> : A - C = (A - X) + (X - C) by rewrite addrA subrK.
    apply: le_trans (froD _ _) _.
    apply: le_trans (ler_add errX (le_refl _)) _.
    have := drop_cong l f1 d1 e1 l oV1; rewrite XE => h.
    apply: le_trans (ler_add (le_refl _) (le_trans h elb)) _.
    rewrite -addrA -mulrnDr subnKC ?mulnS; last by apply: leq_trans k2 _.
    rewrite addnC mulrnDr ler_add2l.
    by rewrite -[12%N]/(3 * 4)%N mulrnA ler_muln2r bN orbT.
  - by rewrite EX; apply: le_trans (drop_le _ _ _ _ _) _; rewrite -(fro_cong _ oV1) XE.
  - by rewrite f1N t10 t1N.
case: ifP => lm; last first.
  apply: wpe_bind; apply: wpe_ok; apply: wp_wpe.
  have ml : m = l by nl F.
  apply: (fin (cong V (trif l f d e)) 0%N e d V) => //.
  - by rewrite mulr0n addr0.
  - by rewrite subn0 -[4%N]/(2 * 2)%N mulrnA ler_muln2r /= mulr2n -[X in X <= _]add0r ler_add // -ml.
  - by rewrite fro_cong.
apply: wpe_bind.
set X := cong V (trif l f d (upd e m 0)).
have XN : fro X <= N by rewrite fro_cong //; apply: le_trans (drop_le _ _ _ _ _) _.
pose LI (b : bool) (k : nat) (st : seq F * seq F * seq F * F) := let '(ee1, dd1, v1, f1) := st in
  exists e1 d1 V1, [/\ repr1 n ee1 e1, repr1 n dd1 d1, repr n n v1 V1, orthogonal (mxf n n V1) &
   [/\ forall j, (l < j < m)%N -> e1 j != 0,
       if b then `|e1 l| <= bound /\ e1 m = 0 else bound < `|e1 l|,
       (forall j, (j < l)%N -> e1 j = 0) /\ e1 n.-1 = 0,
       cong V1 (trif l f1 d1 (upd e1 m 0)) = X /\ `|f1| <= N &
       match k with
       | 0 => `|e1 l| <= t1
       | k'.+1 => (e1 l ^+ 2) ^+ 2 * e1 l.+1 ^+ 2 * 2%:R ^+ k <= 8%:R * (t1 ^+ 2) ^+ 3 /\
          if k' is _.+1 then e1 l ^+ 2 * (bound ^+ 2) ^+ 2 * 2%:R ^+ k <= 16%:R * (t1 ^+ 2) ^+ 3 else True
       end]].
have lmn : (l < m < n)%N by nl F.
apply: (@wpe_loop_count E _ _ (LI false) (fun st => exists k, LI true k st)).
- exists e, d, V; split=> //; split=> //.
    by move=> j hj; apply: nz; nl F.
  by apply: nzb; nl F.
- move=> k [[[ee1 dd1] v1] f1] [e1 [d1 [V1 [He1 Hd1 Hv1 oV1 [nz1 nl1 [ez1 en1] [XE f1N] Phi]]]]].
  have nz1' j : (l <= j < m)%N -> e1 j != 0.
    move=> hj; case: (altP (j =P l)) => [->|jl]; last by apply: nz1; nl F.
    by rewrite -normr_gt0; apply: le_lt_trans nl1.
  have H0 := @tql2_iter_ok l m bound f1 _ _ _ _ _ _ lmn nz1' ez1 He1 Hd1 Hv1 oV1.
  apply: wp_wpe; apply: wpe_mono H0.
  have done (b : bool) (st : seq F * seq F * seq F * F) : it_post l m bound f1 d1 e1 V1 b st -> LI b k.+1 st.
    case: st => [[[ee2 dd2] v2] f2] [e2 [d2 [V2 [He2 Hd2 Hv2 oV2 [C1 C2 C3 [C4 [P1 P2 P3]] [C5 C6]]]]]].
    exists e2, d2, V2; split=> //; split=> //.
    + by move: C4; case: b => // h; rewrite ltNge h.
    + split; first by move=> j jl; rewrite C3 ?jl ?ez1.
      case: (altP (m =P n.-1)) => [<-//|mn]; rewrite C3 //; apply/orP; right; nl F.
    + split.
        rewrite -XE -C5; apply: cong_ext => a b' _ _; rewrite /trif /tri0 /upd.
        by do ![case: eqP => ?] => //; congr (_ + _); congruence.
      have : f2 ^+ 2 <= N ^+ 2.
        apply: le_trans C6 _; have := @trif_block l f1 d1 (upd e1 m 0).
        have -> : upd e1 m 0 l = e1 l by rewrite /upd; have -> : (l == m) = false by nl F.
        move=> h; apply: le_trans (h _) _; first by nl F.
        rewrite ler_sqr ?nnegrE ?fro_ge0 //.
        by rewrite -(fro_cong _ oV1) XE.
      by rewrite -(ler_sqr (x := `|f2|)) ?nnegrE // real_normK ?num_real.
    + case: k Phi => [|k].
        move=> h; split=> //; rewrite expr1.
        apply: le_trans (ler_wpmul2r (ler0n _ 2) P2) _.
        have -> : 4%:R * (e1 l ^+ 2) ^+ 3 * 2%:R = 8%:R * (e1 l ^+ 2) ^+ 3 by ring.
        apply: ler_wpmul2l; first exact: ler0n.
        rewrite ler_expn2r ?nnegrE ?sqr_ge0 //.
        by rewrite -(real_normK (num_real (e1 l))) ler_expn2r ?nnegrE.
      move=> [h1 _]; have p2 : 0 <= 2%:R ^+ k.+1 :> F by rewrite exprn_ge0 ?ler0n.
      split.
        apply: le_trans h1; rewrite [2%:R ^+ k.+2]exprS mulrA; apply: ler_wpmul2r => //.
        by rewrite mulrC.
      have -> : 16%:R * (t1 ^+ 2) ^+ 3 = 2%:R * (8%:R * (t1 ^+ 2) ^+ 3) by ring.
      apply: le_trans (ler_wpmul2l (ler0n _ 2) h1).
      rewrite [2%:R ^+ k.+2]exprS mulrCA; apply: ler_wpmul2l; first exact: ler0n.
      apply: ler_wpmul2r => //; rewrite mulrC; apply: ler_pmul => //; rewrite ?sqr_ge0 //.
      rewrite ler_expn2r ?nnegrE ?sqr_ge0 //.
      by rewrite -(real_normK (num_real (e1 l))) ler_expn2r ?nnegrE // ltW.
  by case=> st Hst; [apply: done|exists k.+1; apply: done].
- case: EF => [|[f2 fe]]; [by left|right].
  move=> [[[ee1 dd1] v1] f1] [e1 [d1 [V1 [_ _ _ _ [_ nl1 _ _ Phi]]]]].
  move: f2 fe Phi; case: (fuel) => [//|[//|k]] _ fe [_ h].
  have t2 : 0 < t1 ^+ 2 by rewrite exprn_gt0 // (lt_le_trans _ t1p) // normr_gt0; apply: nz; nl F.
  have : (t1 ^+ 2) ^+ 3 * 16%:R < (t1 ^+ 2) ^+ 3 * 16%:R; last by rewrite ltxx.
  apply: le_lt_trans (ler_wpmul2l _ fe) _; first by rewrite exprn_ge0 // ltW.
  apply: lt_le_trans; last by rewrite mulrC; exact: h.
  have -> : (t1 ^+ 2) ^+ 3 * (2%:R ^+ k.+2 * eps ^+ 6) = bound ^+ 2 * (bound ^+ 2) ^+ 2 * 2%:R ^+ k.+2.
    by rewrite bE; move: (2%:R ^+ k.+2) => z; ring.
  have bp : 0 < bound.
    rewrite bE mulr_gt0 //; last by rewrite lt_def t10 andbT; apply: contraTneq t2 => ->; rewrite expr0n ltxx.
    rewrite lt_def eps0 andbT; apply: contraTneq fe => ->; by rewrite expr0n mulr0 -ltNge ltr0n.
  rewrite ltr_pmul2r ?exprn_gt0 ?ltr0n // ltr_pmul2r ?exprn_gt0 ?exprn_gt0 //.
  by rewrite -(real_normK (num_real (e1 l))) ltr_expn2r ?nnegrE // ltW.
- move=> [[[ee1 dd1] v1] f1] [k [e1 [d1 [V1 [He1 Hd1 Hv1 oV1 [nz1 [b1 em1] [ez1 en1] [XE f1N] _]]]]]].
  apply: wp_wpe; apply: (fin X 2%N e1 d1 V1) => //.
  + rewrite -XE; apply: cong_ext => a b' _ _; rewrite /trif /tri0 /upd.
    by do ![case: eqP => ?] => //; congr (_ + _); congruence.
  + have -> : A - X = (A - cong V (trif l f d e)) + (cong V (trif l f d e) - X) by rewrite addrA subrK.
    apply: le_trans (froD _ _) _; apply: ler_add => //.
    by apply: le_trans (drop_cong _ _ _ _ _ oV) _; rewrite ler_muln2r em orbT.
  + by rewrite ler_muln2r b1 orbT.
Qed.

(** ** Sorting *)
Lemma tql2_argmax_ok i dd d : (i < n)%N -> repr1 n dd d ->
  wp (tql2_argmax (S:=S) n i dd) (fun st =>
    [/\ (i <= st.1 < n)%N, st.2 = d st.1 & forall j, (i <= j < n)%N -> d j <= st.2]).
Proof.
move=> hi Hd; rewrite /tql2_argmax (repr1_get Hd) //; cbn [bind].
apply: (wpe_for (fun j (st : nat * F) =>
  [/\ (i <= st.1 < j)%N, st.2 = d st.1 & forall a, (i <= a < j)%N -> d a <= st.2])) => //.
- by lia.
- split=> /=; [by lia|by []|] => j hj; have -> : j = i by lia.
  exact: lexx.
- move=> j [k p] hj [h1 h2 h3]; cbn [fst snd] in *.
  rewrite (repr1_get Hd); last by lia.
  cbn [bind wpe]; exs; case: (ltP p (d j)) => pj; cbn [fst snd].
    split=> //; first by lia.
    move=> a ha; case: (altP (a =P j)) => [->//|aj].
    by apply: le_trans (ltW pj); apply: h3; lia.
  split=> //; first by lia.
  by move=> a ha; case: (altP (a =P j)) => [->//|aj]; apply: h3; lia.
Qed.

(** exchange of two columns *)
Definition tsw i k (j : nat) : nat := if j == i then k else if j == k then i else j.

Lemma diag_cong_entry V d (a b : 'I_n) :
  cong V (tri0 d (fun _ => 0)) a b = \sum_(l < n) V a l * d l * V b l.
Proof.
rewrite /cong mxE; apply: eq_bigr => l _; rewrite !mxE; congr (_ * _).
rewrite (bigD1 l) //= !mxE /tri0 eqxx big1 ?addr0 // => j jl; rewrite !mxE.
have -> : (j == l :> nat) = false by apply/negbTE.
by rewrite !if_same mulr0.
Qed.

Lemma swap_sum i k (G : nat -> F) : (i < n)%N -> (k < n)%N ->
  \sum_(l < n) G (tsw i k l) = \sum_(l < n) G l.
Proof.
move=> hi hk; rewrite [RHS](reindex_inj (@perm_inj _ (tperm (Ordinal hi) (Ordinal hk)))) /=.
apply: eq_bigr => l _; congr (G _); rewrite permE /= /tsw -!val_eqE /=.
by case: ifP => //; case: ifP.
Qed.

Lemma swap_ok i k V d : (i < n)%N -> (k < n)%N -> orthogonal (mxf n n V) ->
  orthogonal (mxf n n (fun a b => V a (tsw i k b))) /\
  cong (fun a b => V a (tsw i k b)) (tri0 (fun j => d (tsw i k j)) (fun _ => 0)) =
  cong V (tri0 d (fun _ => 0)).
Proof.
move=> hi hk [_ oV]; split.
  have V1 : forall X : 'M[F]_n, X *m X^T = 1%:M -> orthogonal X by move=> X H; split=> //; apply: mulmx1C.
  apply: V1; apply/matrixP => a b; move/matrixP: oV => /(_ a b) <-.
  rewrite !mxE; under eq_bigr do rewrite !mxE.
  by rewrite (swap_sum (fun l => V a l * V b l)) //; apply: eq_bigr => l _; rewrite !mxE.
apply/matrixP => a b; rewrite !diag_cong_entry.
by rewrite (swap_sum (fun l => V a l * d l * V b l)).
Qed.

Lemma tql2_sort_ok dd v d V : (0 < n)%N -> repr1 n dd d -> repr n n v V -> orthogonal (mxf n n V) ->
  wp (tql2_sort (S:=S) n dd v) (fun st => exists d' V',
    [/\ repr1 n st.1 d', repr n n st.2 V', orthogonal (mxf n n V'),
        cong V' (tri0 d' (fun _ => 0)) = cong V (tri0 d (fun _ => 0)) &
        forall a b, (a < b < n)%N -> d' b <= d' a]).
Proof.
move=> n0 Hd Hv oV; rewrite /tql2_sort.
have -> : usub n 1 = Ok n.-1 by rewrite /usub n0 subn1.
cbn [bind].
apply: (wpe_for (fun i (st : seq F * seq F) => exists d' V',
    [/\ repr1 n st.1 d', repr n n st.2 V', orthogonal (mxf n n V'),
        cong V' (tri0 d' (fun _ => 0)) = cong V (tri0 d (fun _ => 0)) &
        forall a b, (a < i)%N -> (a < b < n)%N -> d' b <= d' a])) => //.
- by exists d, V; split.
- move=> i [dd1 v1] hi [d1 [V1 [Hd1 Hv1 oV1 E1 so]]]; cbn [fst snd] in *.
  apply: wpe_bind; apply: wpe_mono; last first.
    by apply: (tql2_argmax_ok (i := i) _ Hd1); lia.
  move=> [k p] [hk pk mx]; cbn [fst snd] in *.
  have hin : (i < n)%N by lia.
  have hkn : (k < n)%N by lia.
  have [oV2 E2] := swap_ok d1 hin hkn oV1.
  have sw_so : forall a b, (a < i.+1)%N -> (a < b < n)%N -> d1 (tsw i k b) <= d1 (tsw i k a).
    move=> a b ai ab; case: (altP (a =P i)) => [ei|na].
      rewrite ei {2}/tsw eqxx -pk; apply: mx; rewrite /tsw.
      by do ![case: eqP => ?]; lia.
    have -> : tsw i k a = a by rewrite /tsw; iflia.
    by apply: so; rewrite /tsw; do ?[case: eqP => ?]; lia.
  case: (altP (k =P i)) => [ki|ki].
    have tE j : tsw i k j = j by rewrite /tsw ki; case: eqP => [->|].
    apply: wpe_ok; exists d1, V1; split=> // a b ai ab.
    by have := sw_so a b ai ab; rewrite !tE.
  cbn [negb]; rewrite (repr1_get Hd1) //; cbn [bind].
  apply: wpe_bind; apply: (wpe_repr1_set Hd1) => // dd2 Hd2.
  apply: wpe_bind; apply: (wpe_repr1_set Hd2) => // dd3 Hd3.
  apply: wpe_bind; apply: wpe_mono; last first.
    apply: (for_own (fun a b => a) (fun a b => V1 a (tsw i k b)) _ Hv1) => //.
    move=> j v2 V2 hj Hv2 E3.
    rewrite (repr_get Hv2); [|by lia|by lia]; cbn [bind].
    rewrite (repr_get Hv2); [|by lia|by lia]; cbn [bind].
    apply: wpe_bind; apply: (wpe_repr_set Hv2); [by lia|by lia|] => v3 Hv3.
    apply: (wpe_repr_set Hv3); [by lia|by lia|] => v4 Hv4; apply: repr_ext Hv4 _ => a b ha hb.
    have E4 c : (c < n)%N -> V2 j c = V1 j c by move=> hc; rewrite E3 // eqxx.
    case: (altP (a =P j)) => [->|aj] //=; rewrite /tsw.
    case: (altP (b =P k)) => [->|bk]; first by iflia; rewrite E4.
    by case: eqP => [_|_]; rewrite E4.
  move=> v2 Hv2; apply: wpe_ok; cbn [fst snd].
  exists (fun j => d1 (tsw i k j)), (fun a b => V1 a (tsw i k b)); split=> //.
  + apply: repr1_ext Hd3 _ => j hj; rewrite /tsw pk; case: (altP (j =P i)) => // ji.
    by case: eqP.
  + by apply: repr_ext Hv2 _ => a b ha hb; rewrite ha.
  + by rewrite E2.
- move=> st [d1 [V1 [Hd1 Hv1 oV1 E1 so]]]; exists d1, V1; split=> // a b ab; apply: so; lia.
Qed.

Lemma tql2_shift_ok ee e : (0 < n)%N -> repr1 n ee e ->
  wp (tql2_shift (S:=S) n ee) (fun ee => repr1 n ee (fun j => if j == n.-1 then 0 else e j.+1)).
Proof.
move=> n0 He; rewrite /tql2_shift.
apply: wpe_bind; apply: (wpe_for (fun i ee => repr1 n ee (fun j => if (j.+1 < i)%N then e j.+1 else e j))) => //.
- move=> i ee1 hi He1; rewrite (repr1_get He1); last by lia.
  cbn [bind]; have -> : (i.+1 < i)%N = false by lia.
  apply: (wpe_repr1_set He1); first by lia.
  move=> ee2 He2; apply: repr1_ext He2 _ => j hj; case: (altP (j =P (i - 1)%N)) => [->|ji].
    by have -> : (i - 1).+1 = i by [lia]; rewrite ltnSn.
  by have -> : (j.+1 < i.+1)%N = (j.+1 < i)%N by lia.
- move=> ee1 He1; have -> : usub n 1 = Ok n.-1 by rewrite /usub n0 subn1.
  cbn [bind]; apply: (wpe_repr1_set He1); first by lia.
  move=> ee2 He2; apply: repr1_ext He2 _ => j hj; case: (altP (j =P n.-1)) => // jn.
  by have -> : (j.+1 < n)%N by lia.
Qed.

Theorem tql2_ok ee dd v e d V : (0 < n)%N ->
  repr1 n ee e -> repr1 n dd d -> repr n n v V -> orthogonal (mxf n n V) ->
  A = mxf n n V *m tridiag n d e *m (mxf n n V)^T ->
  wpe E (tql2 (S:=S) fuel n ee dd v) (fun st => exists e' d' V',
    [/\ repr1 n st.1.1 e', repr1 n st.1.2 d', repr n n st.2 V', orthogonal (mxf n n V') &
     [/\ forall j, (j < n)%N -> e' j = 0,
         forall a b, (a < b < n)%N -> d' b <= d' a &
         fro (A - cong V' (tri0 d' (fun _ => 0))) <= eps * N *+ (12 * n)]]).
Proof.
move=> n0 He Hd Hv oV AE; rewrite /tql2.
have N0 : 0 <= N by rewrite NE; apply: fro_ge0.
apply: wpe_bind; apply: wp_wpe; apply: wpe_mono (tql2_shift_ok n0 He) => ee1 He1.
apply: (wpe_bind2 (P := tq_inv n)).
  apply: (wpe_for tq_inv) => //; last by move=> l st hl; apply: tql2_step_ok.
  have Etr : trif 0 0 d (fun j => if j == n.-1 then 0 else e j.+1) =2
    (fun a b => tri0 d (fun j => if j == n.-1 then 0 else e j.+1) a b).
    by move=> a b; rewrite /trif mul0r addr0.
  have E2 : mxf n n (trif 0 0 d (fun j => if j == n.-1 then 0 else e j.+1)) = tridiag n d e.
    apply/matrixP => a b; rewrite !mxE Etr /tri0 -val_eqE /=.
    case: eqP => // _; have := ltn_ord a; have := ltn_ord b.
    case: eqP => [h|h]; first by rewrite h => ? ?; have -> : (a == n.-1 :> nat) = false by lia.
    by case: eqP => [h2|//]; rewrite h2 => ? ?; have -> : (b == n.-1 :> nat) = false by lia.
  have CE : cong V (trif 0 0 d (fun j => if j == n.-1 then 0 else e j.+1)) = A.
    by rewrite /cong E2 AE.
  eexists _, _, V; split; [exact: He1|exact: Hd|exact: Hv|exact: oV|]; split=> //.
  - by rewrite eqxx.
  - by rewrite CE subrr fro0 muln0 mulr0n.
  - by rewrite -(fro_cong _ oV) CE NE.
  - by rewrite normr0 lexx N0 mulrn_wge0.
case=> [[[[ee2 dd2] v2] f] t1] [e2 [d2 [V2 [He2 Hd2 Hv2 oV2 [ez en errA _ _]]]]].
apply: wpe_bind; apply: wp_wpe; apply: wpe_mono (tql2_sort_ok n0 Hd2 Hv2 oV2) => -[dd3 v3] [d3 [V3 [Hd3 Hv3 oV3 E3 so]]].
apply: wpe_ok; exists e2, d3, V3; split=> //; split=> //.
rewrite E3; rewrite (@cong_ext V2 (tri0 d2 (fun _ => 0)) (trif n f d2 e2)) // => a b an bn.
rewrite /trif /tri0 /indf; have -> : (a == b) && (n <= a)%N = false by lia.
rewrite mulr0 addr0; do ![case: eqP => ?] => //; rewrite ez //; lia.
Qed.
End Tql.
