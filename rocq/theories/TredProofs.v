(** * TredProofs: tred2 (src/decomp/eigen.rs:33-138) in exact arithmetic. *)
From mathcomp Require Import all_ssreflect all_algebra zify ring.
From Verif Require Import Base Scalar Hoare ModelMatrix ModelEigen Spec SpecDecomp MatrixProofs LUProofs LUThms MiscThms Orth.

Set Implicit Arguments.
Unset Strict Implicit.
Unset Printing Implicit Defensive.
Import Order.TTheory GRing.Theory Num.Theory.
Local Open Scope ring_scope.

Section Tred.
Variable F : rcfType.
Variables eps tiny : F.
Local Notation S := (exactE eps tiny).
Variable n : nat.
Implicit Types (f : nat -> nat -> F) (d e u : nat -> F).

(** element (a,b) of the symmetric matrix whose lower triangle is f *)
Definition sy f a b : F := if (b <= a)%N then f a b else f b a.

Lemma syC f a b : sy f a b = sy f b a.
Proof. by rewrite /sy; case: (ltngtP a b) => // ->. Qed.

Lemma tred2_init_ok v dd f d0 : repr n n v f -> repr1 n dd d0 ->
  wp (tred2_init (S:=S) n dd v) (fun dd => repr1 n dd (fun j => f n.-1 j)).
Proof.
move=> Hv Hd; rewrite /tred2_init.
apply: wpe_mono; last first.
  apply: (for_own1 (fun j => f n.-1 j) _ Hd); first by lia.
  by move=> k dd' d1 hk _ _; rewrite subn1 (repr_get Hv) //; lia.
by move=> dd' Hd'; apply: repr1_ext Hd' _ => i hi; rewrite hi.
Qed.

Lemma tred2_scale_ok i dd d : repr1 n dd d -> (i <= n)%N ->
  tred2_scale (S:=S) i dd = Ok (\sum_(0 <= k < i) `|d k|).
Proof.
move=> Hd hi; rewrite /tred2_scale (for_sum0 (G := fun k => `|d k|)) // => k s hk.
rewrite (repr1_get Hd) //; lia.
Qed.

Lemma tred2_skip_ok i dd v ee d f e : (0 < i < n)%N ->
  repr1 n dd d -> repr n n v f -> repr1 n ee e ->
  wp (tred2_skip (S:=S) n i (dd, v, ee)) (fun st =>
    [/\ repr1 n st.1.1 (fun j => if (j < i)%N then f i.-1 j else d j),
        repr n n st.1.2 (fun a b => if (a == i) && (b < i)%N || (b == i) && (a < i)%N then 0 else f a b) &
        repr1 n st.2 (fun k => if k == i then d i.-1 else e k)]).
Proof.
move=> hi Hd Hv He; rewrite /tred2_skip subn1 (repr1_get Hd); last by lia.
cbn [bind]; apply: wpe_bind; apply: (wpe_repr1_set He); first by lia.
move=> ee' He'; apply: wpe_bind.
apply: (wpe_for (fun j (st : seq F * seq F) =>
   repr1 n st.1 (fun k => if (k < j)%N then f i.-1 k else d k) /\
   repr n n st.2 (fun a b => if (a == i) && (b < j)%N || (b == i) && (a < j)%N then 0 else f a b))) => //.
- split; first exact: Hd.
  by apply: repr_ext Hv _ => a b ha hb; rewrite !ltn0 !andbF.
- move=> j [dd1 v1] hj [Hd1 Hv1]; cbn [fst snd] in Hd1, Hv1.
  rewrite (repr_get Hv1); [|by lia|by lia]; cbn [bind].
  have -> : (i.-1 == i) && (j < j)%N || (j == i) && (i.-1 < j)%N = false by lia.
  apply: wpe_bind; apply: (wpe_repr1_set Hd1); first by lia.
  move=> dd2 Hd2; apply: wpe_bind; apply: (wpe_repr_set Hv1); [by lia|by lia|].
  move=> v2 Hv2; apply: wpe_bind; apply: (wpe_repr_set Hv2); [by lia|by lia|].
  move=> v3 Hv3; split; cbn [fst snd].
    apply: repr1_ext Hd2 _ => k hk; case: (altP (k =P j)) => [->|ne]; first by rewrite ltnSn.
    by have -> : (k < j.+1)%N = (k < j)%N by lia.
  apply: repr_ext Hv3 _ => a b ha hb.
  case: (boolP ((a == j) && (b == i))) => h1.
    by have -> : (a == i) && (b < j.+1)%N || (b == i) && (a < j.+1)%N by lia.
  case: (boolP ((a == i) && (b == j))) => h2.
    by have -> : (a == i) && (b < j.+1)%N || (b == i) && (a < j.+1)%N by lia.
  by have -> : (a == i) && (b < j.+1)%N || (b == i) && (a < j.+1)%N =
               ((a == i) && (b < j)%N || (b == i) && (a < j)%N) by lia.
- by move=> [dd1 v1] [Hd1 Hv1]; apply: wpe_ok; split.
Qed.

Lemma tred2_scaled_ok i sc dd d : (i <= n)%N -> sc != 0 -> repr1 n dd d ->
  wp (tred2_scaled (S:=S) i sc dd) (fun st =>
    repr1 n st.1 (fun k => if (k < i)%N then d k / sc else d k) /\
    st.2 = \sum_(0 <= k < i) (d k / sc) * (d k / sc)).
Proof.
move=> hi sc0 Hd; rewrite /tred2_scaled.
apply: (wpe_for (fun j (st : seq F * F) =>
  repr1 n st.1 (fun k => if (k < j)%N then d k / sc else d k) /\
  st.2 = \sum_(0 <= k < j) (d k / sc) * (d k / sc))) => //.
- by split=> //; rewrite big_geq.
- move=> j [dd1 h1] hj [Hd1 Hh]; cbn [fst snd] in Hd1, Hh.
  rewrite (repr1_get Hd1); last by lia.
  cbn [bind]; rewrite ltnn /= (negPf sc0) /=.
  apply: wpe_bind; apply: (wpe_repr1_set Hd1); first by lia.
  move=> dd2 Hd2; split; cbn [fst snd].
    apply: repr1_ext Hd2 _ => k hk; case: (altP (k =P j)) => [->|ne]; first by rewrite ltnSn.
    by have -> : (k < j.+1)%N = (k < j)%N by lia.
  by rewrite Hh big_nat_recr.
Qed.

Lemma zero_loop i ee e : (i <= n)%N -> repr1 n ee e ->
  wp (for_ 0 i (fun j ee => vset ee j (n_zero S)) ee) (fun ee =>
    repr1 n ee (fun k => if (k < i)%N then 0 else e k)).
Proof.
move=> hi He; apply: wpe_mono; last first.
  by apply: (for_own1 (fun _ => 0) _ He).
by move=> ee' He'; apply: repr1_ext He' _ => k hk; rewrite leq0n.
Qed.

(** the product of the symmetric matrix and the vector; the column i of v gets the vector *)
Lemma tred2_matvec_ok i dd v ee d f e : (i < n)%N ->
  repr1 n dd d -> repr n n v f -> repr1 n ee (fun k => if (k < i)%N then 0 else e k) ->
  wp (tred2_matvec (S:=S) n i dd v ee) (fun st =>
    repr n n st.1 (fun a b => if (b == i) && (a < i)%N then d a else f a b) /\
    repr1 n st.2 (fun k => if (k < i)%N then \sum_(0 <= l < i) sy f k l * d l else e k)).
Proof.
move=> hi Hd Hv He; rewrite /tred2_matvec.
(* after j columns: rows k < j are complete; rows k >= j have the terms l < j *)
pose ef j k := if (k < i)%N then
    (if (k < j)%N then \sum_(0 <= l < i) sy f k l * d l else \sum_(0 <= l < j) sy f k l * d l)
  else e k.
apply: (wpe_for (fun j (st : seq F * seq F) =>
  repr n n st.1 (fun a b => if (b == i) && (a < j)%N then d a else f a b) /\
  repr1 n st.2 (ef j))) => //.
- split; first by apply: repr_ext Hv _ => a b _ _; rewrite ltn0 andbF.
  by apply: repr1_ext He _ => k _; rewrite /ef; case: ifP => // _; rewrite ltn0 big_geq.
- move=> j [v1 ee1] hj [Hv1 He1]; cbn [fst snd] in Hv1, He1.
  rewrite (repr1_get Hd); last by lia.
  cbn [bind]; apply: wpe_bind; apply: (wpe_repr_set Hv1); [by lia|by lia|].
  move=> v2 Hv2.
  have {}Hv2 : repr n n v2 (fun a b => if (b == i) && (a < j.+1)%N then d a else f a b).
    apply: repr_ext Hv2 _ => a b ha hb; case: (altP (a =P j)) => [->|ne] /=.
      by rewrite ltnSn andbT ltnn andbF.
    by have -> : (a < j.+1)%N = (a < j)%N by lia.
  have vlow k : (j <= k < i)%N -> vget v2 (k * n + j) = Ok (f k j).
    move=> hk; rewrite (repr_get Hv2); [|by lia|by lia].
    by have -> : (j == i) = false by lia.
  rewrite (repr1_get He1); last by lia.
  cbn [bind]; rewrite vlow; last by lia.
  cbn [bind]; apply: wpe_bind.
  have ji : (j < i)%N by lia.
  have efj : ef j j = \sum_(0 <= l < j) sy f j l * d l by rewrite /ef ji ltnn.
  apply: (wpe_for (fun k (st : F * seq F) =>
     st.1 = \sum_(0 <= l < k) sy f j l * d l /\
     repr1 n st.2 (fun c => if (j < c < k)%N then \sum_(0 <= l < j.+1) sy f c l * d l else ef j c))).
  + by lia.
  + split; cbn [fst snd]; last first.
      by apply: repr1_ext He1 _ => c _; have -> : (j < c < j + 1)%N = false by lia.
    by rewrite /= efj addn1 big_nat_recr //= /sy leqnn.
  + move=> k [g ee2] hk [Hg He2]; cbn [fst snd] in Hg, He2.
    rewrite vlow; last by lia.
    cbn [bind]; rewrite (repr1_get Hd); last by lia.
    cbn [bind]; rewrite (repr1_get He2); last by lia.
    cbn [bind]; have -> : (j < k < k)%N = false by lia.
    apply: wpe_bind; apply: (wpe_repr1_set He2); first by lia.
    move=> ee3 He3; split; cbn [fst snd].
      rewrite Hg big_nat_recr //=; congr (_ + _ * _).
      by rewrite /sy; have -> : (k <= j)%N = false by lia.
    apply: repr1_ext He3 _ => c hc; case: (altP (c =P k)) => [->|ne].
      have -> : (j < k < k.+1)%N by lia.
      rewrite big_nat_recr //= {1}/ef; have -> : (k < i)%N by lia.
      have -> : (k < j)%N = false by lia.
      by congr (_ + _ * _); rewrite /sy; have -> : (j <= k)%N by lia.
    by have -> : (j < c < k.+1)%N = (j < c < k)%N by lia.
  + move=> [g ee2] [Hg He2]; cbn [fst snd] in Hg, He2.
    apply: wpe_bind; apply: (wpe_repr1_set He2); first by lia.
    move=> ee3 He3; split; cbn [fst snd]; first exact: Hv2.
    apply: repr1_ext He3 _ => c hc; rewrite /ef.
    case: (ltnP c i) => ci; last first.
      have -> : (c == j) = false by lia.
      by rewrite andbF.
    case: (altP (c =P j)) => [->|ne]; first by rewrite ltnSn Hg.
    case: (ltnP j c) => jc /=; first by have -> : (c < j.+1)%N = false by lia.
    by have -> : (c < j.+1)%N = (c < j)%N by [lia]; have -> : (c < j)%N by lia.
- move=> [v1 ee1] [Hv1 He1]; split; cbn [fst snd]; first exact: Hv1.
  by cbn [snd] in He1; apply: repr1_ext He1 _ => k hk; rewrite /ef; case: (k < i)%N.
Qed.

Lemma tred2_correct_ok i h dd ee d w e : (i < n)%N -> h != 0 -> repr1 n dd d ->
  repr1 n ee (fun k => if (k < i)%N then w k else e k) ->
  wp (tred2_correct (S:=S) i h dd ee) (fun ee =>
    repr1 n ee (fun k => if (k < i)%N then
        w k / h - (\sum_(0 <= l < i) w l / h * d l) / (h + h) * d k else e k)).
Proof.
move=> hi h0 Hd He; rewrite /tred2_correct.
have hh0 : h + h != 0 by rewrite -mulr2n mulrn_eq0 /= (negPf h0).
apply: wpe_bind; apply: (wpe_for (fun j (st : seq F * F) =>
   repr1 n st.1 (fun k => if (k < j)%N then w k / h else if (k < i)%N then w k else e k) /\
   st.2 = \sum_(0 <= l < j) w l / h * d l)) => //.
- by split=> //; rewrite big_geq.
- move=> j [ee1 g] hj [He1 Hg]; cbn [fst snd] in He1, Hg.
  rewrite (repr1_get He1); last by lia.
  have ji : (j < i)%N by lia.
  cbn [bind]; rewrite ltnn ji /= (negPf h0) /=.
  apply: wpe_bind; apply: (wpe_repr1_set He1); first by lia.
  move=> ee2 He2; rewrite (repr1_get Hd); last by lia.
  cbn [bind]; split; cbn [fst snd].
    apply: repr1_ext He2 _ => k hk; case: (altP (k =P j)) => [->|ne]; first by rewrite ltnSn.
    by have -> : (k < j.+1)%N = (k < j)%N by lia.
  by rewrite Hg big_nat_recr.
- move=> [ee1 g] [He1 Hg]; cbn [fst snd] in He1, Hg.
  rewrite /= (negPf hh0) /= Hg.
  set K := _ / (h + h).
  apply: wpe_mono; last first.
    apply: (for_own1 (fun k => w k / h - K * d k) _ He1); first by lia.
    move=> k ee2 e2 hk He2 E2; rewrite (repr1_get He2); last by lia.
    cbn [bind]; rewrite (repr1_get Hd); last by lia.
    cbn [bind]; rewrite E2; [|by lia|by lia].
    by have -> : (k < i)%N by lia.
  move=> ee2 He2; apply: repr1_ext He2 _ => k hk; rewrite leq0n /=.
  by case: (k < i)%N.
Qed.

Lemma tred2_update_ok i ee dd v d q f e : (0 < i < n)%N -> repr1 n dd d -> repr n n v f ->
  repr1 n ee (fun k => if (k < i)%N then q k else e k) ->
  wp (tred2_update (S:=S) n i ee dd v) (fun st =>
   repr1 n st.1 (fun j => if (j < i)%N then f i.-1 j - (d j * q i.-1 + q j * d i.-1) else d j) /\
   repr n n st.2 (fun a b => if (b <= a < i)%N then f a b - (d b * q a + q b * d a)
                             else if (a == i) && (b < i)%N then 0 else f a b)).
Proof.
move=> hi Hd Hv He; rewrite /tred2_update.
apply: (wpe_for (fun j (st : seq F * seq F) =>
   repr1 n st.1 (fun k => if (k < j)%N then f i.-1 k - (d k * q i.-1 + q k * d i.-1) else d k) /\
   repr n n st.2 (fun a b => if (b <= a < i)%N && (b < j)%N then f a b - (d b * q a + q b * d a)
                             else if (a == i) && (b < j)%N then 0 else f a b))) => //.
- split; first exact: Hd.
  by apply: repr_ext Hv _ => a b _ _; rewrite !ltn0 !andbF.
- move=> j [dd1 v1] hj [Hd1 Hv1]; cbn [fst snd] in Hd1, Hv1.
  have ji : (j < i)%N by lia.
  rewrite (repr1_get Hd1); last by lia.
  cbn [bind]; rewrite (repr1_get He); last by lia.
  cbn [bind]; rewrite ltnn ji; apply: wpe_bind.
  apply: wpe_mono; last first.
    apply: (for_own (fun a b => if b == j then a else i)
      (fun a b => f a b - (d b * q a + q b * d a)) _ Hv1); first by lia.
    move=> k v2 f2 hk Hv2 E2; rewrite (repr_get Hv2); [|by lia|by lia].
    cbn [bind]; rewrite (repr1_get He); last by lia.
    cbn [bind]; rewrite (repr1_get Hd1); last by lia.
    cbn [bind]; have -> : (k < i)%N by lia.
    have -> : (k < j)%N = false by lia.
    rewrite E2; [|by lia|by lia|by rewrite !eqxx].
    rewrite ltnn !andbF.
    apply: (wpe_repr_set Hv2); [by lia|by lia|] => v3 Hv3; apply: repr_ext Hv3 _ => a b ha hb.
    case: (altP (b =P j)) => [->|nb]; last by rewrite andbF; have -> : (i == k) = false by lia.
    by rewrite andbT; case: eqP => // ->.
  move=> v2 Hv2; cbn beta.
  have {}Hv2 : repr n n v2 (fun a b => if (b <= a < i)%N && (b < j.+1)%N then f a b - (d b * q a + q b * d a)
                             else if (a == i) && (b < j)%N then 0 else f a b).
    apply: repr_ext Hv2 _ => a b ha hb; case: (altP (b =P j)) => [->|nb].
      by rewrite ltnn ltnSn !andbT !andbF.
    have -> : (j <= i < i)%N = false by lia.
    by have -> : (b < j.+1)%N = (b < j)%N by lia.
  rewrite subn1 (repr_get Hv2); [|by lia|by lia]; cbn [bind].
  have -> : (j <= i.-1 < i)%N && (j < j.+1)%N by lia.
  apply: wpe_bind; apply: (wpe_repr1_set Hd1); first by lia.
  move=> dd2 Hd2; apply: wpe_bind; apply: (wpe_repr_set Hv2); [by lia|by lia|].
  move=> v3 Hv3; split; cbn [fst snd].
    apply: repr1_ext Hd2 _ => k hk; case: (altP (k =P j)) => [->|ne]; first by rewrite ltnSn.
    by have -> : (k < j.+1)%N = (k < j)%N by lia.
  apply: repr_ext Hv3 _ => a b ha hb; case: (boolP ((a == i) && (b == j))) => h1.
    have -> : (b <= a < i)%N && (b < j.+1)%N = false by lia.
    by have -> : (a == i) && (b < j.+1)%N by lia.
  case: ifP => // _; by have -> : (a == i) && (b < j.+1)%N = (a == i) && (b < j)%N by lia.
- move=> [dd1 v1] [Hd1 Hv1]; split; cbn [fst snd]; first exact: Hd1.
  apply: repr_ext Hv1 _ => a b ha hb.
  by have -> : (b <= a < i)%N && (b < i)%N = (b <= a < i)%N by lia.
Qed.

(** ** One step of the reduction *)

(** the matrix the data stands for, when the rows i.. have been reduced *)
Definition wfun (i : nat) f e (a b : nat) : F :=
  if (a < i)%N && (b < i)%N then sy f a b
  else if a == b then f a a
  else if b == a.+1 then e b
  else if a == b.+1 then e a else 0.

Lemma wfunC i f e a b : wfun i f e a b = wfun i f e b a.
Proof.
rewrite /wfun syC andbC; case: ifP => // _.
rewrite [(b == a)]eq_sym; case: eqP => [->//|ab].
by case: eqP => h1; case: eqP => h2 //; lia.
Qed.

(** the Householder vector stored in column i *)
Definition ufun (i : nat) f (a : nat) : F := if (a < i)%N then f a i else 0.

Definition td_rel i d f e d' f' e' : Prop :=
  [/\ forall j, (j < i)%N -> d' j = f' i.-1 j,
      forall k, (i < k)%N -> (k < n)%N -> d' k = d k /\ e' k = e k,
      forall a b, (a < n)%N -> (b < n)%N -> (i < a)%N || (i < b)%N -> f' a b = f a b,
      forall b, (b < i)%N -> f' i b = 0 &
   [/\ d' i != 0 -> \sum_(0 <= l < n) ufun i f' l * ufun i f' l = d' i *+ 2 &
      mxf n n (wfun i.+1 f e) =
        house n (ufun i f') (d' i) *m mxf n n (wfun i f' e') *m house n (ufun i f') (d' i)]].

Lemma sum_lt (G : nat -> F) i : (i <= n)%N ->
  \sum_(0 <= l < n) (if (l < i)%N then G l else 0) = \sum_(0 <= l < i) G l.
Proof.
move=> hi; rewrite (@big_cat_nat _ _ _ i) //= [X in _ + X]big_nat [X in _ + X]big1 ?addr0.
  by apply: eq_big_nat => l /andP[_ ->].
by move=> l /andP[h _]; rewrite ltnNge h.
Qed.

(** nothing to eliminate *)
Lemma td_skip i d f e : (0 < i < n)%N ->
  (forall j, (j < i)%N -> d j = f i j) -> (forall j, (j < i)%N -> d j = 0) ->
  td_rel i d f e (fun j => if j == i then 0 else if (j < i)%N then f i.-1 j else d j)
    (fun a b => if (a == i) && (b < i)%N || (b == i) && (a < i)%N then 0 else f a b)
    (fun k => if k == i then d i.-1 else e k).
Proof.
move=> hi df d0; split.
- move=> j ji; have -> : (i.-1 == i) && (j < i)%N || (j == i) && (i.-1 < i)%N = false by lia.
  by rewrite ji; have -> : (j == i) = false by lia.
- move=> k ki _; have -> : (k == i) = false by lia.
  by have -> : (k < i)%N = false by lia.
- move=> a b _ _ h; by have -> : (a == i) && (b < i)%N || (b == i) && (a < i)%N = false by lia.
- by move=> b bi; rewrite eqxx bi.
rewrite eqxx /house eqxx mul1mx mulmx1; split=> //.
apply/matrixP => a b; rewrite !mxE /wfun.
case: (ltngtP a i) => ai; case: (ltngtP b i) => bi /=.
- have -> : (a < i.+1)%N && (b < i.+1)%N by lia.
  rewrite /sy; have -> : (a == i :> nat) && (b < i)%N || (b == i :> nat) && (a < i)%N = false by lia.
  by have -> : (b == i :> nat) && (a < i)%N || (a == i :> nat) && (b < i)%N = false by lia.
- have -> : (a < i.+1)%N && (b < i.+1)%N = false by lia.
  by do ![case: eqP => ?] => //; lia.
- have -> : (a < i.+1)%N && (b < i.+1)%N by lia.
  rewrite bi /sy; have -> : (i <= a)%N = false by lia.
  rewrite -df // d0 //; have -> : (a == i :> nat) = false by lia.
  by case: eqP => [h|_]; [rewrite ?eqxx d0 //; lia|case: eqP => // ?; lia].
- have -> : (a < i.+1)%N && (b < i.+1)%N = false by lia.
  by do ![case: eqP => ?] => //; lia.
- have -> : (a < i.+1)%N && (b < i.+1)%N = false by lia.
  by do ![case: eqP => ?] => //; lia.
- have -> : (a < i.+1)%N && (b < i.+1)%N = false by lia.
  by do ![case: eqP => ?] => //; lia.
- have -> : (a < i.+1)%N && (b < i.+1)%N by lia.
  rewrite ai /sy (ltnW bi) -df // d0 //.
  have -> : (i == b) = false by lia.
  case: eqP => [?|_]; first by lia.
  by case: eqP => [h|//]; rewrite ?eqxx d0 //; lia.
- have -> : (a < i.+1)%N && (b < i.+1)%N = false by lia.
  by do ![case: eqP => ?] => //; lia.
- by have -> : (a < i.+1)%N && (b < i.+1)%N by [lia]; rewrite /sy; have -> : (b <= a)%N by [lia]; have -> : (a == b :> nat) by [lia]; congr (f _ _); lia.
Qed.

(** the vector that is eliminated, padded *)
Definition pad (i : nat) u (a : nat) : F := if (a < i)%N then u a else 0.

Lemma pad_sum i u (G : nat -> F) : (i <= n)%N ->
  \sum_(0 <= l < n) pad i u l * G l = \sum_(0 <= l < i) u l * G l.
Proof.
move=> hi; rewrite -(sum_lt (fun l => u l * G l) hi); apply: eq_bigr => l _.
by rewrite /pad; case: ifP => // _; rewrite mul0r.
Qed.

Lemma pad_norm i u : (i <= n)%N ->
  \sum_(0 <= l < n) pad i u l * pad i u l = \sum_(0 <= l < i) u l * u l.
Proof.
by move=> hi; rewrite pad_sum //; apply: eq_big_nat => l /andP[_ hl]; rewrite /pad hl.
Qed.

Lemma td_house i f e f' e' u h g sc : (0 < i < n)%N -> h != 0 ->
  \sum_(0 <= l < i) u l * u l = h *+ 2 ->
  \sum_(0 <= l < i) u l * f i l = sc * h ->
  (forall a, (a < i)%N -> f i a - sc * u a = if a == i.-1 then sc * g else 0) ->
  let w a := \sum_(0 <= l < i) sy f a l * u l in
  let q a := w a / h - (\sum_(0 <= l < i) w l / h * u l) / (h + h) * u a in
  (forall a b, (b <= a < i)%N -> f' a b = f a b - (u b * q a + q b * u a)) ->
  (forall a, (i <= a < n)%N -> f' a a = f a a) ->
  e' i = sc * g -> (forall k, (i < k < n)%N -> e' k = e k) ->
  mxf n n (wfun i.+1 f e) =
    house n (pad i u) h *m mxf n n (wfun i f' e') *m house n (pad i u) h.
Proof.
move=> hi h0 Hu Hs Hg w q Hf Hd Hei Hek.
set H := house n (pad i u) h.
have HH : H *m H = 1%:M by apply: house_invol => _; rewrite pad_norm ?Hu //; lia.
suff E : H *m mxf n n (wfun i.+1 f e) *m H = mxf n n (wfun i f' e').
  by rewrite -E !mulmxA HH mul1mx -mulmxA HH mulmx1.
have hh0 : h + h != 0 by rewrite -mulr2n mulrn_eq0 /= (negPf h0).
have two0 : (2%:R : F) != 0 by rewrite pnatr_eq0.
rewrite /H house_sim //; last by move=> a b _ _; apply: wfunC.
have Es b : (b < n)%N -> \sum_(0 <= l < n) pad i u l * wfun i.+1 f e l b =
   if (b < i)%N then w b else if b == i then sc * h else 0.
  move=> hb; rewrite pad_sum; last by lia.
  case: (ltngtP b i) => bi.
  - apply: eq_big_nat => l hl; rewrite /wfun; have -> : (l < i.+1)%N && (b < i.+1)%N by lia.
    by rewrite syC mulrC.
  - rewrite big_nat big1 // => l hl; rewrite /wfun.
    have -> : (l < i.+1)%N && (b < i.+1)%N = false by lia.
    have -> : (l == b) = false by lia.
    have -> : (b == l.+1) = false by lia.
    by have -> : (l == b.+1) = false by [lia]; rewrite mulr0.
  - rewrite -Hs bi; apply: eq_big_nat => l hl; rewrite /wfun.
    have -> : (l < i.+1)%N && (i < i.+1)%N by lia.
    by rewrite /sy; have -> : (i <= l)%N = false by lia.
have Ek : \sum_(0 <= l < n) pad i u l * (\sum_(0 <= l' < n) pad i u l' * wfun i.+1 f e l' l) =
   \sum_(0 <= l < i) w l * u l.
  rewrite pad_sum; last by lia.
  by apply: eq_big_nat => l hl; rewrite Es; [have -> : (l < i)%N by lia|lia]; rewrite mulrC.
rewrite Ek; set K := \sum_(0 <= l < i) w l * u l.
have EK : \sum_(0 <= l < i) w l / h * u l = K / h.
  by rewrite /K mulr_suml; apply: eq_bigr => l _; rewrite mulrAC.
apply/matrixP => a b; rewrite !mxE !Es //.
(* by symmetry, b <= a *)
have main : forall a b, (b <= a)%N -> (a < n)%N ->
   wfun i.+1 f e a b - pad i u a * (if (b < i)%N then w b else if b == i then sc * h else 0) / h
   - (if (a < i)%N then w a else if a == i then sc * h else 0) / h * pad i u b
   + pad i u a * pad i u b * K / (h * h) = wfun i f' e' a b.
  move=> {}a {}b ba an; rewrite /pad.
  case: (ltngtP a i) => ai.
  - have bi : (b < i)%N by lia.
    rewrite bi /wfun ai bi /=; have -> : (a < i.+1)%N && (b < i.+1)%N by lia.
    rewrite /sy ba Hf ?ba // /q EK.
    move: (w a) (w b) (u a) (u b) (f a b) => x1 x2 x3 x4 x5.
    by field; rewrite h0 andbT hh0.
  - have -> : wfun i.+1 f e a b = wfun i f' e' a b.
      rewrite /wfun; have -> : (a < i.+1)%N && (b < i.+1)%N = false by lia.
      have -> : (a < i)%N && (b < i)%N = false by lia.
      case: eqP => [ab|_]; first by rewrite Hd //; lia.
      case: eqP => [ab|_]; first by lia.
      by case: eqP => [ab|//]; rewrite Hek //; lia.
    by rewrite !mul0r subr0 subr0 addr0.
  - rewrite ai !mul0r subr0 addr0.
    case: (ltngtP b i) => bi; [|by lia|].
    + rewrite /wfun; have -> : (i < i.+1)%N && (b < i.+1)%N by lia.
      have -> : (i < i)%N && (b < i)%N = false by lia.
      have -> : (i == b) = false by lia.
      have -> : (b == i.+1) = false by lia.
      rewrite /sy (ltnW bi) mulfK // Hg // Hei.
      have -> : (b == i.-1) = (i == b.+1) by lia.
      by [].
    + rewrite mulr0 subr0 bi /wfun; have -> : (i < i.+1)%N && (i < i.+1)%N by lia.
      by rewrite ltnn /= eqxx /sy leqnn Hd //; lia.
case: (leqP b a) => ab; first by rewrite main.
rewrite [RHS]wfunC -main //; last exact: ltnW.
rewrite wfunC; move: (wfun _ _ _ _ _) (pad _ _ _) (pad _ _ _) => x1 x2 x3.
move: (if _ then _ else _) (if _ then _ else _) => x4 x5; ring.
Qed.

Lemma sum_abs0 (G : nat -> F) i : \sum_(0 <= k < i) `|G k| = 0 -> forall k, (k < i)%N -> G k = 0.
Proof.
rewrite big_mkord => /eqP; rewrite psumr_eq0 // => /allP H k ki.
by apply/eqP; rewrite -normr_eq0; apply: (H (Ordinal ki)); rewrite mem_index_enum.
Qed.

Lemma sum_abs_neq0 (G : nat -> F) i : \sum_(0 <= k < i) `|G k| != 0 -> exists2 k, (k < i)%N & G k != 0.
Proof.
move=> H; have : has (fun k => G k != 0) (iota 0 i).
  apply: contraR H; rewrite -all_predC => /allP H; rewrite big_nat big1 // => k /andP[_ ki].
  by have := H k; rewrite mem_iota add0n ki => /(_ isT) /=; rewrite negbK => /eqP ->; rewrite normr0.
by move=> /hasP[k]; rewrite mem_iota add0n => ki h; exists k.
Qed.

(** the Householder vector of a non-zero vector *)
Lemma house_vec_facts i (x : nat -> F) : (0 < i)%N -> (exists2 k, (k < i)%N & x k != 0) ->
  let s := \sum_(0 <= k < i) x k * x k in
  let f0 := x i.-1 in
  let g := if 0 < f0 then - Num.sqrt s else Num.sqrt s in
  let h := s - f0 * g in
  let u k := if k == i.-1 then f0 - g else x k in
  [/\ h != 0, \sum_(0 <= l < i) u l * u l = h *+ 2 & \sum_(0 <= l < i) u l * x l = h].
Proof.
move=> i0 [k0 ki xk] s f0 g h u.
have s_gt0 : 0 < s.
  rewrite /s (bigD1_seq k0) ?mem_index_iota ?iota_uniq //=.
  by rewrite ltr_spaddl ?sumr_ge0 // => *; rewrite -expr2 ?sqr_ge0 // lt_def sqrf_eq0 xk sqr_ge0.
have gg : g * g = s.
  by rewrite -expr2 /g; case: ifP => _; rewrite ?sqrrN sqr_sqrtr // ltW.
have fg : f0 * g <= 0.
  rewrite /g; case: ltP => hf; first by rewrite mulrN oppr_le0 mulr_ge0 ?sqrtr_ge0 ?ltW.
  by rewrite mulr_le0_ge0 ?sqrtr_ge0.
have S1 (G H : nat -> F) : (forall k, (k < i.-1)%N -> G k = H k) ->
   \sum_(0 <= l < i) G l = \sum_(0 <= l < i) H l - H i.-1 + G i.-1.
  move=> E; rewrite -(prednK i0) !big_nat_recr //= addrK; congr (_ + _).
  by apply: eq_big_nat => l /andP[_ hl]; apply: E.
have uE : u i.-1 = f0 - g by rewrite /u eqxx.
split.
- by rewrite gt_eqF // /h subr_gt0 (le_lt_trans fg).
- rewrite (S1 _ (fun l => x l * x l)); last by move=> k hk; rewrite /u; have -> : (k == i.-1) = false by lia.
  rewrite uE -/s -/f0 /h -gg mulr2n; ring.
- rewrite (S1 _ (fun l => x l * x l)); last by move=> k hk; rewrite /u; have -> : (k == i.-1) = false by lia.
  by rewrite uE -/s -/f0 /h mulrBl; move: (f0 * f0) (g * f0) (mulrC g f0) => z1 z2 <-; ring.
Qed.

Lemma tred2_step_ok i dd v ee d f e : (0 < i < n)%N ->
  (forall j, (j < i)%N -> d j = f i j) ->
  repr1 n dd d -> repr n n v f -> repr1 n ee e ->
  wp (tred2_step (S:=S) n i (dd, v, ee)) (fun st => exists d' f' e',
    [/\ repr1 n st.1.1 d', repr n n st.1.2 f', repr1 n st.2 e' & td_rel i d f e d' f' e']).
Proof.
move=> hi df Hd Hv He; rewrite /tred2_step (tred2_scale_ok Hd); last by lia.
cbn [bind]; set sc := \sum_(0 <= k < i) _.
exs; case: (altP (sc =P 0)) => sc0; cbn [bind].
- apply: wpe_bind; apply: wpe_bind; apply: wpe_mono (tred2_skip_ok hi Hd Hv He) => -[[dd1 v1] ee1] [Hd1 Hv1 He1].
  cbn [fst snd] in Hd1, Hv1, He1; apply: wpe_ok; cbn [bind].
  apply: wpe_bind; apply: (wpe_repr1_set Hd1); first by lia.
  move=> dd2 Hd2; apply: wpe_ok; cbn [fst snd].
  do 3!eexists; split; [exact: Hd2|exact: Hv1|exact: He1|].
  by apply: td_skip => //; apply: sum_abs0.
- apply: wpe_bind; apply: wpe_bind.
  apply: wpe_mono; last first. apply: (tred2_scaled_ok _ sc0 Hd). by lia.
  move=> -[dd1 h1] [Hd1 Hh]; cbn [fst snd] in Hd1, Hh.
  pose x k := d k / sc.
  rewrite (repr1_get Hd1); last by lia.
  have i1 : (i.-1 < i)%N by lia.
  cbn [bind]; rewrite subn1 i1.
  have xne : exists2 k, (k < i)%N & x k != 0.
    by have [k ki dk] := sum_abs_neq0 sc0; exists k; rewrite // mulf_neq0 ?invr_eq0.
  have i0 : (0 < i)%N by lia.
  have := house_vec_facts i0 xne.
  rewrite -Hh -/(x i.-1); set f0 := x i.-1; cbn zeta.
  have h1ge : 0 <= h1 by rewrite Hh sumr_ge0 // => k _; rewrite -expr2 sqr_ge0.
  rewrite [h1 < 0]ltNge h1ge; cbn [negb bind].
  set g := (if 0 < f0 then _ else _); set h := h1 - f0 * g.
  pose u k := if k == i.-1 then f0 - g else x k; move=> [h0 Hu Hx].
  apply: wpe_bind; apply: (wpe_repr1_set He); first by lia.
  move=> ee1 He1; cbn [bind].
  apply: wpe_bind; apply: (wpe_repr1_set Hd1); first by lia.
  move=> dd2 Hd2; cbn [bind].
  apply: wpe_bind; apply: wpe_mono; last first. apply: (zero_loop _ He1). by lia.
  move=> ee2 He2; cbn beta.
  have {}Hd2 : repr1 n dd2 (fun k => if (k < i)%N then u k else d k).
    apply: repr1_ext Hd2 _ => k hk; rewrite /u; case: eqP => [->|_]; first by rewrite i1.
    by [].
  apply: wpe_bind; apply: wpe_mono; last first. apply: (tred2_matvec_ok _ Hd2 Hv He2). by lia.
  move=> [v1 ee3] [Hv1 He3]; cbn [fst snd] in Hv1, He3.
  pose w a := \sum_(0 <= l < i) sy f a l * u l.
  pose q a := w a / h - (\sum_(0 <= l < i) w l / h * u l) / (h + h) * u a.
  have {}He3 : repr1 n ee3 (fun k => if (k < i)%N then w k else if k == i then sc * g else e k).
    apply: repr1_ext He3 _ => k _; case: ifP => // ki.
    by apply: eq_big_nat => l /andP[_ ->].
  have {}Hv1 : repr n n v1 (fun a b => if (b == i) && (a < i)%N then u a else f a b).
    by apply: repr_ext Hv1 _ => a b _ _; case: (a < i)%N; rewrite ?andbF ?andbT.
  apply: wpe_bind; apply: wpe_mono; last first.
    by apply: (tred2_correct_ok _ h0 Hd2 He3); lia.
  move=> ee4 He4; cbn beta in He4.
  have {}He4 : repr1 n ee4 (fun k => if (k < i)%N then q k else if k == i then sc * g else e k).
    apply: repr1_ext He4 _ => k _; case: ifP => // ki; rewrite /q.
    rewrite ki; congr (_ - _ / _ * _).
    by apply: eq_big_nat => l /andP[_ ->].
  apply: wpe_bind; apply: wpe_mono; last first.
    by apply: (tred2_update_ok hi Hd2 Hv1 He4).
  move=> [dd3 v2] [Hd3 Hv2]; cbn [fst snd] in Hd3, Hv2.
  pose f' a b := if (b <= a < i)%N then f a b - (u b * q a + q b * u a)
     else if (a == i) && (b < i)%N then 0 else if (b == i) && (a < i)%N then u a else f a b.
  have {}Hd3 : repr1 n dd3 (fun j => if (j < i)%N then f' i.-1 j else d j).
    apply: repr1_ext Hd3 _ => j _; case: (ltnP j i) => ji //.
    rewrite i1; have -> : (j == i) && true = false by lia.
    by rewrite /f'; have -> : (j <= i.-1 < i)%N by lia.
  have {}Hv2 : repr n n v2 f'.
    apply: repr_ext Hv2 _ => a b _ _; rewrite /f'; case: ifP => // ha.
    have -> : (b == i) && (a < i)%N = false by lia.
    have -> : (a < i)%N by lia.
    by have -> : (b < i)%N by lia.
  apply: wpe_ok; cbn [bind].
  apply: wpe_bind; apply: (wpe_repr1_set Hd3); first by lia.
  move=> dd4 Hd4; apply: wpe_ok; cbn [fst snd].
  do 3!eexists; split; [exact: Hd4|exact: Hv2|exact: He4|].
  have ufE : ufun i f' =1 pad i u.
    move=> a; rewrite /ufun /pad /f'; case: (ltnP a i) => // ai.
    have -> : (a == i) = false by lia.
    by rewrite /= eqxx.
  split.
  + by move=> j ji; rewrite ji; have -> : (j == i) = false by lia.
  + move=> k ki kn; have -> : (k == i) = false by lia.
    by have -> : (k < i)%N = false by lia.
  + move=> a b _ _ h2; rewrite /f'; have -> : (b <= a < i)%N = false by lia.
    have -> : (a == i) && (b < i)%N = false by lia.
    by have -> : (b == i) && (a < i)%N = false by lia.
  + move=> b bi; rewrite /f' ltnn andbF eqxx bi; by [].
  rewrite eqxx; split.
    move=> _; rewrite -Hu -(pad_norm u); last by lia.
    by apply: eq_bigr => l _; rewrite ufE.
  have -> : house n (ufun i f') h = house n (pad i u) h by apply: house_ext => // _ l _; rewrite ufE.
  apply: (td_house (g := g) (sc := sc) hi h0 Hu) => //.
  + transitivity (sc * \sum_(0 <= l < i) u l * x l); last by rewrite [X in _ * X]Hx.
    rewrite mulr_sumr; apply: eq_big_nat => l /andP[_ hl]; rewrite -df // /x.
    by rewrite mulrCA [sc * _]mulrC divfK.
  + move=> a ai; rewrite -df // /u; case: eqP => [->|_].
      rewrite /f0 /x; move: (d i.-1) => z; field; exact: sc0.
    by rewrite /x mulrC divfK // subrr.
  + by move=> a b hab; rewrite /f' hab.
  + move=> a ha; rewrite /f'; have -> : (a <= a < i)%N = false by lia.
    by have -> : (a == i) && (a < i)%N = false by [lia].
  + by rewrite ltnn eqxx.
  + move=> k hk; have -> : (k < i)%N = false by lia.
    by have -> : (k == i) = false by lia.
Qed.

(** ** The whole reduction *)

(** the reflections are orthogonal *)
Definition hh d f (k : nat) : 'M[F]_n := house n (ufun k f) (d k).

(** H_{i+c} ... H_{i+1} *)
Fixpoint PA d f (c i : nat) : 'M[F]_n :=
  if c is c'.+1 then PA d f c' i.+1 *m hh d f i.+1 else 1%:M.

Lemma PA_l d f c i : PA d f c.+1 i = hh d f (i + c.+1) *m PA d f c i.
Proof.
elim: c i => [|c IH] i; first by rewrite /= addn1 mul1mx mulmx1.
by rewrite [LHS]/= -/(PA d f c.+1 i.+1) IH /= !mulmxA addSnnS.
Qed.

Lemma PA_ext d f d' f' c i :
  (forall k l, (i < k <= i + c)%N -> (l < n)%N -> ufun k f l = ufun k f' l) ->
  (forall k, (i < k <= i + c)%N -> d k = d' k) ->
  PA d f c i = PA d' f' c i.
Proof.
elim: c i => // c IH i Hu Hd /=; rewrite (IH i.+1).
- congr (_ *m _); apply: house_ext; first by apply: Hd; lia.
  by move=> _ l ln; apply: Hu => //; lia.
- by move=> k l hk ln; apply: Hu => //; lia.
- by move=> k hk; apply: Hd; lia.
Qed.

Definition okh d f (k : nat) : Prop :=
  d k != 0 -> \sum_(0 <= l < n) ufun k f l * ufun k f l = d k *+ 2.

Lemma hh_orth d f k : okh d f k -> orthogonal (hh d f k).
Proof. exact: house_orth. Qed.

Lemma PA_orth d f c i : (forall k, (i < k <= i + c)%N -> okh d f k) -> orthogonal (PA d f c i).
Proof.
elim: c i => [|c IH] i H /=; first exact: orthogonal1.
by apply: orthogonalM; [apply: IH => k hk; apply: H; lia|apply: hh_orth; apply: H; lia].
Qed.

Definition red_inv (f0 : nat -> nat -> F) i d f e : Prop :=
  [/\ (forall j, (j <= i)%N -> d j = f i j),
      (forall k b, (i < k < n)%N -> (b < k)%N -> f k b = 0),
      (forall k, (i < k < n)%N -> okh d f k) &
      mxf n n (sy f0) = PA d f (n.-1 - i) i *m mxf n n (wfun i.+1 f e) *m (PA d f (n.-1 - i) i)^T].

Lemma tred2_red_ok dd v ee d f e : (0 < n)%N ->
  (forall j, (j < n)%N -> d j = f n.-1 j) ->
  repr1 n dd d -> repr n n v f -> repr1 n ee e ->
  wp (for_rev 1 n (tred2_step (S:=S) n) (dd, v, ee)) (fun st => exists d' f' e',
    [/\ repr1 n st.1.1 d', repr n n st.1.2 f', repr1 n st.2 e' & red_inv f 0 d' f' e']).
Proof.
move=> n0 df Hd Hv He.
apply: (wpe_for_rev (fun i (st : td_state S) => exists d' f' e',
    [/\ repr1 n st.1.1 d', repr n n st.1.2 f', repr1 n st.2 e' & red_inv f i.-1 d' f' e'])) => //.
- exists d, f, e; split=> //; split.
  + by move=> j hj; apply: df; lia.
  + by move=> k b hk; lia.
  + by move=> k hk; lia.
  + rewrite subnn /= mul1mx trmx1 mulmx1 prednK //; apply/matrixP => a b; rewrite !mxE /wfun.
    by rewrite !ltn_ord.
- move=> i [[dd1 v1] ee1] hi [d1 [f1 [e1 [Hd1 Hv1 He1 [I1 I2 I3 I4]]]]].
  cbn [fst snd] in Hd1, Hv1, He1; cbn [predn] in I1, I2, I3, I4.
  apply: wpe_mono; last first.
    apply: (tred2_step_ok _ _ Hd1 Hv1 He1); first by lia.
    by move=> j ji; apply: I1; lia.
  move=> st [d2 [f2 [e2 [Hd2 Hv2 He2 [R1 R2 R3 R4 [R5 R6]]]]]].
  exists d2, f2, e2; split=> //.
  have uE k l : (i < k < n)%N -> (l < n)%N -> ufun k f1 l = ufun k f2 l.
    move=> hk ln; rewrite /ufun; case: ifP => // lk; rewrite R3 //; lia.
  have dE k : (i < k < n)%N -> d1 k = d2 k by move=> hk; have [||-> _] := R2 k; [lia|lia|].
  split.
  + by move=> j ji; apply: R1; lia.
  + move=> k b hk bk; case: (altP (k =P i)) => [ki|ki]; first by rewrite ki R4 // -ki.
    by rewrite R3; [apply: I2; lia|lia|lia|lia].
  + move=> k hk; case: (altP (k =P i)) => [->//|ki] h0.
    have hk' : (i < k < n)%N by lia.
    rewrite -dE //; have := I3 _ hk'; rewrite /okh dE // => /(_ h0) <-.
    by apply: eq_big_nat => l hl; rewrite uE //; lia.
  + rewrite prednK; last by lia.
    have -> : (n.-1 - i.-1)%N = (n.-1 - i).+1 by lia.
    cbn [PA]; rewrite prednK; last by lia.
    rewrite I4 R6 -/(hh d2 f2 i).
    rewrite (@PA_ext d1 f1 d2 f2 (n.-1 - i) i); first last.
    - by move=> k hk; apply: dE; lia.
    - by move=> k l hk ln; apply: uE; lia.
    by rewrite trmx_mul house_tr !mulmxA.
Qed.

(** ** Accumulation of the transformations *)

(** the product H_k ... H_1 *)
Fixpoint qf d f (k : nat) (a b : nat) : F :=
  if k is k'.+1 then
    if d k == 0 then qf d f k' a b
    else qf d f k' a b - ufun k f a * (\sum_(0 <= l < n) ufun k f l * qf d f k' l b) / d k
  else (a == b)%:R.

Lemma qfE d f k : mxf n n (qf d f k) = PA d f k 0.
Proof.
elim: k => [|k IH]; first by apply/matrixP => a b; rewrite !mxE.
rewrite PA_l -IH add0n /hh; case: (altP (d k.+1 =P 0)) => h0.
  rewrite /house h0 eqxx mul1mx; apply/matrixP => a b; rewrite !mxE /= h0 eqxx //.
by rewrite house_lE //; apply/matrixP => a b; rewrite !mxE /= (negPf h0).
Qed.

Lemma qf_id d f k a b : (a < n)%N -> (b < n)%N -> (k <= a)%N || (k <= b)%N -> qf d f k a b = (a == b)%:R.
Proof.
move=> an bn; elim: k a an => [//|k IH] a an h /=; case: ifP => _; first by apply: IH => //; lia.
rewrite IH //; last by lia.
case: (leqP k.+1 a) => ka; first by rewrite /ufun ltnNge ka /= !mul0r subr0.
have kb : (k < b)%N by move: h; rewrite [X in X || _]leqNgt ka.
rewrite big_nat big1 ?mulr0 ?mul0r ?subr0 // => l hl.
rewrite IH; [|by lia|by lia]; rewrite /ufun; case: ifP => lk; last by rewrite mul0r.
by have -> : (l == b) = false by [lia]; rewrite mulr0.
Qed.

Lemma tred2_acc_ok i dd v d0 fr d1 f1 : (i < n.-1)%N ->
  (forall k b, (0 < k < n)%N -> (b < k)%N -> fr k b = 0) ->
  repr1 n dd d1 -> repr n n v f1 ->
  (forall k, (i <= k < n)%N -> d1 k = d0 k) ->
  (forall a b, (a < i)%N -> (b < i)%N -> f1 a b = qf d0 fr i a b) ->
  (forall a, (a < i)%N -> f1 a i = 0) ->
  (forall a b, (a < i)%N -> (i < b < n)%N -> f1 a b = fr a b) ->
  (forall a b, (i <= a < n.-1)%N -> (b < n)%N -> f1 a b = fr a b) ->
  (forall b, (b < n)%N -> f1 n.-1 b = if (b < i)%N then fr b b else fr n.-1 b) ->
  wp (tred2_acc (S:=S) n i (dd, v)) (fun st => exists d2 f2,
    [/\ repr1 n st.1 d2, repr n n st.2 f2,
        (forall k, (i.+1 <= k < n)%N -> d2 k = d0 k),
        (forall a b, (a < i.+1)%N -> (b < i.+1)%N -> f2 a b = qf d0 fr i.+1 a b) &
      [/\ (forall a, (a < i.+1)%N -> f2 a i.+1 = 0),
          (forall a b, (a < i.+1)%N -> (i.+1 < b < n)%N -> f2 a b = fr a b),
          (forall a b, (i.+1 <= a < n.-1)%N -> (b < n)%N -> f2 a b = fr a b) &
          (forall b, (b < n)%N -> f2 n.-1 b = if (b < i.+1)%N then fr b b else fr n.-1 b)]]).
Proof.
move=> hi Hz Hd Hv Ed B C U L La; rewrite /tred2_acc.
rewrite (repr_get Hv); [|by lia|by lia]; cbn [bind].
rewrite subn1; apply: wpe_bind; apply: (wpe_repr_set Hv); [by lia|by lia|].
move=> v1 Hv1; apply: wpe_bind; apply: (wpe_repr_set Hv1); [by lia|by lia|].
move=> v2 Hv2 {v1 Hv1}.
pose f2 a b := if (a == i) && (b == i) then 1 else if (a == n.-1) && (b == i) then f1 i i else f1 a b.
change (repr n n v2 f2) in Hv2.
have Bf a b : (a < i.+1)%N -> (b < i.+1)%N -> f2 a b = qf d0 fr i a b.
  move=> ha hb; rewrite /f2; have -> : (a == n.-1) && (b == i) = false by lia.
  case: (ltngtP a i) => ai /=; [|by lia|].
  - case: (ltngtP b i) => bi; [by rewrite B| by lia|].
    by rewrite bi C // qf_id; [have -> : (a == i) = false by lia|lia|lia|lia].
  - case: (ltngtP b i) => bi; [|by lia|].
      rewrite ai L; [|by lia|by lia]; rewrite Hz; [|by lia|by lia].
      by rewrite qf_id; [have -> : (i == b) = false by lia|lia|lia|lia].
    by rewrite ai bi qf_id ?eqxx //; lia.
have Uf a : (a < i.+1)%N -> f2 a i.+1 = ufun i.+1 fr a.
  move=> ha; rewrite /f2 /ufun ha; have -> : (a == i) && (i.+1 == i) = false by lia.
  have -> : (a == n.-1) && (i.+1 == i) = false by lia.
  case: (altP (a =P i)) => [->|ai]; first by rewrite L //; lia.
  by rewrite U //; lia.
rewrite addn1 (repr1_get Hd); last by lia.
cbn [bind]; rewrite Ed; last by lia.
apply: (wpe_bind2 (P := fun st : seq F * seq F => exists2 d2,
   repr1 n st.1 d2 /\ (forall k, (i.+1 <= k < n)%N -> d2 k = d0 k) &
   repr n n st.2 (fun a b => if (a < i.+1)%N && (b < i.+1)%N then qf d0 fr i.+1 a b else f2 a b))).
- exs; case: (altP (d0 i.+1 =P 0)) => h0 /=.
    exists d1; first by split=> // k hk; apply: Ed; lia.
    apply: repr_ext Hv2 _ => a b ha hb; case: ifP => // /andP[ai bi].
    by rewrite h0 eqxx Bf.
  apply: wpe_bind; apply: wpe_mono; last first.
    apply: (for_own1 (fun k => f2 k i.+1 / d0 i.+1) _ Hd); first by lia.
    move=> k dd1 d3 hk Hd3 E3; rewrite (repr_get Hv2); [|by lia|by lia].
    by [].
  move=> dd1 Hd1; cbn beta in Hd1; apply: wpe_bind; apply: wpe_mono; last first.
    apply: (for_own (fun a b => if (a < i.+1)%N then b else n)
      (fun a b => qf d0 fr i.+1 a b) _ Hv2); first by lia.
    move=> j v3 f3 hj Hv3 E3.
    have ji : (j < i.+1)%N by lia.
    have F3 a : (a < i.+1)%N -> f3 a j = qf d0 fr i a j.
      by move=> ai; rewrite E3; [rewrite Bf|lia|lia|rewrite ai eqxx].
    have U3 a : (a < i.+1)%N -> f3 a i.+1 = ufun i.+1 fr a.
      by move=> ai; rewrite E3; [rewrite Uf|lia|lia|rewrite ai; lia].
    have -> : for_ 0 i.+1 (fun k g => x <-- vget v3 (k * n + i.+1);; y <-- vget v3 (k * n + j);; Ok (g + x * y)) 0
       = Ok (\sum_(0 <= l < n) ufun i.+1 fr l * qf d0 fr i l j).
      rewrite (for_sum0 (G := fun k => f3 k i.+1 * f3 k j)); last first.
        move=> k s hk; rewrite (repr_get Hv3); [|by lia|by lia]; cbn [bind].
        by rewrite (repr_get Hv3); [|by lia|by lia].
      congr Ok; rewrite -(sum_lt _ (i := i.+1)); last by lia.
      apply: eq_bigr => l _; case: ifP => li; last by rewrite /ufun li mul0r.
      by rewrite F3 // U3.
    cbn [bind]; set g := \sum_(0 <= l < n) _.
    apply: wpe_mono; last first.
      apply: (for_own (fun a b => if b == j then a else n)
        (fun a b => qf d0 fr i.+1 a b) _ Hv3); first by lia.
      move=> k v4 f4 hk Hv4 E4.
      have ki : (k < i.+1)%N by lia.
      rewrite (repr_get Hv4); [|by lia|by lia]; cbn [bind].
      rewrite (repr1_get Hd1); last by lia.
      cbn [bind]; rewrite ki /= E4; [|by lia|by lia|by rewrite eqxx eqxx].
      apply: (wpe_repr_set Hv4); [by lia|by lia|] => v5 Hv5; apply: repr_ext Hv5 _ => a b ha hb.
      case: (altP (b =P j)) => [->|nb]; last by rewrite andbF; have -> : (n == k) = false by lia.
      rewrite andbT; case: eqP => // ->; rewrite /= (negPf h0) F3 // Uf // -/g.
      by congr (_ - _); rewrite mulrCA mulrA.
    move=> v4 Hv4; apply: repr_ext Hv4 _ => a b ha hb.
    case: (altP (b =P j)) => [->|nb].
      rewrite leq0n /=; case: (ltnP a i.+1) => ai; first by rewrite eqxx.
      by have -> : (n == j) = false by lia.
    have -> : (0 <= n < i.+1)%N = false by lia.
    by case: (ltnP a i.+1) => ai; [rewrite (negPf nb)|have -> : (n == j) = false by lia].
  move=> v3 Hv3; apply: wpe_ok; cbn [fst snd]; exists (fun a => if (a < i.+1)%N then f2 a i.+1 / d0 i.+1 else d1 a).
    split; first by apply: repr1_ext Hd1 _ => a ha; rewrite leq0n.
    by move=> k hk; have -> : (k < i.+1)%N = false by [lia]; apply: Ed; lia.
  apply: repr_ext Hv3 _ => a b ha hb; rewrite leq0n; case: (ltnP a i.+1) => ai //=.
  by have -> : (n < i.+1)%N = false by lia.
- move=> [dd1 v3] [d3 [Hd3 E3] Hv3]; cbn [fst snd] in Hd3, Hv3.
  apply: wpe_bind; apply: wpe_mono; last first.
    apply: (for_own (fun a b => if b == i.+1 then a else n) (fun _ _ => 0) _ Hv3); first by lia.
    move=> k v4 f4 hk Hv4 E4; apply: (wpe_repr_set Hv4); [by lia|by lia|] => v5 Hv5.
    apply: repr_ext Hv5 _ => a b ha hb; case: (altP (b =P i.+1)) => [->|nb]; first by rewrite andbT.
    by rewrite andbF; have -> : (n == k) = false by lia.
  move=> v4 Hv4; apply: wpe_ok; cbn [fst snd].
  exists d3, (fun a b => if (b == i.+1) && (a < i.+1)%N then 0
     else if (a < i.+1)%N && (b < i.+1)%N then qf d0 fr i.+1 a b else f2 a b); split=> //.
  + apply: repr_ext Hv4 _ => a b ha hb; case: (altP (b =P i.+1)) => [->|nb] //=.
    by have -> : (n < i.+1)%N = false by lia.
  + by move=> a b ai bi; have -> : (b == i.+1) = false by [lia]; rewrite ai bi.
  split.
  + by move=> a ai; rewrite eqxx ai.
  + move=> a b ai bi; have -> : (b == i.+1) = false by lia.
    have -> : (b < i.+1)%N = false by lia.
    rewrite andbF /= /f2; have -> : (a == i) && (b == i) = false by lia.
    have -> : (a == n.-1) && (b == i) = false by lia.
    case: (altP (a =P i)) => [->|ai']; first by rewrite L //; lia.
    by rewrite U //; lia.
  + move=> a b ai bn; have -> : (a < i.+1)%N = false by lia.
    rewrite andbF /= /f2; have -> : (a == i) && (b == i) = false by lia.
    have -> : (a == n.-1) && (b == i) = false by lia.
    by rewrite L //; lia.
  + move=> b bn; have -> : (n.-1 < i.+1)%N = false by lia.
    rewrite andbF /= /f2; have -> : (n.-1 == i) && (b == i) = false by lia.
    rewrite eqxx; case: (altP (b =P i)) => [->|bi] /=; first by rewrite ltnSn L //; lia.
    by rewrite La //; have -> : (b < i.+1)%N = (b < i)%N by lia.
Qed.

Lemma tred2_last_ok dd v d f : (0 < n)%N -> repr1 n dd d -> repr n n v f ->
  wp (tred2_last (S:=S) n dd v) (fun st =>
    repr1 n st.1 (fun j => f n.-1 j) /\
    repr n n st.2 (fun a b => if a == n.-1 then 0 else f a b)).
Proof.
move=> n0 Hd Hv; rewrite /tred2_last.
apply: (wpe_for (fun j (st : seq F * seq F) =>
   repr1 n st.1 (fun k => if (k < j)%N then f n.-1 k else d k) /\
   repr n n st.2 (fun a b => if (a == n.-1) && (b < j)%N then 0 else f a b))) => //.
- split=> //; by apply: repr_ext Hv _ => a b _ _; rewrite andbF.
- move=> j [dd1 v1] hj [Hd1 Hv1]; cbn [fst snd] in Hd1, Hv1; rewrite subn1.
  rewrite (repr_get Hv1); [|by lia|by lia]; cbn [bind]; rewrite ltnn andbF.
  apply: wpe_bind; apply: (wpe_repr1_set Hd1); first by lia.
  move=> dd2 Hd2; apply: wpe_bind; apply: (wpe_repr_set Hv1); [by lia|by lia|] => v2 Hv2.
  apply: wpe_ok; split; cbn [fst snd].
    apply: repr1_ext Hd2 _ => k hk; case: (altP (k =P j)) => [->|ne]; first by rewrite ltnSn.
    by have -> : (k < j.+1)%N = (k < j)%N by lia.
  apply: repr_ext Hv2 _ => a b ha hb; case: (altP (a =P n.-1)) => //= _.
  case: (altP (b =P j)) => [->|ne]; first by rewrite ltnSn.
  by have -> : (b < j.+1)%N = (b < j)%N by lia.
- move=> [dd1 v1] [Hd1 Hv1]; split; cbn [fst snd] in *.
    by apply: repr1_ext Hd1 _ => k hk; rewrite hk.
  by apply: repr_ext Hv1 _ => a b ha hb; rewrite hb andbT.
Qed.

Theorem tred2_ok dd v ee d f e : (0 < n)%N ->
  repr1 n dd d -> repr n n v f -> repr1 n ee e ->
  wp (tred2 (S:=S) n dd v ee) (fun st => exists d' V e',
    [/\ repr1 n st.1.1 d', repr n n st.1.2 V, repr1 n st.2 e', orthogonal (mxf n n V) &
        mxf n n (sy f) = mxf n n V *m tridiag n d' e' *m (mxf n n V)^T /\ e' 0%N = 0]).
Proof.
move=> n0 Hd Hv He; rewrite /tred2.
apply: wpe_bind; apply: wpe_mono (tred2_init_ok Hv Hd) => dd1 Hd1; cbn beta in Hd1.
apply: wpe_bind; apply: wpe_mono; last first.
  by apply: (tred2_red_ok n0 _ Hd1 Hv He).
move=> [[dd2 v2] ee2] [d0 [fr [e0 [Hd2 Hv2 He2 [I1 I2 I3 I4]]]]]; cbn [fst snd] in Hd2, Hv2, He2.
have -> : usub n 1 = Ok n.-1 by rewrite /usub n0 subn1.
cbn [bind].
apply: (wpe_bind2 (P := fun st : seq F * seq F => exists d1 f1,
  [/\ repr1 n st.1 d1, repr n n st.2 f1,
   (forall a b, (a < n.-1)%N -> (b < n.-1)%N -> f1 a b = qf d0 fr n.-1 a b),
   (forall a, (a < n.-1)%N -> f1 a n.-1 = 0) &
   (forall b, (b < n)%N -> f1 n.-1 b = fr b b)])).
  apply: (wpe_for (fun i (st : seq F * seq F) => exists d1 f1,
    [/\ repr1 n st.1 d1, repr n n st.2 f1,
        (forall k, (i <= k < n)%N -> d1 k = d0 k),
        (forall a b, (a < i)%N -> (b < i)%N -> f1 a b = qf d0 fr i a b) &
      [/\ (forall a, (a < i)%N -> f1 a i = 0),
          (forall a b, (a < i)%N -> (i < b < n)%N -> f1 a b = fr a b),
          (forall a b, (i <= a < n.-1)%N -> (b < n)%N -> f1 a b = fr a b) &
          (forall b, (b < n)%N -> f1 n.-1 b = if (b < i)%N then fr b b else fr n.-1 b)]])) => //.
  - by exists d0, fr; split.
  - move=> i [dd3 v3] hi [d1 [f1 [Hd3 Hv3 A1 A2 [A3 A4 A5 A6]]]]; cbn [fst snd] in Hd3, Hv3.
    by apply: (tred2_acc_ok _ _ Hd3 Hv3).
  - move=> st [d1 [f1 [Hd3 Hv3 A1 A2 [A3 A4 A5 A6]]]]; exists d1, f1; split=> //.
    move=> b hb; rewrite A6 //; case: ltnP => // h; congr (fr _ _); lia.
move=> [dd3 v3] [d1 [f1 [Hd3 Hv3 A2 A3 A6]]]; cbn [fst snd] in Hd3, Hv3.
apply: wpe_bind; apply: wpe_mono (tred2_last_ok n0 Hd3 Hv3) => -[dd4 v4] [Hd4 Hv4]; cbn [fst snd] in Hd4, Hv4.
apply: wpe_bind; apply: (wpe_repr_set Hv4); [by lia|by lia|] => v5 Hv5.
apply: wpe_bind; apply: (wpe_repr1_set He2) => // ee3 He3; apply: wpe_ok.
exists (fun k => fr k k), (qf d0 fr n.-1), (fun k => if k == 0%N then 0 else e0 k); cbn [fst snd].
have qE : mxf n n (qf d0 fr n.-1) = PA d0 fr n.-1 0 by apply: qfE.
split=> //.
- by apply: repr1_ext Hd4 _ => k hk; rewrite A6.
- apply: repr_ext Hv5 _ => a b ha hb; case: (altP (a =P n.-1)) => [->|an] /=.
    by rewrite qf_id; [rewrite eq_sym; case: eqP|lia|lia|rewrite leqnn].
  case: (altP (b =P n.-1)) => [->|bn].
    by rewrite A3; [rewrite qf_id ?(negPf an) ?leqnn ?orbT //; lia|lia].
  by rewrite A2 //; lia.
- by rewrite qE; apply: PA_orth => k hk; apply: I3; lia.
split=> //; rewrite qE; move: I4; rewrite subn0 => ->; congr (_ *m _ *m _).
apply/matrixP => a b; rewrite !mxE /wfun -(val_eqE a b) /=.
case: ifP => [h|_].
  have [-> ->] : a = 0%N :> nat /\ b = 0%N :> nat by lia.
  by rewrite /sy.
case: eqP => // _; case: eqP => [-> //|_]; by case: eqP => [-> //|_].
Qed.
End Tred.
