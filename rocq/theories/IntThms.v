(** * IntThms: C61, matrices of machine integers (restated in PropInt.v). *)
From mathcomp Require Import all_ssreflect all_algebra zify ring.
From Verif Require Import Base Scalar Hoare ModelMatrix Spec SpecOps SpecInt MatrixProofs MatrixProofs2 MtProofs MatrixThms OpsThms.

Set Implicit Arguments.
Unset Strict Implicit.
Unset Printing Implicit Defensive.
Import GRing.Theory Num.Theory.
Local Open Scope ring_scope.

(** ** Representable values *)
Lemma span_gt0 t : 0 < span t. Proof. by rewrite /span exprn_gt0. Qed.

Lemma spanE t : span t = 2%:R * 2%:R ^+ (ity_bits t).+1. Proof. by rewrite /span exprS. Qed.
Lemma half_ge2 n : 2%:R <= 2%:R ^+ n.+1 :> int.
Proof. by elim: n => [|n IH] //; rewrite exprS; lia. Qed.

Lemma fits0 t : fits t 0.
Proof. by rewrite /fits /lowest spanE; have := half_ge2 (ity_bits t); case: (ity_signed t) => h; apply/andP; split; lia. Qed.
Lemma fits1 t : fits t 1.
Proof. by rewrite /fits /lowest spanE; have := half_ge2 (ity_bits t); case: (ity_signed t) => h; apply/andP; split; lia. Qed.

(*@section C61 representable values @*)
(*@doc C61: wrap returns a representable value, congruent to its argument
    modulo 2^width, and is the identity exactly on representable values. *)
Lemma wrap_spec_L : forall t x,
  [/\ fits t (wrap t x), exists q, wrap t x = x + q * span t & (wrap t x == x) = fits t x].
Proof.
move=> t x; have s0 := span_gt0 t.
have h0 := modz_ge0 (x - lowest t) (lt0r_neq0 s0); have h1 := ltz_pmod (x - lowest t) s0.
have f : fits t (wrap t x) by rewrite /fits /wrap; apply/andP; split; lia.
split=> //.
  exists (- ((x - lowest t) %/ span t)%Z); rewrite /wrap; have e := divz_eq (x - lowest t) (span t).
  by apply/eqP; move: e; set q := (_ %/ _)%Z; set r := (_ %% _)%Z; rewrite mulNr; set p := q * span t; lia.
apply/idP/idP => [/eqP <- //|/andP[a b]]; rewrite /wrap modz_small; first by apply/eqP; lia.
by apply/andP; split; lia.
Qed.

Lemma wrap_fits t x : fits t x -> wrap t x = x.
Proof. by have [_ _ <-] := wrap_spec_L t x => /eqP. Qed.

Lemma wrap_eq t x q : wrap t (x + q * span t) = wrap t x.
Proof. by rewrite /wrap (_ : x + q * span t - lowest t = q * span t + (x - lowest t)) ?modzMDl // addrCA addrA. Qed.

Lemma wrap_add t x y : wrap t (wrap t x + wrap t y) = wrap t (x + y).
Proof.
have [_ [p ->] _] := wrap_spec_L t x; have [_ [q ->] _] := wrap_spec_L t y.
by rewrite -(wrap_eq t (x + y) (p + q)) mulrDl addrACA.
Qed.
Lemma wrap_opp t x : wrap t (- wrap t x) = wrap t (- x).
Proof. by have [_ [p ->] _] := wrap_spec_L t x; rewrite -(wrap_eq t (- x) (- p)) opprD mulNr. Qed.
Lemma wrap_sub t x y : wrap t (wrap t x - wrap t y) = wrap t (x - y).
Proof. by have [_ [p ->] _] := wrap_spec_L t x; have [_ [q ->] _] := wrap_spec_L t y; rewrite -(wrap_eq t (x - y) (p - q)) mulrBl opprD addrACA. Qed.
Lemma wrap_mul t x y : wrap t (wrap t x * wrap t y) = wrap t (x * y).
Proof.
have [_ [p ->] _] := wrap_spec_L t x; have [_ [q ->] _] := wrap_spec_L t y.
rewrite -(wrap_eq t (x * y) (x * q + p * y + p * q * span t)); congr wrap.
by ring.
Qed.

(** ** Relating two element types along the ring operations *)
Section Rel.
Variables (N1 N2 : numops) (phi : N1 -> N2) (R : N1 -> N2 -> Prop).
Hypothesis R_phi : forall v, R v (phi v).
Hypothesis R_zero : R (n_zero N1) (n_zero N2).
Hypothesis R_one : R (n_one N1) (n_one N2).
Hypothesis R_add : forall x y x' y', R x x' -> R y y' -> R (n_add x y) (n_add x' y').
Hypothesis R_sub : forall x y x' y', R x x' -> R y y' -> R (n_sub x y) (n_sub x' y').
Hypothesis R_mul : forall x y x' y', R x x' -> R y y' -> R (n_mul x y) (n_mul x' y').
Hypothesis R_neg : forall x x', R x x' -> R (n_neg x) (n_neg x').

Definition arel (a : amat N1) (b : amat N2) : Prop :=
  [/\ am b = am a, an b = an a & forall i j, R (af a i j) (af b i j)].
Definition orel (o1 : outcome N1) (o2 : outcome N2) : Prop :=
  match o1, o2 with
  | Assign d v, Assign d' v' => d' = d /\ arel v v'
  | Panics, Panics | Empty, Empty => True
  | _, _ => False
  end.

Lemma mk_rel d m n f f' : (forall i j, R (f i j) (f' i j)) -> orel (mk d m n f) (mk d m n f').
Proof. by move=> H; rewrite /mk; case: ifP. Qed.

Lemma nth_rel v k : R (nth (n_zero N1) v k) (nth (n_zero N2) (map phi v) k).
Proof. by elim: v k => [|x v IH] [|k] //=. Qed.

Lemma prod_rel a b a' b' i j : arel a a' -> arel b b' -> R (prod_entry a b i j) (prod_entry a' b' i j).
Proof.
move=> [_ e Ha] [_ _ Hb]; rewrite /prod_entry e; elim: (iota 0 (an a)) (n_zero N1) (n_zero N2) R_zero => [|k ks IH] z z' Hz //=.
by apply: IH; apply: R_add => //; apply: R_mul.
Qed.

Lemma zip_rel d h h' a b a' b' :
  (forall x y x' y', R x x' -> R y y' -> R (h x y) (h' x' y')) ->
  arel a a' -> arel b b' -> orel (zipa d h a b) (zipa d h' a' b').
Proof.
move=> Hh [e1 e2 Ha] [e3 e4 Hb]; rewrite /zipa e1 e2 e3 e4; case: ifP => // _.
by apply: mk_rel => i j; apply: Hh.
Qed.

Lemma call_rel a b c : (forall k, arel (a k) (b k)) -> ring_call c ->
  orel (call_a a c) (call_a b (recall phi c)).
Proof.
move=> H; case: c => //=.
- by move=> x i j v _; have [-> -> Hx] := H x; case: ifP => // _; apply: mk_rel => i' j'; case: ifP.
- by move=> x _; have [-> -> Hx] := H x; apply: mk_rel => i j; apply: R_neg.
- by move=> x k _; have [-> -> Hx] := H x; apply: mk_rel => i j; apply: R_mul.
- by move=> x y _; apply: zip_rel.
- by move=> x y _; apply: zip_rel.
- by move=> x y _; apply: zip_rel.
- move=> x y _; have [e1 e2 Hx] := H x; have [e3 e4 Hy] := H y; rewrite /mula e1 e2 e3 e4; case: ifP => // _.
  by apply: mk_rel => i j; apply: prod_rel.
- by move=> x _; have [-> -> Hx] := H x; apply: mk_rel.
- by move=> d r c v _; rewrite size_map; case: ifP => // _; apply: mk_rel => i j; apply: nth_rel.
- by move=> d v _; have E := nth_rel v; case: v E => [|v0 v] //= E; rewrite size_map; split=> //; split=> // i j; apply: E.
- by move=> d v _; have E := nth_rel v; case: v E => [|v0 v] //= E; rewrite size_map; split=> //; split=> // i j; apply: E.
- by move=> d r c _; apply: mk_rel => i j; case: ifP.
- by move=> d r c _; apply: mk_rel.
- by move=> d v _; have E := nth_rel v; case: v E => [|v0 v] //= E; rewrite size_map; split=> //; split=> // i j /=; case: ifP => // _; apply: E.
- by move=> d r c v _; rewrite size_map; case: ifP => // _; apply: mk_rel => i j; case: ifP => // _; apply: nth_rel.
- by move=> d x _; have [-> -> Hx] := H x; apply: mk_rel => i j; apply: R_neg.
- by move=> d x k _; have [-> -> Hx] := H x; apply: mk_rel => i j; apply: R_mul.
- by move=> d x y _; apply: zip_rel.
- by move=> d x y _; apply: zip_rel.
- by move=> d x y _; apply: zip_rel.
- move=> d x y _; have [e1 e2 Hx] := H x; have [e3 e4 Hy] := H y; rewrite /mula e1 e2 e3 e4; case: ifP => // _.
  by apply: mk_rel => i j; apply: prod_rel.
- by move=> d x _; have [-> -> Hx] := H x; apply: mk_rel.
- move=> d x y _; have [e1 e2 Hx] := H x; have [e3 e4 Hy] := H y; rewrite e1 e2 e3 e4; case: ifP => // _.
  by apply: mk_rel => i j; case: ifP.
- move=> d x y _; have [e1 e2 Hx] := H x; have [e3 e4 Hy] := H y; rewrite e1 e2 e3 e4; case: ifP => // _.
  by apply: mk_rel => i j; case: ifP.
- by move=> d x i j _; have [-> -> Hx] := H x; case: ifP => // _; apply: mk_rel.
- by move=> d x j _; have [-> -> Hx] := H x; case: ifP => // _; apply: mk_rel.
- by move=> d x ks _; have [-> -> Hx] := H x; case: ifP => // _; apply: mk_rel.
- by move=> d x ks _; have [-> -> Hx] := H x; case: ifP => // _; apply: mk_rel.
- by move=> d x p _; have [-> -> Hx] := H x; apply: mk_rel.
- by move=> d x p _; have [-> -> Hx] := H x; apply: mk_rel.
- by move=> d x sel _; have [-> -> Hx] := H x; case: ifP => // _; apply: mk_rel.
- by move=> d x sel _; have [-> -> Hx] := H x; case: ifP => // _; apply: mk_rel.
Qed.

Lemma update_rel a b d v v' : (forall k, arel (a k) (b k)) -> arel v v' ->
  forall k, arel (update a d v k) (update b d v' k).
Proof. by move=> H Hv k; rewrite /update; case: eqP. Qed.

Lemma run_rel cs a b : (forall k, arel (a k) (b k)) -> all (@ring_call N1) cs ->
  match run_a a cs, run_a b (map (recall phi) cs) with
  | Finished a', Finished b' => forall k, arel (a' k) (b' k)
  | Panicked, Panicked | LeftDomain, LeftDomain => True
  | _, _ => False
  end.
Proof.
elim: cs a b => [|c cs IH] a b H //= /andP[rc rcs].
have := call_rel H rc; case: (call_a a c) => [d v||]; case: (call_a b _) => [d' v'||] //= -[-> Hv].
by apply: IH => //; apply: update_rel.
Qed.
End Rel.

(** two mathematical matrices with the same entries *)
Lemma holds_ext (N : numops) (M : mat N) a b : am b = am a -> an b = an a ->
  (forall i j, (i < am a)%N -> (j < an a)%N -> af a i j = af b i j) -> holds M a -> holds M b.
Proof.
move=> e1 e2 E [[h1 h2 h3 h4 h5] h6]; split; first by rewrite e1 e2.
by move=> i j; rewrite h6 e1 e2; case: (boolP (_ && _)) => // /andP[hi hj]; rewrite E.
Qed.

Lemma div_wrapping_panics t (x y : wrapping t) e : n_div x y = Err e -> e = Panic.
Proof. by rewrite /=; case: ifP => // _ [<-]. Qed.

(*@section C61 without overflow checks @*)
(*@doc C61: a program of ring operations run without overflow checks computes,
    in every element of every variable, the exact result reduced to the type:
    overflow of intermediate values never matters for the final ones; it panics
    exactly when the exact program does. *)
Lemma wrapping_program_L : forall (t : ity) (gs : nat -> nat -> wrapping t) (cs : seq (call int_num))
    (s : store (wrapping t)) (a : astore int_num),
  all (@ring_call int_num) cs ->
  (forall k, holds (s k) (reduced t (a k))) ->
  match run_a a cs with
  | Finished a' => exists2 s', run_c gs s (map (as_wrapping t) cs) = Ok s' &
      forall k, holds (s' k) (reduced t (a' k))
  | Panicked => run_c gs s (map (as_wrapping t) cs) = Err Panic
  | LeftDomain => True
  end.
Proof.
move=> t gs cs s a rc H.
have := @run_rel int_num (wrapping t) (wrap t) (fun x y => y = wrap t x) _ _ _ _ _ _ _ cs a
  (fun k => reduced t (a k)) _ rc.
move/(_ (fun _ => erefl) (esym (wrap_fits (fits0 t))) (esym (wrap_fits (fits1 t)))).
have hA : forall x y x' y' : int, x' = wrap t x -> y' = wrap t y -> wrap t (x' + y') = wrap t (x + y).
  by move=> x y _ _ -> ->; rewrite wrap_add.
have hS : forall x y x' y' : int, x' = wrap t x -> y' = wrap t y -> wrap t (x' - y') = wrap t (x - y).
  by move=> x y _ _ -> ->; rewrite wrap_sub.
have hM : forall x y x' y' : int, x' = wrap t x -> y' = wrap t y -> wrap t (x' * y') = wrap t (x * y).
  by move=> x y _ _ -> ->; rewrite wrap_mul.
have hN : forall x x' : int, x' = wrap t x -> wrap t (- x') = wrap t (- x).
  by move=> x _ ->; rewrite wrap_opp.
move/(_ hA hS hM hN (fun k => And3 erefl erefl (fun _ _ => erefl))).
have := @program_refines_L (wrapping t) gs (map (as_wrapping t) cs) s
  (fun k => reduced t (a k)) (@div_wrapping_panics t) H.
case: (run_a a cs) => [a'||]; case: (run_a _ _) => [b'||] // [s' e H'] Hr; exists s' => // k.
by have [e1 e2 E] := Hr k; apply: (holds_ext _ _ _ (H' k)) => //= i j _ _; rewrite -E.
Qed.

(*@doc C61: hence a variable whose exact final elements are all representable
    holds exactly those elements. *)
Lemma wrapping_program_exact_L : forall (t : ity) (gs : nat -> nat -> wrapping t) (cs : seq (call int_num))
    (s : store (wrapping t)) (a a' : astore int_num),
  all (@ring_call int_num) cs ->
  (forall k, holds (s k) (reduced t (a k))) -> run_a a cs = Finished a' ->
  exists2 s', run_c gs s (map (as_wrapping t) cs) = Ok s' &
    forall k, each (am (a' k)) (an (a' k)) (fun i j => fits t (af (a' k) i j)) ->
      forall i j,
        (i < am (a' k))%N -> (j < an (a' k))%N -> get (s' k) i j = Ok (af (a' k) i j : int).
Proof.
move=> t gs cs s a a' rc H e; have := wrapping_program_L gs rc H; rewrite e => -[s' es H']; exists s' => // k fk i j hi hj.
by have [_ ->] := H' k; rewrite /= hi hj /= wrap_fits //; apply: fk.
Qed.

(** ** With overflow checks *)
Section Checked.
Variable t : ity.
Local Notation C := (checked t).
Implicit Types (a : astore int_num) (b : astore C).

(** an element that did not overflow has the exact value; [Q] tells whether
    the elements the program started from are known to be representable *)
Variable Q : Prop.
Definition Rc (x : n_T int_num) (y : n_T C) : Prop := if y is Some v then v = x /\ (Q -> fits t x) else True.
Lemma Rc_chk v : Rc v (chk t v). Proof. by rewrite /chk /=; case: ifP => //. Qed.
Lemma Rc_lift2 f x y x' y' : Rc x x' -> Rc y y' -> Rc (f x y) (lift2 t f x' y').
Proof. by case: x' => [u|] //; case: y' => [v|] // [<- _] [<- _]; apply: Rc_chk. Qed.
Lemma Rc_lift1 f x x' : Rc x x' -> Rc (f x) (lift1 t f x').
Proof. by case: x' => [u|] // [<- _]; apply: Rc_chk. Qed.

Local Notation crel := (@arel int_num C Rc).
Lemma call_crel a b c : (forall k, crel (a k) (b k)) -> ring_call c ->
  @orel int_num C Rc (call_a a c) (call_a b (as_checked t c)).
Proof.
apply: call_rel => //; first exact: Rc_chk.
- by split=> // _; apply: fits0.
- by split=> // _; apply: fits1.
- exact: (Rc_lift2 (fun u v => u + v)).
- exact: (Rc_lift2 (fun u v => u - v)).
- exact: (Rc_lift2 (fun u v => u * v)).
- exact: (Rc_lift1 (fun u => - u)).
Qed.

(** no element inside the matrix overflowed *)
Definition def_in (v : amat C) : Prop :=
  forall i j, (i < am v)%N -> (j < an v)%N -> isSome (af v i j : option int).

Lemma def_eq v w i j : crel v w -> def_in w -> (i < am v)%N -> (j < an v)%N -> af w i j = Some (af v i j).
Proof.
move=> [e1 e2 E] D hi hj; have := D i j; rewrite e1 e2 => /(_ hi hj); have := E i j.
by rewrite /Rc; case: (af w i j) => // u [-> _].
Qed.

Lemma isSome_chk x : isSome (chk t x) = fits t x. Proof. by rewrite /chk; case: ifP. Qed.

(** dot product with checks *)
Lemma dot_checked (f g : nat -> int) (f' g' : nat -> option int) n :
  (forall k, (k < n)%N -> f' k = Some (f k) /\ g' k = Some (g k)) ->
  foldl (fun s k => lift2 t (fun u v => u + v) s (lift2 t (fun u v => u * v) (f' k) (g' k))) (Some 0) (iota 0 n) =
  if all (fun k => fits t (f k * g k) && fits t (\sum_(0 <= l < k.+1) f l * g l)) (iota 0 n)
  then Some (\sum_(0 <= l < n) f l * g l) else None.
Proof.
elim: n => [|n IH] H; first by rewrite big_nil.
rewrite -addn1 iotaD /= add0n foldl_cat IH; last by move=> k hk; apply: H; lia.
rewrite all_cat /=; have [-> ->] := H n (ltnSn n).
case: (all _ _) => /=; last by [].
rewrite andbT addn1 /chk; case: ifP => //= f1; rewrite /chk -big_nat_recr //=.
Qed.

Lemma nth_lit (v : seq int) k : isSome (nth (Some 0) [seq chk t x | x <- v] k) = fits t (nth 0 v k).
Proof. by elim: v k => [|x v IH] [|k] //=; rewrite ?fits0 ?isSome_chk. Qed.

Lemma picked_lt p n k : (k < size (picked p n))%N -> (nth 0%N (picked p n) k < n)%N.
Proof. by move=> h; have := mem_nth 0%N h; rewrite mem_filter mem_iota => /andP[_ /andP[_]]; rewrite add0n. Qed.

Lemma mk_inv (N : numops) d m n f d' (v : amat N) : mk d m n f = Assign d' v -> [/\ d' = d, v = AMat m n f, (0 < m)%N & (0 < n)%N].
Proof. by rewrite /mk; case: (boolP (_ && _)) => // /andP[? ?] [<- <-]. Qed.

Lemma zip_fits d d' h a b x y v : (forall k, crel (a k) (b k)) -> (forall k, def_in (b k)) ->
  zipa (N := C) d (lift2 t h) (b x) (b y) = Assign d' v ->
  d' = d /\ (def_in v <-> each (am (a x)) (an (a x)) (fun i j => fits t (h (af (a x) i j) (af (a y) i j)))).
Proof.
move=> H D; have [e1 e2 E1] := H x; have [e3 e4 E2] := H y; rewrite /zipa; case: (boolP (_ && _)) => // /andP[/eqP em /eqP en].
case/mk_inv => -> -> _ _; split=> //; rewrite /def_in /each /= e1 e2.
have K i j : (i < am (a x))%N -> (j < an (a x))%N -> isSome (lift2 t h (af (b x) i j) (af (b y) i j)) = fits t (h (af (a x) i j) (af (a y) i j)).
  by move=> hi hj; rewrite (def_eq (H x) (D x)) // (def_eq (H y) (D y)) /= ?isSome_chk // -?e3 -?e4 -?em -?en ?e1 ?e2.
by split=> F i j hi hj; have := F i j hi hj; rewrite K.
Qed.

Lemma mul_fits_iff d d' a b x y v : (forall k, crel (a k) (b k)) -> (forall k, def_in (b k)) ->
  mula (N := C) d (b x) (b y) = Assign d' v ->
  d' = d /\ (def_in v <-> mul_fits t (a x) (a y)).
Proof.
move=> H D; have [e1 e2 E1] := H x; have [e3 e4 E2] := H y; rewrite /mula; case: eqP => // em.
case/mk_inv => -> -> _ _; split=> //; rewrite /def_in /mul_fits /each /= e1 e4.
have K i j : (i < am (a x))%N -> (j < an (a y))%N -> isSome (prod_entry (N := C) (b x) (b y) i j : option int) =
    all (fun k => fits t (af (a x) i k * af (a y) k j : int) &&
                  fits t (\sum_(0 <= l < k.+1) (af (a x) i l * af (a y) l j : int))) (iota 0 (an (a x))).
  move=> hi hj; rewrite /prod_entry.
  rewrite (@dot_checked (fun k => af (a x) i k) (fun k => af (a y) k j) (fun k => af (b x) i k) (fun k => af (b y) k j)) ?e2.
    by case: ifP.
  by move=> k hk; rewrite (def_eq (H x) (D x)) // (def_eq (H y) (D y)) // -e3 -em e2.
by split=> F i j hi hj; have := F i j hi hj; rewrite K.
Qed.

Lemma un_fits d d' h a b x v : (forall k, crel (a k) (b k)) -> (forall k, def_in (b k)) ->
  mk (N := C) d (am (b x)) (an (b x)) (fun i j => lift1 t h (af (b x) i j)) = Assign d' v ->
  d' = d /\ (def_in v <-> each (am (a x)) (an (a x)) (fun i j => fits t (h (af (a x) i j)))).
Proof.
move=> H D; have [e1 e2 E1] := H x.
case/mk_inv => -> -> _ _; split=> //; rewrite /def_in /each /= e1 e2.
have K i j : (i < am (a x))%N -> (j < an (a x))%N -> isSome (lift1 t h (af (b x) i j)) = fits t (h (af (a x) i j)).
  by move=> hi hj; rewrite (def_eq (H x) (D x)) //= isSome_chk.
by split=> F i j hi hj; have := F i j hi hj; rewrite K.
Qed.

Lemma sc_fits d d' (h : int) a b x v : (forall k, crel (a k) (b k)) -> (forall k, def_in (b k)) ->
  mk (N := C) d (am (b x)) (an (b x)) (fun i j => lift2 t (fun u v => u * v) (chk t h) (af (b x) i j)) = Assign d' v ->
  d' = d /\ (def_in v <-> fits t h /\ each (am (a x)) (an (a x)) (fun i j => fits t (h * af (a x) i j))).
Proof.
move=> H D; have [e1 e2 E1] := H x.
case/mk_inv => -> -> m0 n0; split=> //; rewrite /def_in /each /= e1 e2.
have K i j : (i < am (a x))%N -> (j < an (a x))%N -> isSome (lift2 t (fun u v => u * v) (chk t h) (af (b x) i j)) = fits t h && fits t (h * af (a x) i j).
  by move=> hi hj; rewrite (def_eq (H x) (D x)) // {1}/chk; case: ifP => //= _; rewrite isSome_chk.
split=> [F|[F0 F] i j hi hj]; last by rewrite K // F0; apply: F.
split=> [|i j hi hj]; last by have := F i j hi hj; rewrite K // => /andP[].
by have := F 0%N 0%N; rewrite K -?e1 -?e2 // => /(_ m0 n0) /andP[].
Qed.
Lemma call_fits_iff a b c d v : (forall k, crel (a k) (b k)) -> (forall k, def_in (b k)) -> ring_call c ->
  call_a b (as_checked t c) = Assign d v -> d = target c /\ (def_in v <-> call_fits t a c).
Proof.
move=> H D.
have cp (w : amat C) (P : Prop) : def_in w -> P -> (def_in w <-> P) by move=> Dw HP; split.
have lits (u : seq int) m n (P : nat -> nat -> bool) (ix : nat -> nat -> nat) :
    (forall i j, (i < m)%N -> (j < n)%N -> P i j -> (ix i j < size u)%N) ->
    (forall k, (k < size u)%N -> exists i j, [/\ (i < m)%N, (j < n)%N, P i j & ix i j = k]) ->
    (def_in (@AMat C m n (fun i j => if P i j then nth (Some 0) [seq chk t x | x <- u] (ix i j) else Some 0)) <-> all (fits t) u).
  move=> ltu cov; split=> [F|F i j /= hi hj].
    apply/(all_nthP 0) => k hk; have [i [j [hi hj p e]]] := cov k hk.
    by have := F i j hi hj; rewrite /= p e nth_lit.
  by case: ifP => // p; rewrite nth_lit; apply: all_nthP => //; apply: ltu.
case: c => //=.
- move=> x i j u _; case: ifP => // /andP[hi hj] /mk_inv [-> -> _ _]; split=> //; split=> [F|F].
    by have := F i j hi hj; rewrite /= !eqxx isSome_chk.
  by move=> i' j' hi' hj' /=; case: ifP => [_|_]; [rewrite isSome_chk | apply: D].
- by move=> x _; apply: un_fits.
- by move=> x k _; apply: sc_fits.
- by move=> x y _; apply: zip_fits.
- by move=> x y _; apply: zip_fits.
- by move=> x y _; apply: zip_fits.
- by move=> x y _; apply: mul_fits_iff.
- by move=> x _ /mk_inv [-> -> _ _]; split=> //; apply: cp => // i j /= hi hj; apply: D.
- by move=> d0 x _ [<- <-]; split=> //; apply: cp.
- move=> d0 r c u _; rewrite size_map; case: ifP => // /and3P[/eqP sz r0 c0] /mk_inv [-> -> _ _]; split=> //.
  apply: (lits u r c (fun _ _ => true) (fun i j => (i * c + j)%N)).
    by move=> i j hi hj _; rewrite -sz; nia.
  move=> k; rewrite -sz => hk; exists (k %/ c)%N, (k %% c)%N; split=> //; [by rewrite ltn_divLR // mulnC|exact: ltn_pmod|by rewrite -divn_eq].
- move=> d0 u _; have L := lits u (size u) 1%N (fun _ _ => true) (fun i _ => i).
  case: u L => [|u0 w] L //= [<- <-]; split=> //; rewrite size_map; apply: L => //.
  by move=> k hk; exists k, 0%N.
- move=> d0 u _; have L := lits u 1%N (size u) (fun _ _ => true) (fun _ j => j).
  case: u L => [|u0 w] L //= [<- <-]; split=> //; rewrite size_map; apply: L => //.
  by move=> k hk; exists 0%N, k.
- by move=> d0 r c _ /mk_inv [-> -> _ _]; split=> //; apply: cp => // i j /= hi hj; case: ifP.
- by move=> d0 r c _ /mk_inv [-> -> _ _]; split=> //; apply: cp => // i j /= hi hj.
- move=> d0 u _; have L := lits u (size u) (size u) (fun i j => i == j) (fun i _ => i).
  case: u L => [|u0 w] L //= [<- <-]; split=> //; rewrite size_map; apply: L => //.
  by move=> k hk; exists k, k.
- move=> d0 r c u _; rewrite size_map; case: ifP => // /and3P[/eqP sz r0 c0] /mk_inv [-> -> _ _]; split=> //.
  apply: (lits u r c (fun i j => i == j) (fun i _ => i)).
    by move=> i j hi hj /eqP e; rewrite sz leq_min hi e.
  by move=> k; rewrite sz leq_min => /andP[h1 h2]; exists k, k.
- by move=> d0 x _; apply: un_fits.
- by move=> d0 x k _; apply: sc_fits.
- by move=> d0 x y _; apply: zip_fits.
- by move=> d0 x y _; apply: zip_fits.
- by move=> d0 x y _; apply: zip_fits.
- by move=> d0 x y _; apply: mul_fits_iff.
- by move=> d0 x _ /mk_inv [-> -> _ _]; split=> //; apply: cp => // i j /= hi hj; apply: D.
- move=> d0 x y _; case: eqP => // em /mk_inv [-> -> _ _]; split=> //; apply: cp => // i j /= hi hj.
  by case: ltnP => h; apply: D => //; [rewrite -em | lia].
- move=> d0 x y _; case: eqP => // em /mk_inv [-> -> _ _]; split=> //; apply: cp => // i j /= hi hj.
  by case: ltnP => h; apply: D => //; [lia | rewrite -em].
- move=> d0 x r c _; case: ifP => // /and4P[hr hc h1 h2] /mk_inv [-> -> _ _]; split=> //; apply: cp => // i j /= hi hj.
  by apply: D; case: ifP; lia.
- by move=> d0 x j _; case: ifP => // hj /mk_inv [-> -> _ _]; split=> //; apply: cp => // i j' /= hi hj'; apply: D.
- move=> d0 x ks _; case: ifP => // /allP al /mk_inv [-> -> _ _]; split=> //; apply: cp => // i j /= hi hj.
  by apply: D => //; apply: al; apply: mem_nth.
- move=> d0 x ks _; case: ifP => // /allP al /mk_inv [-> -> _ _]; split=> //; apply: cp => // i j /= hi hj.
  by apply: D => //; apply: al; apply: mem_nth.
- by move=> d0 x p _ /mk_inv [-> -> _ _]; split=> //; apply: cp => // i j /= hi hj; apply: D => //; apply: picked_lt.
- by move=> d0 x p _ /mk_inv [-> -> _ _]; split=> //; apply: cp => // i j /= hi hj; apply: D => //; apply: picked_lt.
- by move=> d0 x sel _; case: ifP => // _ /mk_inv [-> -> _ _]; split=> //; apply: cp => // i j /= hi hj; apply: D => //; apply: picked_lt.
- by move=> d0 x sel _; case: ifP => // _ /mk_inv [-> -> _ _]; split=> //; apply: cp => // i j /= hi hj; apply: D => //; apply: picked_lt.
Qed.
End Checked.

Lemma all_data (t : ity) (M : mat (checked t)) (v : amat (checked t)) : holds M v ->
  reflect (def_in v) (all (fun x : option int => isSome x) (get_data M)).
Proof.
case/holdsP => m0 n0 [rM [sz E]]; apply: (iffP idP) => [/(all_nthP None) F i j hi hj|D].
  have lt := idx_lt hi hj; have := E i j hi hj; rewrite (vgetE (None : checked t)) ?sz // => -[<-].
  by apply: (F (i * an v + j)%N); rewrite sz.
apply/(all_nthP None) => k; rewrite sz => hk.
have hi : (k %/ an v < am v)%N by rewrite ltn_divLR // mulnC.
have hj := ltn_pmod k n0; have := E _ _ hi hj; rewrite (vgetE (None : checked t)) -divn_eq ?sz // => -[e].
by rewrite [nth _ _ _]e; apply: D.
Qed.

Lemma div_checked_panics t (x y : checked t) e : n_div x y = Err e -> e = Panic.
Proof. by case: x => [x|] /=; [case: y => [y|] /=; [case: ifP => // _|] |] => -[<-]. Qed.

Lemma crel_defined t Q (a : amat int_num) (b : amat (checked t)) : arel (@Rc t Q) a b -> def_in b ->
  forall M, holds M b -> holds M (defined t a).
Proof.
move=> H D M HM; have [e1 e2 E] := H; apply: (holds_ext _ _ _ HM) => //= i j hi hj.
by apply: (def_eq H D); rewrite -?e1 -?e2.
Qed.

Lemma crel_fits t (Q : Prop) (a : amat int_num) (b : amat (checked t)) : arel (@Rc t Q) a b -> def_in b -> Q ->
  each (am a) (an a) (fun i j => fits t (af a i j)).
Proof.
move=> H D q i j hi hj; have e := def_eq H D hi hj; have [_ _ E] := H; have := E i j; rewrite e => -[_]; exact.
Qed.

Lemma checked_run t Q cs : forall (gs : nat -> nat -> checked t) (s : store (checked t)) (a : astore int_num) (b : astore (checked t)),
  all (@ring_call int_num) cs ->
  (forall k, holds (s k) (b k)) -> (forall k, arel (@Rc t Q) (a k) (b k)) -> (forall k, def_in (b k)) ->
  match run_a a cs with
  | Finished a' =>
      (program_fits t a cs /\
       exists s', [/\ run_checked gs s (map (as_checked t) cs) = Ok s', forall k, holds (s' k) (defined t (a' k)) &
         Q -> forall k, each (am (a' k)) (an (a' k)) (fun i j => fits t (af (a' k) i j))]) \/
      (~ program_fits t a cs /\ run_checked gs s (map (as_checked t) cs) = Err Panic)
  | Panicked => run_checked gs s (map (as_checked t) cs) = Err Panic
  | LeftDomain => True
  end.
Proof.
elim: cs => [|c cs IH] gs s a b.
  move=> _ Hs H D /=; left; split=> //; exists s; split=> [//|k|q k]; first by apply: (crel_defined (H k)).
  exact: (crel_fits (H k)).
move=> /= /andP[rc rcs] Hs H D.
have := call_crel H rc; have fi := call_fits_iff H D rc.
have := call_refines (@div_checked_panics t) (gs 0%N) (as_checked t c) Hs; rewrite /refines.
have tg : target (as_checked t c) = target c by case: (c) rc.
case: (call_a a c) => [d v||]; case E2: (call_a b _) => [d' v'||] //=; last first.
  by move=> -> _.
move=> [s' -> Hs'] [ed Hv]; subst d' => /=; have [dt fx] := fi _ _ E2; rewrite tg -dt.
have /all_data al : holds (s' d) v' by have := Hs' d; rewrite /update eqxx.
case: al => Dv.
  have Hu := update_rel d H Hv; have Du : forall k, def_in (update b d v' k) by move=> k; rewrite /update; case: eqP.
  have := IH (fun k => gs k.+1) s' (update a d v) (update b d v') rcs Hs' Hu Du.
  have cf : call_fits t a c by apply/fx.
  case: (run_a _ _) => [a'||] //= [[pf h]|[np h]]; [by left|right; split=> //; by case].
have nf : ~ call_fits t a c by move/fx.
by case: (run_a _ _) => [a'||] //=; right; split=> // -[].
Qed.

(*@section C61 with overflow checks @*)
(*@doc C61: a program of ring operations run with overflow checks panics as
    soon as one arithmetic result or partial sum is not representable, and
    otherwise finishes with exactly the mathematical results; a program that
    panics for another reason (shapes, indices) still panics. *)
Lemma checked_program_L : forall (t : ity) (gs : nat -> nat -> checked t) (cs : seq (call int_num))
    (s : store (checked t)) (a : astore int_num),
  all (@ring_call int_num) cs -> (forall k, holds (s k) (defined t (a k))) ->
  match run_a a cs with
  | Finished a' =>
      (program_fits t a cs /\
       exists2 s', run_checked gs s (map (as_checked t) cs) = Ok s' & forall k, holds (s' k) (defined t (a' k))) \/
      (~ program_fits t a cs /\ run_checked gs s (map (as_checked t) cs) = Err Panic)
  | Panicked => run_checked gs s (map (as_checked t) cs) = Err Panic
  | LeftDomain => True
  end.
Proof.
move=> t gs cs s a rc H; have := @checked_run t False cs gs s a (fun k => defined t (a k)) rc H.
have A k : arel (@Rc t False) (a k) (defined t (a k)) by [].
move=> /(_ A) h; have {}h := h (fun k i j _ _ => erefl).
by case: (run_a a cs) h => [a'||] // [[pf [s' [e h _]]]|]; [left; split=> //; exists s'|right].
Qed.

(*@doc C61: a program that finishes with overflow checks finishes without them
    too, with the same elements in every variable. *)
Lemma checked_then_wrapping_L : forall (t : ity) gs gs' (cs : seq (call int_num))
    (s s' : store (checked t)) (w : store (wrapping t)) (a : astore int_num),
  all (@ring_call int_num) cs -> run_a a cs <> LeftDomain int_num ->
  (forall k, each (am (a k)) (an (a k)) (fun i j => fits t (af (a k) i j))) ->
  (forall k, holds (s k) (defined t (a k))) -> (forall k, holds (w k) (reduced t (a k))) ->
  run_checked gs s (map (as_checked t) cs) = Ok s' ->
  exists2 w', run_c gs' w (map (as_wrapping t) cs) = Ok w' &
    forall k i j, get (s' k) i j = (x <-- get (w' k) i j ;; Ok (Some x)).
Proof.
move=> t gs gs' cs s s' w a rc nl F H Hw e.
have := wrapping_program_L gs' rc Hw.
have := @checked_run t True cs gs s a (fun k => @conv int_num (checked t) (chk t) (a k)) rc.
have Hs k : holds (s k) (@conv int_num (checked t) (chk t) (a k)).
  by apply: (holds_ext _ _ _ (H k)) => //= i j hi hj; rewrite /chk F.
have A k : arel (@Rc t True) (a k) (@conv int_num (checked t) (chk t) (a k)).
  by split=> // i j; apply: Rc_chk.
have D k : def_in (@conv int_num (checked t) (chk t) (a k)).
  by move=> i j hi hj /=; rewrite isSome_chk; apply: F.
move/(_ Hs A D); rewrite e; case: (run_a a cs) nl => [a'||] // _ [[_ [s2 [[es] h1 h2]]]|[_ //]] [w' ew Hw'].
exists w' => // k i j; subst s2; have [_ ->] := h1 k; have [_ ->] := Hw' k; rewrite /=.
by case: (boolP (_ && _)) => //= /andP[hi hj]; rewrite wrap_fits //; apply: h2.
Qed.

(*@section C61 single calls @*)
(*@doc C61: one call without overflow checks: the exact matrix operation,
    each element reduced modulo 2^width. *)
Lemma wrapping_ops_L : forall (t : ity) (g : nat -> int) m n p (A B : 'M[int]_(m, n)) (D : 'M[int]_(n, p)) (k : int),
  (0 < m)%N -> (0 < n)%N ->
  [/\ add (N := wrapping t) g (mat_of A) (mat_of B) = Ok (mat_of (map_mx (wrap t) (A + B))),
      sub (N := wrapping t) g (mat_of A) (mat_of B) = Ok (mat_of (map_mx (wrap t) (A - B))),
      neg (N := wrapping t) g (mat_of A) = Ok (mat_of (map_mx (wrap t) (- A))),
      scale (N := wrapping t) g (mat_of A) k = Ok (mat_of (map_mx (wrap t) (k *: A))) &
      mul (N := wrapping t) g (mat_of A) (mat_of D) = Ok (mat_of (map_mx (wrap t) (A *m D)))].
Proof.
move=> t g m n p A B D k m0 n0.
have [e1 e2 _] := @binary_ok_L (wrapping t) g m n A B m0; have [e3 _ e4 _] := @unary_ok_L (wrapping t) g m n A k.
split.
- by rewrite e1; congr (Ok (mat_of _)); apply/matrixP => i j; rewrite !mxE.
- by rewrite e2; congr (Ok (mat_of _)); apply/matrixP => i j; rewrite !mxE.
- by rewrite e3; congr (Ok (mat_of _)); apply/matrixP => i j; rewrite !mxE.
- by rewrite e4; congr (Ok (mat_of _)); apply/matrixP => i j; rewrite !mxE.
rewrite (@mul_eval_L (wrapping t)) //; congr (Ok (mat_of _)); apply/matrixP => i j; rewrite !mxE -big_enum /=.
have gen (ks : seq 'I_n) (z : int) : foldl (fun s l => wrap t (s + wrap t (A i l * D l j))) (wrap t z) ks =
    wrap t (z + \sum_(l <- ks) A i l * D l j).
  elim: ks z => [|l ks IH] z /=; first by rewrite big_nil addr0.
  by rewrite wrap_add IH big_cons addrA.
by have := gen (enum 'I_n) 0; rewrite add0r wrap_fits ?fits0.
Qed.

Lemma foldl_map' A B R (f : R -> B -> R) (h : A -> B) z (ks : seq A) : foldl f z (map h ks) = foldl (fun s k => f s (h k)) z ks.
Proof. by elim: ks z => //= k ks IH z. Qed.

Lemma sealed_mat (t : ity) m n (X : 'M[option int]_(m, n)) :
  sealed (t := t) (Ok (mat_of X)) =
  if [forall i, forall j, isSome (X i j)] then Ok (mat_of (map_mx (odflt 0) X)) else Err Panic.
Proof.
rewrite /sealed /=.
have -> : all (fun x : option int => isSome x) [seq X i j | i <- enum 'I_m, j <- enum 'I_n] = [forall i, forall j, isSome (X i j)].
  apply/idP/idP => [/allP h|/forallP h].
    by apply/forallP => i; apply/forallP => j; apply: h; apply/allpairsP; exists (i, j); rewrite !mem_enum.
  by apply/allP => x /allpairsP[[i j] [_ _ ->]] /=; apply: (forallP (h i)).
case: ifP => // _; rewrite /mat_of map_allpairs; congr (Ok (Mat _ _)).
by apply: eq_allpairs => i j; rewrite mxE.
Qed.

(*@doc C61: one call with overflow checks: it panics iff some element of the
    exact result (for a product: some elementary product or some partial sum)
    is not representable, and otherwise returns the exact result. *)
Lemma checked_ops_L : forall (t : ity) g m n p (A B : 'M[int]_(m, n)) (D : 'M[int]_(n, p)) (k : int),
  (0 < m)%N -> (0 < n)%N -> fits t k ->
  let fit m n (X : 'M[int]_(m, n)) := [forall i, forall j, fits t (X i j)] in
  let out m n b (X : 'M[int]_(m, n)) := if b then Ok (mat_of X) else Err Panic in
  let S m n (X : 'M[int]_(m, n)) : mat (checked t) := mat_of (map_mx Some X) in
  [/\ sealed (add g (S _ _ A) (S _ _ B)) = out _ _ (fit _ _ (A + B)) (A + B),
      sealed (sub g (S _ _ A) (S _ _ B)) = out _ _ (fit _ _ (A - B)) (A - B),
      sealed (neg g (S _ _ A)) = out _ _ (fit _ _ (- A)) (- A),
      sealed (scale g (S _ _ A) (Some k : checked t)) = out _ _ (fit _ _ (k *: A)) (k *: A) &
      sealed (mul g (S _ _ A) (S _ _ D)) =
        out _ _ [forall i, forall j, forall l : 'I_n,
                   fits t (A i l * D l j) && fits t (\sum_(q < n | (q <= l)%N) A i q * D q j)] (A *m D)].
Proof.
move=> t g m n p A B D k m0 n0 fk fit out S.
have [e1 e2 _] := @binary_ok_L (checked t) g m n (map_mx Some A) (map_mx Some B) m0.
have [e3 _ e4 _] := @unary_ok_L (checked t) g m n (map_mx Some A) (Some k).
have gen (b : bool) m' n' (X : 'M[option int]_(m', n')) (Y : 'M[int]_(m', n')) :
    [forall i, forall j, isSome (X i j)] = b -> (b -> forall i j, X i j = Some (Y i j)) ->
    sealed (t := t) (Ok (mat_of X)) = out m' n' b Y.
  move=> eb h; rewrite sealed_mat eb /out; case: ifP => // hb; congr (Ok (mat_of _)).
  by apply/matrixP => i j; rewrite mxE h.
have one m' n' (X : 'M[option int]_(m', n')) (Y : 'M[int]_(m', n')) : (forall i j, X i j = chk t (Y i j)) ->
    sealed (t := t) (Ok (mat_of X)) = out m' n' (fit m' n' Y) Y.
  move=> h; apply: gen; first by apply: eq_forallb => i; apply: eq_forallb => j; rewrite h isSome_chk.
  by move=> /forallP f i j; rewrite h /chk (forallP (f i)).
split.
- by rewrite e1; apply: one => i j; rewrite !mxE.
- by rewrite e2; apply: one => i j; rewrite !mxE.
- by rewrite e3; apply: one => i j; rewrite !mxE.
- by rewrite e4; apply: one => i j; rewrite !mxE.
rewrite (@mul_eval_L (checked t)) //.
pose f i l := fn 0 A i l; pose h j l := fn 0 D l j.
have E i j : foldl (fun (s : checked t) l => n_add s (n_mul ((map_mx Some A : 'M[checked t]_(m, n)) i l) ((map_mx Some D : 'M[checked t]_(n, p)) l j))) (n_zero (checked t)) (enum 'I_n) =
   if [forall l : 'I_n, fits t (A i l * D l j) && fits t (\sum_(q < n | (q <= l)%N) A i q * D q j)] then Some ((A *m D) i j) else None.
  have := @dot_checked t (f i) (h j) (fun l => Some (f i l)) (fun l => Some (h j l)) n (fun l _ => conj erefl erefl).
  rewrite -{1}val_enum_ord foldl_map'.
  rewrite (_ : foldl _ _ _ = foldl (fun (s : checked t) l => n_add s (n_mul ((map_mx Some A : 'M[checked t]_(m, n)) i l) ((map_mx Some D : 'M[checked t]_(n, p)) l j))) (n_zero (checked t)) (enum 'I_n)).
    move=> ->; congr (if _ then _ else _); last first.
      by congr Some; rewrite mxE big_mkord; apply: eq_bigr => l _; rewrite /f /h !fnE.
    have pre (l : 'I_n) : \sum_(0 <= q < l.+1) f i q * h j q = \sum_(q < n | (q <= l)%N) A i q * D q j.
      rewrite (big_nat_widen _ _ n) // big_mkord; apply: eq_big => [q|q _]; first by rewrite ltnS.
      by rewrite /f /h !fnE.
    apply/allP/forallP => [H l|H l].
      by have := H l; rewrite mem_iota /= add0n pre /f /h !fnE; apply.
    rewrite mem_iota /= add0n => hl; have := H (Ordinal hl); rewrite -(pre (Ordinal hl)) /=.
    have -> : f i l = A i (Ordinal hl) by rewrite /f -[l in LHS]/(val (Ordinal hl)) fnE.
    have -> // : h j l = D (Ordinal hl) j by rewrite /h -[l in LHS]/(val (Ordinal hl)) fnE.
  rewrite -[n_zero (checked t)]/(Some 0 : option int); move: (Some 0 : option int) => z.
  by elim: (enum 'I_n) z => //= l s IH z; rewrite IH !mxE /f /h !fnE.
apply: gen.
  apply: eq_forallb => i; apply: eq_forallb => j; rewrite mxE E; by case: ifP.
by move=> /forallP H i j; rewrite mxE E (forallP (H i)).
Qed.

(*@doc C61: the quotient is the truncated one. *)
Lemma quotz_spec_L : forall x y : int, y != 0 ->
  exists r : int, [/\ x = quotz x y * y + r, `|r| < `|y| & 0 <= r * x].
Proof.
move=> x y y0; rewrite /quotz; exists (sgz x * (absz x %% absz y)%N).
have ay : (0 < absz y)%N by rewrite absz_gt0.
have e := divn_eq (absz x) (absz y); have lt := ltn_pmod (absz x) ay.
have ex : x = sgz x * absz x := intEsg x.
have ey : y = sgz y * absz y := intEsg y.
have sy : sgz y * sgz y = 1 by rewrite mulz_sg y0.
split.
- set q := (_ %/ _)%N in e *; set r := (_ %% _)%N in e lt *.
  have e' : Posz (absz x) = Posz q * Posz (absz y) + Posz r by rewrite e PoszD PoszM.
  rewrite [LHS]ex e' mulrDr; congr (_ + _); rewrite [in X in _ = _ * X]ey.
  have -> : sgz x * sgz y * Posz q * (sgz y * Posz (absz y)) = (sgz y * sgz y) * (sgz x * (Posz q * Posz (absz y))) by ring.
  by rewrite sy mul1r.
- rewrite normrM normr_sgz -!abszE; case: (x == 0); rewrite /= ?mul0r ?mul1r ?ltz_nat //.
- rewrite mulrAC -abszEsg; exact: mulr_ge0.
Qed.

(*@doc C61: the only quotient of representable numbers that is not
    representable is MIN / -1. *)
Lemma quotz_overflow_L : forall (t : ity) (x y : int), fits t x -> fits t y -> y != 0 ->
  fits t (quotz x y) = ~~ [&& ity_signed t, x == lowest t & y == -1].
Proof.
move=> t x y; rewrite /fits /quotz /lowest spanE; set H := 2%:R ^+ _; have H2 : 2%:R <= H := half_ge2 _.
move=> fx fy y0; have ay : (0 < absz y)%N by rewrite absz_gt0.
set q := (absz x %/ absz y)%N.
have le : (q <= absz x)%N by apply: leq_div.
have eq1 : absz y = 1%N -> q = absz x by move=> e; rewrite /q e divn1.
have lt1 : (1 < absz y)%N -> (0 < absz x)%N -> (q < absz x)%N by move=> h h0; apply: ltn_Pdiv.
have q0 : absz x = 0%N -> q = 0%N by move=> e; rewrite /q e div0n.
move: q le eq1 lt1 q0 H H2 fx fy => q le eq1 lt1 q0 H H2 fx fy.
have sx : sgz x = 1 /\ 0 < x \/ sgz x = 0 /\ x = 0 \/ sgz x = -1 /\ x < 0 by lia.
have sy : sgz y = 1 /\ 0 < y \/ sgz y = -1 /\ y < 0 by lia.
case: (ity_signed t) fx fy => fx fy.
  case: sx => [[-> hx]|[[-> hx]|[-> hx]]]; case: sy => [[-> hy]|[-> hy]]; rewrite ?mul1r ?mulN1r ?mul0r ?mulr1 ?mulr0 ?opprK; lia.
case: sx => [[-> hx]|[[-> hx]|[-> hx]]]; case: sy => [[-> hy]|[-> hy]]; rewrite ?mul1r ?mulN1r ?mul0r ?mulr1 ?mulr0 ?opprK; lia.
Qed.

(*@doc C61: element-wise division, in both modes: a panic iff some divisor is
    zero or some quotient is not representable, else the truncated quotients. *)
Lemma int_elem_div_L : forall (t : ity) g g' m n (A B : 'M[int]_(m, n)), (0 < m)%N ->
  let ok := [forall i, forall j, (B i j != 0) && fits t (quotz (A i j) (B i j))] in
  let r := if ok then Ok (mat_of (\matrix_(i, j) quotz (A i j) (B i j))) else Err Panic in
  elem_div (N := wrapping t) g (mat_of A) (mat_of B) = r /\
  sealed (elem_div (N := checked t) g' (mat_of (map_mx Some A)) (mat_of (map_mx Some B))) = r.
Proof.
move=> t g g' m n A B m0 ok r.
have nok : ~~ ok -> exists i j, (B i j == 0) || ~~ fits t (quotz (A i j) (B i j)).
  by rewrite negb_forall => /existsP[i]; rewrite negb_forall => /existsP[j]; rewrite negb_and negbK => h; exists i, j.
split.
  rewrite /r; case: ifP => [/forallP h|/negbT /nok [i [j h]]].
    apply: (@elem_div_ok_L (wrapping t)) => // i j; rewrite mxE /=; have /andP[/negPf -> ->] := forallP (h i) j; by [].
  apply: (@elem_div_panics_L (wrapping t) g m n A B i j); first by move=> i' j' e; apply: div_wrapping_panics.
  by rewrite /= h.
rewrite /r; case: ifP => [/forallP h|/negbT /nok [i [j h]]].
  rewrite (@elem_div_ok_L (checked t) g' m n _ _ (map_mx Some (\matrix_(i, j) quotz (A i j) (B i j)))) //.
    rewrite sealed_mat (_ : [forall i, _] = true); last by apply/forallP => i; apply/forallP => j; rewrite !mxE.
    by congr (Ok (mat_of _)); apply/matrixP => i j; rewrite !mxE.
  move=> i j; rewrite !mxE /=; have /andP[/negPf -> ->] := forallP (h i) j; by [].
rewrite (@elem_div_panics_L (checked t) g' m n _ _ i j) //; first by move=> i' j' e; apply: div_checked_panics.
by rewrite !mxE /= h.
Qed.

(*@example
(** Hypotheses are met, and the two modes differ where they should: in i8,
    with X0 = X1 = (100 50), X2 = X0 + X1 overflows to (-56 100), X3 = X2 - X1
    is again (100 50); the exact final X3 fits.  With overflow checks the
    program panics. *)
Definition int_a : astore int_num := fun _ => @AMat int_num 1 2 (fun _ j => if j is 0%N then 100 else 50 : int).
Definition int_prog : seq (call int_num) := [:: CAdd _ 2%N 0%N 1%N; CSub _ 3%N 2%N 1%N].
Definition int_w : store (wrapping i8) := fun _ => Mat 1 [:: 100; 50] : mat (wrapping i8).
Definition int_c : store (checked i8) := fun _ => Mat 1 [:: Some (100 : int); Some (50 : int)] : mat (checked i8).
Example int_hyps :
  [/\ all (@ring_call int_num) int_prog, exists a', run_a int_a int_prog = Finished a',
      forall k, each 1 2 (fun i j => fits i8 (af (int_a k) i j)),
      forall k, holds (int_w k) (reduced i8 (int_a k)) & forall k, holds (int_c k) (defined i8 (int_a k))].
Proof.
split=> //; first by eexists.
- by move=> k [|[|i]] [|[|j]].
- by move=> k; split=> // -[|[|i]] [|[|j]].
- by move=> k; split=> // -[|[|i]] [|[|j]].
Qed.
Example int_wraps : add (N := wrapping i8) (fun _ => 0) (int_w 0%N) (int_w 1%N) = Ok (Mat 1 [:: - 56%:Z; 100%:Z]).
Proof. by []. Qed.
Example int_unwraps : exists2 s, run_c (N := wrapping i8) (fun _ _ => 0) int_w (map (as_wrapping i8) int_prog) = Ok s & s 3%N = Mat 1 [:: 100%:Z; 50%:Z].
Proof. by eexists. Qed.
Example int_checked_panics : run_checked (t := i8) (fun _ _ => None) int_c (map (as_checked i8) int_prog) = Err Panic.
Proof. by []. Qed.
(** and a program that fits: X0 - X1 = 0 *)
Example int_checked_ok : exists2 s, run_checked (t := i8) (fun _ _ => None) int_c [:: CSub _ 2%N 0%N 1%N] = Ok s & s 2%N = (Mat 1 [:: Some 0; Some 0] : mat (checked i8)).
Proof. by eexists. Qed.
Example int_min_over_minus_one : elem_div (N := wrapping i8) (fun _ => 0) (Mat 1 [:: - 128%:Z]) (Mat 1 [:: - 1%:Z]) = Err Panic.
Proof. by []. Qed.
@*)
