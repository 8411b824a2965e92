(** * Float32HangThms: SVD::new on ordinary f32 matrices (C62)

    The convergence threshold of SVD::new is 2^-52 for every element type
    (svd.rs:226, 440); for f32 that is 2^-28 units in the last place, and the
    second threshold, 2^-966, is 0 as an f32.  A superdiagonal element that is
    left over by rounding between two equal singular values is then never
    negligible: the QR step only changes its sign. *)
From Coq Require Import ZArith Reals SpecFloat.
From Flocq Require Import Core BinarySingleNaN.
From mathcomp Require Import all_ssreflect all_algebra zify.
From Verif Require Import Base Scalar Hoare ModelMatrix ModelHypot ModelSVD ModelEigen Spec SpecGarbage MatrixProofs MatrixThms B32 SpecFloat32 Safe SafeSvd Float32RobustThms.

Set Implicit Arguments.
Unset Strict Implicit.
Unset Printing Implicit Defensive.

(** ** the singular values do not depend on U and V *)
Section Indep.
Variables (S : scalar) (m n k : nat).
Local Notation st := (seq S * seq S * seq S * seq S * S * S)%type.
Definition core (x : st) : seq S * seq S * S * S := let: (s, e, _, _, f, g) := x in (s, e, f, g).
Ltac ind1 := cbn [bind]; cbv zeta; match goal with
  | |- bind ?c _ = Ok _ -> bind ?c _ = Ok _ -> _ => case: c => [?|//]
  | |- bind ?c _ = Ok _ -> bind ?c' _ = Ok _ -> _ => case: c => [?|//]; cbn [bind]; case: c' => [?|//]
  end.
Lemma svd_chase_indep j x x' y y' : core x = core x' -> svd_chase m n k j x = Ok y -> svd_chase m n k j x' = Ok y' -> core y = core y'.
Proof.
case: x => [[[[[s e] u] v] f] g]; case: x' => [[[[[s' e'] u'] v'] f'] g'] [<- <- <- <-]; rewrite /svd_chase.
by repeat ind1; cbn [bind] => -[<-] [<-].
Qed.
Lemma for_indep (f : nat -> st -> res st) lo d x x' y y' :
  (forall j x x' y y', core x = core x' -> f j x = Ok y -> f j x' = Ok y' -> core y = core y') ->
  core x = core x' -> for_ lo (lo + d) f x = Ok y -> for_ lo (lo + d) f x' = Ok y' -> core y = core y'.
Proof.
rewrite /for_ addKn => H; elim: d lo x x' => [|d IH] lo x x' e /=; first by move=> [<-] [<-].
case E1 : (f lo x) => [z|//] /=; case E2 : (f lo x') => [z'|//] /=.
exact: IH (H _ _ _ _ _ e E1 E2).
Qed.
Lemma svd_kase3_indep p s e u v u' v' y y' : svd_kase3 (S:=S) m n k p s e u v = Ok y -> svd_kase3 m n k p s e u' v' = Ok y' ->
  y.1.1.1 = y'.1.1.1 /\ y.1.1.2 = y'.1.1.2.
Proof.
rewrite /svd_kase3; case: (svd_shift _ _ _ _) => [[f g]|//]; cbn [bind].
case E1 : (for_ _ _ _ _) => [[[[[[s1 e1] u1] v1] f1] g1]|//]; cbn [bind].
case E2 : (for_ _ _ _ _) => [[[[[[s2 e2] u2] v2] f2] g2]|//]; cbn [bind].
have : core (s1, e1, u1, v1, f1, g1) = core (s2, e2, u2, v2, f2, g2).
  case: (leqP k (p - 1)) => h.
    move: E1 E2; rewrite -(subnKC h); apply: for_indep => //; exact: svd_chase_indep.
  by have h0 : p - 1 - k = 0 by [lia]; move: E1 E2; rewrite /for_ h0 /= => -[<- <- _ _ <- <-] [<- <- _ _ <- <-].
by move=> [<- <- <- _]; case: (vset _ _ _) => [w|//]; cbn [bind] => -[<-] [<-].
Qed.
End Indep.

(** ** a cycle of the iteration *)
Definition sfs (l : seq b32) : seq spec_float := map (@B2SF 24 128) l.
Lemma sfs_inj l l' : sfs l = sfs l' -> l = l'.
Proof. by elim: l l' => [|x l IH] [|y l'] //= [/B2SF_inj -> /IH ->]. Qed.

(** the QR step, with U and V zero, takes the bidiagonal matrix (s, e) to (s', e') *)
Definition sf_eq (x y : spec_float) : bool :=
  match x, y with
  | S754_zero a, S754_zero b => eqb a b
  | S754_infinity a, S754_infinity b => eqb a b
  | S754_nan, S754_nan => true
  | S754_finite a m1 e1, S754_finite b m2 e2 => [&& eqb a b, Pos.eqb m1 m2 & Z.eqb e1 e2]
  | _, _ => false
  end.
Lemma sf_eqP x y : sf_eq x y -> x = y.
Proof. by case: x => [a|a||a m1 e1]; case: y => [b|b||b m2 e2] //=; [move/eqP->|move/eqP->|case/and3P=> /eqP -> /Pos.eqb_eq -> /Z.eqb_eq ->]. Qed.
Definition sfs_eq (l l' : seq b32) : bool := (size l == size l') && all (fun c => sf_eq c.1 c.2) (zip (sfs l) (sfs l')).
Lemma sfs_eqP l l' : sfs_eq l l' -> l = l'.
Proof.
move=> /andP [/eqP h a]; apply: sfs_inj; elim: l l' h a => [|x l IH] [|y l'] //= [h] /andP [/sf_eqP -> a].
by congr cons; exact: IH.
Qed.
Definition step3 (m n k1 p : nat) (s e s' e' : seq b32) : bool :=
  match svd_find_e (S:=B32) (p - 1) s e with
  | Ok (k, e1) => [&& k == k1, k1 != p - 1 & sfs_eq e1 e]
  | Err _ => false
  end &&
  match svd_find_s (S:=B32) p k1 (p - k1) s e with
  | Ok (c, s1) => (c == 0) && sfs_eq s1 s
  | Err _ => false
  end &&
  match svd_kase3 (S:=B32) m n k1 p s e (nseq (m * m) b32_zero) (nseq (n * n) b32_zero) with
  | Ok (s1, e1, _, _) => sfs_eq s1 s' && sfs_eq e1 e'
  | Err _ => false
  end.
Definition at_ m n p (s e : seq b32) (x : sweep B32) : Prop :=
  [/\ w_s x = s, w_e x = e, w_p x = p, size (w_u x) = m * m & size (w_v x) = n * n].
Lemma step3_ok m n k1 p s e s' e' x : 0 < p <= n -> n <= m -> size s = n -> size e = n -> step3 m n k1 p s e s' e' -> at_ m n p s e x ->
  exists x', svd_iter m n (n - 1) x = Ok (Next x') /\ at_ m n p s' e' x'.
Proof.
move=> /andP [p0 pn] nm zs ze; case: x => ws we wu wv wp; rewrite /step3 /at_; cbn [w_s w_e w_u w_v w_p].
move=> H [e1 e2 e3 zu zv]; subst ws we wp.
have := @svd_iter_s B32 (fun e => False) div_tot sqrt_tot m n (@Sweep B32 s e wu wv p).
rewrite /sok; cbn [w_s w_e w_u w_v w_p] => /(_ (And5 zs ze zu zv pn) nm).
rewrite /svd_iter; cbn [w_s w_e w_u w_v w_p]; rewrite eqn0Ngt p0; cbn [negb].
move: H => /andP [/andP [H1 H2] H3].
case: (svd_find_e _ _ _) H1 => [[k e0]|//] /and3P [/eqP -> kp /sfs_eqP ->]; cbn [bind]; rewrite (negbTE kp).
case: (svd_find_s _ _ _ _ _) H2 => [[c s0]|//] /andP [/eqP -> /sfs_eqP ->]; cbn [bind].
rewrite eqxx.
case E1 : (svd_kase3 _ _ _ _ _ _ _ _) H3 => [[[[s1 e1'] u1] v1]|//] /andP [/sfs_eqP h1 /sfs_eqP h2].
case E2 : (svd_kase3 (S:=B32) m n k1 p s e wu wv) => [[[[s2 e2] u2] v2]|er]; cbn [bind]; last by [].
have [h3 h4] := svd_kase3_indep E2 E1; move: h3 h4; rewrite /= => -> -> [_ _ q1 q2 _].
by eexists; split; first by []; split; rewrite /= -?h1 -?h2.
Qed.

Lemma svd_hang_cycle n (l : seq B32) fuel gs gu gv ge gw gb gt1 gt2 k k1 st (s1 e1 s2 e2 : seq b32) : 0 < n -> size l = n * n ->
  (x <-- svd_pre n n gs gu gv ge gw l ;; iterk k (svd_iter n n (n - 1)) x) = Ok st ->
  at_ n n n s1 e1 st -> [/\ size s1 = n, size e1 = n, size s2 = n & size e2 = n] ->
  step3 n n k1 n s1 e1 s2 e2 -> step3 n n k1 n s2 e2 s1 e1 ->
  svd_new (S:=B32) fuel gs gu gv ge gw gb gt1 gt2 (Mat n l) = Err OutOfFuel.
Proof.
move=> n0 sl pre a1 [z1 z2 z3 z4] st1 st2; rewrite /svd_new /svd_tall.
have -> : cols (Mat n l) = Ok n.
  by rewrite /cols /udiv; cbn [data no_rows]; rewrite sl eqn0Ngt n0 mulnK.
cbn [bind no_rows rows]; rewrite ltnn leqnn /require /usub n0.
move: pre; rewrite /svd_pre; cbn [bind get_data data].
have -> : minn n (n + 1) = n by lia.
rewrite n0; cbn [bind].
case: (for_ _ _ _ _) => [b|//]; cbn [bind].
case: (svd_final_bidiag _ _ _ _ _ _ _ _) => [[s e]|//]; cbn [bind].
case: (svd_gen_u _ _ _ _) => [u|//]; cbn [bind].
case: (svd_gen_v _ _ _ _) => [v|//]; cbn [bind] => pre.
rewrite (loop_pre (I := fun x => at_ n n n s1 e1 x \/ at_ n n n s2 e2 x) fuel pre (or_introl a1)) //.
have nn : 0 < n <= n by rewrite n0 leqnn.
move=> x [h|h].
  by have [x' [q1 q2]] := step3_ok nn (leqnn n) z1 z2 st1 h; exists x'; split; [|right].
by have [x' [q1 q2]] := step3_ok nn (leqnn n) z3 z4 st2 h; exists x'; split; [|left].
Qed.

(** [39 -3; -3 -39]: from the second round on, both singular values are 5126909 * 2^-17 and the superdiagonal element alternates between 2^-19 and -2^-19 *)
Definition a2 : seq b32 := [:: b32_int 39; b32_int (-3); b32_int (-3); b32_int (-39)].
Definition pre_ok n (l : seq b32) k (s1 e1 : seq b32) gs gu gv ge gw : bool :=
  match (x <-- svd_pre n n gs gu gv ge gw l ;; iterk k (svd_iter n n (n - 1)) x) with
  | Ok x => [&& sfs_eq (w_s x) s1, sfs_eq (w_e x) e1, w_p x == n, size (w_u x) == n * n & size (w_v x) == n * n]
  | Err _ => false
  end.
Lemma svd_hang_cycle' n (l : seq b32) fuel gs gu gv ge gw gb gt1 gt2 k k1 (s1 e1 s2 e2 : seq b32) : 0 < n -> size l = n * n ->
  pre_ok n l k s1 e1 gs gu gv ge gw -> [/\ size s1 = n, size e1 = n, size s2 = n & size e2 = n] ->
  step3 n n k1 n s1 e1 s2 e2 -> step3 n n k1 n s2 e2 s1 e1 ->
  svd_new (S:=B32) fuel gs gu gv ge gw gb gt1 gt2 (Mat n (l : seq B32)) = Err OutOfFuel.
Proof.
rewrite /pre_ok; case E : (bind _ _) => [x|//] n0 sl /and5P [/sfs_eqP h1 /sfs_eqP h2 /eqP h3 /eqP h4 /eqP h5] z st1 st2.
exact: (svd_hang_cycle _ _ _ _ n0 sl E (And5 h1 h2 h3 h4 h5) z st1 st2).
Qed.
Definition s2 : seq b32 := [:: b32_of 5126909 (-17); b32_of 5126909 (-17)].
Definition ep2 : seq b32 := [:: b32_of 1 (-19); B754_zero true].
Definition em2 : seq b32 := [:: b32_of (-1) (-19); B754_zero true].
Lemma pre2 gs gu gv ge gw : pre_ok 2 a2 1 s2 ep2 gs gu gv ge gw = true.
Proof. vm_cast_no_check (erefl true). Qed.
Lemma step2a : step3 2 2 0 2 s2 ep2 s2 em2 = true.
Proof. vm_cast_no_check (erefl true). Qed.
Lemma step2b : step3 2 2 0 2 s2 em2 s2 ep2 = true.
Proof. vm_cast_no_check (erefl true). Qed.

(** [2 -1 -2; 1 2 -1; -2 -1 -2], with singular values sqrt 10, sqrt 10 and 2 *)
Definition a3 : seq b32 := [:: b32_int 2; b32_int (-1); b32_int (-2); b32_int 1; b32_int 2; b32_int (-1); b32_int (-2); b32_int (-1); b32_int (-2)].
Definition s3 : seq b32 := [:: b32_of 8388607 (-22); b32_of 13263552 (-22); b32_of 13263553 (-22)].
Definition ep3 : seq b32 := [:: b32_zero; b32_of 1 (-24); b32_zero].
Definition em3 : seq b32 := [:: b32_zero; b32_of (-1) (-24); B754_zero true].
Lemma pre3 gs gu gv ge gw : pre_ok 3 a3 5 s3 ep3 gs gu gv ge gw = true.
Proof. vm_cast_no_check (erefl true). Qed.
Lemma step3a : step3 3 3 1 3 s3 ep3 s3 em3 = true.
Proof. vm_cast_no_check (erefl true). Qed.
Lemma step3b : step3 3 3 1 3 s3 em3 s3 ep3 = true.
Proof. vm_cast_no_check (erefl true). Qed.

(*@section C62 SVD::new does not terminate on ordinary f32 matrices @*)

(*@doc C62: on the f32 matrix [39 -3; -3 -39] (sqrt 1530 times an orthogonal matrix) SVD::new never returns. *)
Lemma svd_new_hangs_2x2_f32_L : exists A : 'M[b32]_2,
  [/\ A ord0 ord0 = b32_int 39, A ord0 ord_max = b32_int (-3), A ord_max ord0 = b32_int (-3) & A ord_max ord_max = b32_int (-39)] /\
  forall fuel (gs gu gv ge gw gb gt1 gt2 : nat -> B32), svd_new (S:=B32) fuel gs gu gv ge gw gb gt1 gt2 (mat_of A) = Err OutOfFuel.
Proof.
exists (mx_lit 2 a2); split; first by rewrite !mxE.
move=> fuel gs gu gv ge gw gb gt1 gt2; rewrite mx_lit_mat //.
apply: (@svd_hang_cycle' 2 a2 fuel gs gu gv ge gw gb gt1 gt2 1 0 s2 ep2 s2 em2); [by []|by []|exact: pre2|by []|exact: step2a|exact: step2b].
Qed.

(*@doc C62: nor does it on the f32 matrix [2 -1 -2; 1 2 -1; -2 -1 -2], whose singular values are sqrt 10, sqrt 10 and 2. *)
Lemma svd_new_hangs_3x3_f32_L : exists A : 'M[b32]_3,
  (forall i j : 'I_3, A i j = nth b32_zero [:: b32_int 2; b32_int (-1); b32_int (-2); b32_int 1; b32_int 2; b32_int (-1);
                                              b32_int (-2); b32_int (-1); b32_int (-2)] (3 * i + j)) /\
  forall fuel (gs gu gv ge gw gb gt1 gt2 : nat -> B32), svd_new (S:=B32) fuel gs gu gv ge gw gb gt1 gt2 (mat_of A) = Err OutOfFuel.
Proof.
exists (mx_lit 3 a3); split; first by move=> i j; rewrite mxE mulnC.
move=> fuel gs gu gv ge gw gb gt1 gt2; rewrite mx_lit_mat //.
apply: (@svd_hang_cycle' 3 a3 fuel gs gu gv ge gw gb gt1 gt2 5 1 s3 ep3 s3 em3); [by []|by []|exact: pre3|by []|exact: step3a|exact: step3b].
Qed.

(*@doc C62: the hypothesis [zero_sum] of the theorems on uninitialised memory (C44) holds for f32. *)
Lemma zero_sum_f32_L : zero_sum B32.
Proof. exact: b32_zero_sum. Qed.
