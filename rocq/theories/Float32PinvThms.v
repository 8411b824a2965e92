(** * (generated by tools/gen32.py from FloatPinvThms.v) Float32PinvThms: pinverse in f32 (C71) *)
From Coq Require Import ZArith Reals Lra Psatz.
From Flocq Require Import Core BinarySingleNaN.
From mathcomp Require Import all_ssreflect all_algebra zify.
From mathcomp Require Import fingroup perm.
From Verif Require Import Base Scalar Hoare ModelMatrix ModelLU ModelQR Spec MatrixProofs MatrixProofs2 MatrixThms LUProofs LUEval QREval B32 SpecFloat32 Float32Base Float32Thms Float32LU SpecFloat32Prio SpecFloat32Pinv Float32LUThms Float32Prio Float32PrioThms Float32Chol Float32CholThms RealVec32 QRReal32 Float32QR Float32QRThms.

Set Implicit Arguments.
Unset Strict Implicit.
Unset Printing Implicit Defensive.
Local Open Scope R_scope.

(** ** real arithmetic *)
Lemma dot_near m (a b p q : nat -> R) ra rb : nrm m (fun i => a i - p i) <= ra -> nrm m (fun i => b i - q i) <= rb ->
  Rabs (dotr m a b - dotr m p q) <= (nrm m a + ra) * rb + ra * nrm m b.
Proof.
move=> ha hb.
have -> : dotr m a b - dotr m p q = dotr m (fun i => a i - p i) b + dotr m p (fun i => b i - q i) by rewrite dotrBl dotrBr; ring.
apply: Rle_trans (Rabs_triang _ _) _.
have h1 := nrm_cs m (fun i => a i - p i) b; have h2 := nrm_cs m p (fun i => b i - q i).
have h3 : nrm m p <= nrm m a + ra.
  have := nrm_le_add m p a; rewrite (@nrm_ext m (fun i => p i - a i) (fun i => -1 * (a i - p i))); last by move=> i _; ring.
  by rewrite nrm_scal Rabs_Ropp Rabs_R1; lra.
have := nrm_ge0 m b; have := nrm_ge0 m p; have := nrm_ge0 m (fun i => b i - q i); have := nrm_ge0 m (fun i => a i - p i).
by nra.
Qed.

Lemma rsum_dist n (c : R) (F : 'I_n -> R) : Rmult c (\rsum_(i < n) F i) = \rsum_(i < n) (c * F i).
Proof. by rewrite rsum_scal. Qed.
Lemma rsum_add n (F G : 'I_n -> R) : \rsum_(i < n) (F i + G i) = Rplus (\rsum_(i < n) F i) (\rsum_(i < n) G i).
Proof. exact: big_split. Qed.
Lemma rsum_swap n p (F : 'I_n -> 'I_p -> R) : \rsum_(i < n) \rsum_(j < p) F i j = \rsum_(j < p) \rsum_(i < n) F i j.
Proof. exact: exchange_big. Qed.
Lemma rsum_pick n (i : 'I_n) (F : 'I_n -> R) : \rsum_(k < n) ((if i == k then 1 else 0) * F k) = F i.
Proof.
rewrite (bigD1 i) //= eqxx big1 ?Rplus_0_r ?Rmult_1_l // => k ki.
by rewrite eq_sym (negbTE ki) Rmult_0_l.
Qed.

(** an orthogonal matrix keeps inner products *)
Lemma orth_dot m (Q : 'I_m -> 'I_m -> R) (r s : 'I_m -> R) :
  (forall i j, \rsum_(l < m) (Q l i * Q l j) = if i == j then 1 else 0) ->
  \rsum_(i < m) ((\rsum_(k < m) (Q i k * r k)) * (\rsum_(l < m) (Q i l * s l))) = \rsum_(k < m) (r k * s k).
Proof.
move=> oQ.
transitivity (\rsum_(k < m) (r k * (\rsum_(l < m) ((if k == l then 1 else 0) * s l)))); last first.
  by apply: rsum_ext => k; rewrite rsum_pick.
transitivity (\rsum_(i < m) \rsum_(k < m) \rsum_(l < m) (Q i k * r k * (Q i l * s l))).
  apply: rsum_ext => i; rewrite Rmult_comm rsum_dist; apply: rsum_ext => k.
  by rewrite Rmult_comm rsum_dist.
rewrite rsum_swap; apply: rsum_ext => k.
rewrite rsum_swap rsum_dist; apply: rsum_ext => l.
rewrite -oQ (_ : r k * (_ * s l) = r k * s l * \rsum_(i < m) (Q i k * Q i l)); last by ring.
by rewrite rsum_dist; apply: rsum_ext => i; ring.
Qed.

(** ** A' A X = A', when N is near A' A, Y near the inverse of N and X near Y A' *)
Lemma normal_eq m n (G N F : 'I_n -> 'I_n -> R) (Y D : 'I_n -> 'I_n -> R) (X : 'I_n -> 'I_m -> R) (a : 'I_m -> 'I_n -> R)
    (P : 'I_n -> 'I_m -> R) (i : 'I_n) (j : 'I_m) :
  (forall l, Rabs (G i l - N i l) <= F i l) ->
  (forall l, Rabs (X l j - \rsum_(k < n) (Y l k * a j k)) <= P l j) ->
  (forall k, Rabs ((if i == k then 1 else 0) - \rsum_(l < n) (N i l * Y l k)) <= D i k) ->
  Rabs (\rsum_(l < n) (G i l * X l j) - a j i) <=
    \rsum_(l < n) (F i l * Rabs (X l j)) + \rsum_(l < n) (Rabs (N i l) * P l j) + \rsum_(k < n) (D i k * Rabs (a j k)).
Proof.
move=> hF hP hD.
have e : \rsum_(l < n) (G i l * X l j) - a j i =
    \rsum_(l < n) ((G i l - N i l) * X l j) + \rsum_(l < n) (N i l * (X l j - \rsum_(k < n) (Y l k * a j k))) -
    \rsum_(k < n) (((if i == k then 1 else 0) - \rsum_(l < n) (N i l * Y l k)) * a j k).
  have -> : \rsum_(k < n) (((if i == k then 1 else 0) - \rsum_(l < n) (N i l * Y l k)) * a j k) =
      a j i - \rsum_(l < n) (N i l * \rsum_(k < n) (Y l k * a j k)).
    transitivity (\rsum_(k < n) ((if i == k then 1 else 0) * a j k - \rsum_(l < n) (N i l * (Y l k * a j k)))).
      apply: rsum_ext => k; rewrite Rmult_minus_distr_r; congr (_ - _).
      by rewrite Rmult_comm rsum_dist; apply: rsum_ext => l; ring.
    rewrite rsum_sub rsum_pick rsum_swap; congr (_ - _).
    by apply: rsum_ext => l; rewrite -rsum_dist.
  have -> : \rsum_(l < n) ((G i l - N i l) * X l j) = \rsum_(l < n) (G i l * X l j) - \rsum_(l < n) (N i l * X l j).
    by rewrite -rsum_sub; apply: rsum_ext => l; ring.
  have -> : \rsum_(l < n) (N i l * (X l j - \rsum_(k < n) (Y l k * a j k))) =
      \rsum_(l < n) (N i l * X l j) - \rsum_(l < n) (N i l * \rsum_(k < n) (Y l k * a j k)).
    by rewrite -rsum_sub; apply: rsum_ext => l; ring.
  ring.
rewrite e.
have b1 : Rabs (\rsum_(l < n) ((G i l - N i l) * X l j)) <= \rsum_(l < n) (F i l * Rabs (X l j)).
  apply: Rle_trans (rsum_abs _) (rsum_le _) => l; rewrite Rabs_mult.
  by apply: Rmult_le_compat_r => //; exact: Rabs_pos.
have b2 : Rabs (\rsum_(l < n) (N i l * (X l j - \rsum_(k < n) (Y l k * a j k)))) <= \rsum_(l < n) (Rabs (N i l) * P l j).
  apply: Rle_trans (rsum_abs _) (rsum_le _) => l; rewrite Rabs_mult.
  by apply: Rmult_le_compat_l => //; exact: Rabs_pos.
have b3 : Rabs (\rsum_(k < n) (((if i == k then 1 else 0) - \rsum_(l < n) (N i l * Y l k)) * a j k)) <=
    \rsum_(k < n) (D i k * Rabs (a j k)).
  apply: Rle_trans (rsum_abs _) (rsum_le _) => l; rewrite Rabs_mult.
  by apply: Rmult_le_compat_r => //; exact: Rabs_pos.
move: b1 b2 b3; set u := \rsum_(l < n) _; set v := \rsum_(l < n) (N i l * _); set w := \rsum_(k < n) (_ * a j k).
by move=> b1 b2 b3; have := Rabs_triang (u + v) (- w); have := Rabs_triang u v; rewrite Rabs_Ropp -/(u + v - w); lra.
Qed.

(** from the normal equations to the pseudo-inverse *)
Lemma normal_forward m n (G V : 'I_n -> 'I_n -> R) (X E : 'I_n -> 'I_m -> R) (a : 'I_m -> 'I_n -> R) (i : 'I_n) (j : 'I_m) :
  (forall k l, \rsum_(p < n) (V k p * G p l) = if k == l then 1 else 0) ->
  (forall k, Rabs (\rsum_(l < n) (G k l * X l j) - a j k) <= E k j) ->
  Rabs (X i j - \rsum_(l < n) (V i l * a j l)) <= \rsum_(l < n) (Rabs (V i l) * E l j).
Proof.
move=> hV hE.
have -> : X i j - \rsum_(l < n) (V i l * a j l) = \rsum_(p < n) (V i p * (\rsum_(l < n) (G p l * X l j) - a j p)).
  transitivity (\rsum_(p < n) (V i p * \rsum_(l < n) (G p l * X l j)) - \rsum_(p < n) (V i p * a j p)); last first.
    by rewrite -rsum_sub; apply: rsum_ext => p; ring.
  congr (_ - _); rewrite -{1}(rsum_pick i (fun l => X l j)).
  transitivity (\rsum_(l < n) \rsum_(p < n) (V i p * (G p l * X l j))).
    apply: rsum_ext => l; rewrite -hV Rmult_comm rsum_dist; apply: rsum_ext => p; ring.
  by rewrite rsum_swap; apply: rsum_ext => p; rewrite -rsum_dist.
apply: Rle_trans (rsum_abs _) (rsum_le _) => l; rewrite Rabs_mult.
by apply: Rmult_le_compat_l => //; exact: Rabs_pos.
Qed.

(** ** R' R is near A' A *)
Lemma gram_near m n (a r : 'I_m.+1 -> 'I_n -> R) (Q : 'I_m.+1 -> 'I_m.+1 -> R) (q : 'I_n -> R) :
  let cn j := sqrt (\rsum_(i < m.+1) (a i j ^ 2)) in
  (forall i j, \rsum_(l < m.+1) (Q l i * Q l j) = if i == j then 1 else 0) ->
  (forall j, sqrt (\rsum_(i < m.+1) ((a i j - (\rsum_(l < m.+1) (Q i l * r l j))) ^ 2)) <= q j) ->
  forall i j,
  Rabs (\rsum_(k < m.+1) (a k i * a k j) - \rsum_(k < m.+1) (r k i * r k j)) <= (cn i + q i) * q j + q i * cn j /\
  \rsum_(k < m.+1) (Rabs (r k i) * Rabs (r k j)) <= (cn i + q i) * (cn j + q j).
Proof.
move=> cn oQ hq i j.
pose av j (k : nat) := a (inord k) j; pose rvv j (k : nat) := r (inord k) j.
pose pv j (k : nat) := \rsum_(l < m.+1) (Q (inord k) l * r l j).
have cnE j' : cn j' = nrm m.+1 (av j').
  rewrite /cn /nrm /dotr (rsum_rsumn (G := fun k => av j' k * av j' k)) // => k.
  by rewrite /av inord_val; ring.
have dotE j1 j2 : \rsum_(k < m.+1) (a k j1 * a k j2) = dotr m.+1 (av j1) (av j2).
  by rewrite /dotr (rsum_rsumn (G := fun k => av j1 k * av j2 k)) // => k; rewrite /av inord_val.
have dotRE j1 j2 : \rsum_(k < m.+1) (r k j1 * r k j2) = dotr m.+1 (rvv j1) (rvv j2).
  by rewrite /dotr (rsum_rsumn (G := fun k => rvv j1 k * rvv j2 k)) // => k; rewrite /rvv inord_val.
have dotPE j1 j2 : dotr m.+1 (pv j1) (pv j2) = \rsum_(k < m.+1) (r k j1 * r k j2).
  rewrite -(orth_dot (fun k => r k j1) (fun k => r k j2) oQ) /dotr.
  by rewrite (rsum_rsumn (G := fun k => pv j1 k * pv j2 k)) // => k; rewrite /pv inord_val.
have qE j' : nrm m.+1 (fun k => av j' k - pv j' k) <= q j'.
  have := hq j'; rewrite /nrm /dotr (rsum_rsumn (G := fun k => (av j' k - pv j' k) * (av j' k - pv j' k))) // => k.
  by rewrite /av /pv inord_val; ring.
split; first by rewrite dotE -dotPE !cnE; apply: dot_near.
have nR j' : nrm m.+1 (rvv j') <= cn j' + q j'.
  have -> : nrm m.+1 (rvv j') = nrm m.+1 (pv j') by rewrite /nrm -dotRE -dotPE.
  have := nrm_le_add m.+1 (pv j') (av j'); rewrite (@nrm_ext m.+1 (fun i => pv j' i - av j' i) (fun i => -1 * (av j' i - pv j' i))); last by move=> k _; ring.
  by rewrite nrm_scal Rabs_Ropp Rabs_R1 cnE; have := qE j'; lra.
have := nrm_cs_abs m.+1 (rvv i) (rvv j).
rewrite -(rsum_rsumn (F := fun k : 'I_m.+1 => Rabs (r k i) * Rabs (r k j))); last by move=> k; rewrite /rvv inord_val.
move=> h; apply: Rle_trans h _; apply: Rmult_le_compat; [exact: nrm_ge0|exact: nrm_ge0|exact: nR|exact: nR].
Qed.

(*@section C62 (C71 in f32) pinverse in f32 @*)

(*@doc C62 (C71 in f32): for every f32 matrix A (NaN and infinities included) pinverse either panics or returns a matrix X, and it panics
  exactly when U, of the LU decomposition of the computed N = R' R, has a zero on its diagonal.  Suppose the factors are
  finite, and every diagonal element of R is 0 or between 2^-50 and 2^62 in magnitude.  First, if A' A has
  a (real) left inverse V with absolute row sums at most K, and K times the rounding errors of N and of its LU factors is below
  1, there is no zero on the diagonal and pinverse does not panic.  Second, if X is finite, then so is A, X satisfies the normal equations A' A X = A' up
  to pinv_error in every element, and it differs from the pseudo-inverse V A' by at most |V| pinv_error. *)
Lemma pinverse_rounding_f32_L : forall gp g1 g2 g3 g4 g5 g6 g7 g8 m n (A : 'M[b32]_(m.+1, n.+1)),
  exists (d : qr_decomp B32) (Rm H : 'M[b32]_(m.+1, n.+1)) (N : 'M[b32]_n.+1) (dl : lu_decomp B32) (L U : 'M[b32]_n.+1),
  let factors_ok := [/\ 64 * err (m.+1 + 3) <= 1,
    forall i j, finite (H i j), forall i j, finite (L i j), forall i j, finite (U i j) &
    forall (i : 'I_m.+1) (j : 'I_n.+1), i = j :> nat -> rv (Rm i j) = 0 \/ / 2 ^ 50 <= Rabs (rv (Rm i j)) <= 2 ^ 62] in
  [/\ qr_new (S:=B32) g1 (mat_of A) = Ok d,
      forall g, qr_get_r g d = Ok (mat_of Rm),
      forall g, qr_get_h g d = Ok (mat_of H) &
      mul (N:=B32) g4 (mat_of Rm^T%R) (mat_of Rm) = Ok (mat_of N)] /\
  [/\ lu_new (S:=B32) gp (mat_of N) = Ok dl,
      forall g, lu_get_l g dl = Ok (mat_of L),
      forall g, lu_get_u g dl = Ok (mat_of U),
      factors_ok -> forall W, (forall i j, Rabs (rv (U i j)) <= W) ->
        forall (V : 'I_n.+1 -> 'I_n.+1 -> R) K G,
          (forall i j, (\rsum_(l < n.+1) (V i l * gram A l j)) = if i == j then 1 else 0) ->
          (forall i, (\rsum_(l < n.+1) Rabs (V i l)) <= K) -> (forall i j, gram_error A i j <= G) ->
          K * (INR n.+1 * (G + lu_error n.+1 W)) < 1 ->
          [forall i, ~~ Beqb (U i i) b32_zero] &
  if [forall i, ~~ Beqb (U i i) b32_zero] then
    exists (Y : 'M[b32]_n.+1) (X : 'M[b32]_(n.+1, m.+1)),
    [/\ inverse (S:=B32) gp g5 g6 (mat_of N) = Ok (Some (mat_of Y)),
        pinverse (S:=B32) gp g1 g2 g3 g4 g5 g6 g7 g8 (mat_of A) = Ok (mat_of X) &
    factors_ok -> (forall i j, finite (X i j)) ->
    forall W, (forall i j, Rabs (rv (U i j)) <= W) ->
    [/\ forall i j, finite (A i j),
        forall i j, Rabs ((\rsum_(l < n.+1) (gram A i l * rv (X l j))) - rv (A j i)) <= pinv_error A N Y X W i j &
        forall V : 'I_n.+1 -> 'I_n.+1 -> R,
          (forall i j, (\rsum_(l < n.+1) (V i l * gram A l j)) = if i == j then 1 else 0) ->
          forall i j, Rabs (rv (X i j) - (\rsum_(l < n.+1) (V i l * rv (A j l)))) <=
            \rsum_(l < n.+1) (Rabs (V i l) * pinv_error A N Y X W l j)]]
  else pinverse (S:=B32) gp g1 g2 g3 g4 g5 g6 g7 g8 (mat_of A) = Err Panic].
Proof.
move=> gp g1 g2 g3 g4 g5 g6 g7 g8 m n A.
have [d [Rm [H [e eR eH [_ _ HQ]]]]] := qr_rounding_f32_L g1 A.
have [N [eN HN]] := mul_rounding_f32_L g4 (Rm^T)%R Rm.
have [dl [s [L [U [el eL eU HI]]]]] := inverse_rounding_f32_L gp g5 g6 N.
exists d, Rm, H, N, dl, L, U => fok; split=> //.
have core : fok -> [/\ forall i j, finite (A i j), forall i j, Rabs (rv (L i j)) <= 1,
    forall i l, Rabs (gram A i l - rv (N i l)) <= gram_error A i l,
    forall i j : 'I_n.+1, (j < i)%N -> U i j = b32_zero &
    exists s : 'S_n.+1, forall i j, Rabs (rv (N (s i) j) - (\rsum_(l < n.+1) (rv (L i l) * rv (U l j)))) <=
        err n.+1 * (\rsum_(l < n.+1) (Rabs (rv (L i l)) * Rabs (rv (U l j)))) +
        grow n.+1 * eta32 * (INR n.+1 + (\rsum_(l < n.+1) Rabs (rv (U l j))))].
  move=> [E1 FH FL FU RG].
  have [dl' [s' [L' [U' [el' eL' eU' _ [_ _ Z h]]]]]] := lu_rounding_f32_L gp N.
  move: el'; rewrite el => -[dd]; rewrite -dd in eL' eU'.
  move: L' U' eL' eU' Z h; rewrite minnn => L' U' eL' eU' Z h.
  have EL : L = L' by move: (eL (fun=> b32_zero)); rewrite eL' => -[h']; apply/esym/mat_of_inj; congr Mat.
  have EU : U = U' by move: (eU (fun=> b32_zero)); rewrite eU' => -[h']; apply/esym/mat_of_inj; congr Mat.
  rewrite -EL -EU in h Z; have [FN L1 LUb] := h FL FU.
  have FR i j : finite (Rm i j) by have [h1 _] := HN j j; have [h' _] := h1 (FN _ _); have [_] := h' i.
  have [FA [Q [oQ hQ]]] := HQ E1 FR FH RG.
  split=> //; last by exists s'.
  have GR := gram_near oQ hQ.
  move=> i l.
  have [g1' g2'] := GR i l; have [h1 _] := HN i l; have [_ hn] := h1 (FN i l).
  move: hn; rewrite (rsum_ext (g := fun k => rv (Rm k i) * rv (Rm k l))); last by move=> k; rewrite mxE.
  rewrite (rsum_ext (f := fun k => Rabs _ * Rabs _) (g := fun k => Rabs (rv (Rm k i)) * Rabs (rv (Rm k l)))); last by move=> k; rewrite mxE.
  move=> hn; rewrite /gram_error.
  have e2 := Rmult_le_compat_l _ _ _ (err_ge0 m.+1) g2'.
  move: g1' hn e2; rewrite /gram /qr_error /col_norm; set G := \rsum_(k < m.+1) (rv (A k i) * _).
  set Z' := \rsum_(k < m.+1) (rv (Rm k i) * _) => g1' hn e2.
  have := Rabs_triang (G - Z') (- (rv (N i l) - Z')); rewrite Rabs_Ropp.
  have -> : G - Z' + - (rv (N i l) - Z') = G - rv (N i l) by ring.
  by lra.
have epi : pinverse (S:=B32) gp g1 g2 g3 g4 g5 g6 g7 g8 (mat_of A) =
   (o <-- inverse (S:=B32) gp g5 g6 (mat_of N) ;;
    match o with None => Err Panic | Some i => at_ <-- t g7 (mat_of A) ;; mul (N:=B32) g8 i at_ end).
  by rewrite /pinverse e; cbn [bind]; rewrite eR; cbn [bind]; rewrite t_ok_L; [cbn [bind]; rewrite eN|].
split=> //.
  move=> fk W hW V K G hV hK hG hC; have [_ L1 hF Z [s' LUb]] := core fk; have [_ _ _ FU _] := fk.
  apply/forallP => k; rewrite eqb0 // Req_bool_false //.
  have nC (c : R) : \rsum_(l < n.+1) c = INR n.+1 * c.
    by rewrite -/(rsumn n.+1 (fun=> c)); elim: (n.+1) => [|q IH]; rewrite ?rsumn0 ?rsumnS ?IH ?S_INR /=; ring.
  have := @diag_nonzero n.+1 (fun i j => gram A (s' (inord i)) (inord j)) (fun i l => rv (L (inord i) (inord l)))
    (fun l j => if (j < l)%N then 0 else rv (U (inord l) (inord j))) (fun i l => V (inord i) (s' (inord l))) (G + lu_error n.+1 W) K.
  move=> D; have := D _ _ _ _ hC k (ltn_ord k); rewrite ltnn inord_val; apply.
  - by move=> i j ->.
  - move=> i j hi hj; rewrite -[i]/(val (Ordinal hi)) -[j]/(val (Ordinal hj)) !inord_val.
    set i0 := Ordinal hi; set j0 := Ordinal hj.
    rewrite -(rsum_rsumn (F := fun l => rv (L i0 l) * rv (U l j0))); last first.
      by move=> l; rewrite !inord_val; case: ltnP => // jl; rewrite Z.
    have h1 := hF (s' i0) j0; have h2 := LUb i0 j0; have h3 := hG (s' i0) j0.
    have s1 : \rsum_(l < n.+1) (Rabs (rv (L i0 l)) * Rabs (rv (U l j0))) <= INR n.+1 * W.
      rewrite -nC; apply: rsum_le => l; rewrite -[X in _ <= X]Rmult_1_l.
      by apply: Rmult_le_compat; [exact: Rabs_pos|exact: Rabs_pos|apply: L1|apply: hW].
    have s2 : \rsum_(l < n.+1) Rabs (rv (U l j0)) <= INR n.+1 * W by rewrite -nC; apply: rsum_le => l; apply: hW.
    have e1 := Rmult_le_compat_l _ _ _ (err_ge0 n.+1) s1.
    have ge : 0 <= grow n.+1 * eta32 by have := grow_ge1 n.+1; have := eta32_gt0; nra.
    have e2 := Rmult_le_compat_l _ _ _ ge s2.
    move: h1 h2 e1 e2; rewrite /lu_error; set x := gram _ _ _; set y := rv (N _ _); set z := \rsum_(l < n.+1) (rv _ * _).
    move=> h1 h2 e1 e2; have := Rabs_triang (x - y) (y - z).
    have -> : x - y + (y - z) = x - z by ring.
    by lra.
  - move=> i j hi hj; rewrite -[i]/(val (Ordinal hi)) -[j]/(val (Ordinal hj)) !inord_val.
    rewrite -(rsum_rsumn (F := fun l => V (Ordinal hi) (s' l) * gram A (s' l) (Ordinal hj))); last by move=> l; rewrite inord_val.
    by rewrite (rsum_perm s' (fun l => V (Ordinal hi) l * gram A l (Ordinal hj))) hV.
  move=> i hi; rewrite -[i]/(val (Ordinal hi)) !inord_val.
  rewrite -(rsum_rsumn (F := fun l => Rabs (V (Ordinal hi) (s' l)))); last by move=> l; rewrite inord_val.
  by rewrite (rsum_perm s' (fun l => Rabs (V (Ordinal hi) l))).
case: ifP HI => [_ [Y [eY HY]]|_ eY]; last by rewrite epi eY.
have [X [eX HX]] := mul_rounding_f32_L g8 Y (A^T)%R.
exists Y, X; split=> //; first by rewrite epi eY; cbn [bind]; rewrite t_ok_L.
move=> fk FX W hW; have [FA L1 hF _ _] := core fk; have [_ _ FL FU _] := fk.
have FY i k : finite (Y i k) by have [h _] := HX i ord0; have [h' _] := h (FX _ _); have [] := h' k.
have [FN hY] := HY FL FU FY.
have W0 : 0 <= W by apply: Rle_trans (hW ord0 ord0); exact: Rabs_pos.
have hP l j : Rabs (rv (X l j) - \rsum_(k < n.+1) (rv (Y l k) * rv (A j k))) <=
    err n.+1 * (\rsum_(k < n.+1) (Rabs (rv (Y l k)) * Rabs (rv (A j k)))) + INR n.+1 * (grow n.+1 * eta32).
  have [h _] := HX l j; have [_ hn] := h (FX l j).
  move: hn; rewrite (rsum_ext (g := fun k => rv (Y l k) * rv (A j k))); last by move=> k; rewrite mxE.
  by rewrite (rsum_ext (f := fun k => Rabs _ * Rabs _) (g := fun k => Rabs (rv (Y l k)) * Rabs (rv (A j k)))) // => k; rewrite mxE.
have hD i k : Rabs ((if i == k then 1 else 0) - \rsum_(l < n.+1) (rv (N i l) * rv (Y l k))) <=
    solve_error n.+1 W (\rsum_(p < n.+1) Rabs (rv (Y p k))).
  have := hY ((s^-1)%g i) k; rewrite permKV => h; apply: Rle_trans h _.
  exact: (resid_le Y _ _ W0).
have main i j : Rabs ((\rsum_(l < n.+1) (gram A i l * rv (X l j))) - rv (A j i)) <= pinv_error A N Y X W i j.
  exact: (@normal_eq m.+1 n.+1 (gram A) (fun i l => rv (N i l)) (gram_error A) (fun l k => rv (Y l k))
    (fun _ k => solve_error n.+1 W (\rsum_(p < n.+1) Rabs (rv (Y p k)))) (fun l j => rv (X l j)) (fun j k => rv (A j k))
    (fun l j => err n.+1 * (\rsum_(k < n.+1) (Rabs (rv (Y l k)) * Rabs (rv (A j k)))) + INR n.+1 * (grow n.+1 * eta32)) i j).
split=> // V hV i j.
exact: (@normal_forward m.+1 n.+1 (gram A) V (fun l j => rv (X l j)) (pinv_error A N Y X W) (fun j k => rv (A j k)) i j hV).
Qed.

(** ** where it fails *)
Definition is_zero1 (r : res (mat b32)) : bool :=
  match r with Ok (Mat 1 [:: y]) => Beqb y b32_zero | _ => false end.
Lemma beqb_zero (y : b32) : Beqb y b32_zero -> finite y /\ rv y = 0.
Proof.
move=> h; have fy : finite y by move: h; rewrite /finite; case: (y) => //; case.
by split=> //; move: h; rewrite eqb0 //; case: Req_bool_spec.
Qed.
Lemma pinv_tiny gp g1 g2 g3 g4 g5 g6 g7 g8 :
  pinverse (S:=B32) gp g1 g2 g3 g4 g5 g6 g7 g8 (Mat 1 [:: b32_of 1 (-80)]) = Err Panic.
Proof. by vm_cast_no_check (erefl (@Err (mat b32) Panic)). Qed.
Lemma pinv_huge gp g1 g2 g3 g4 g5 g6 g7 g8 :
  is_zero1 (pinverse (S:=B32) gp g1 g2 g3 g4 g5 g6 g7 g8 (Mat 1 [:: b32_of 1 66])).
Proof. by vm_cast_no_check (erefl true). Qed.

(*@doc C62 (C71 in f32), finding: the condition on the diagonal of R cannot be dropped.  For the invertible 1 x 1 matrix [2^-80] the square
  underflows, and pinverse panics. *)
Lemma pinverse_underflow_refuted_f32_L : exists A : 'M[b32]_1, [/\ finite (A ord0 ord0), rv (A ord0 ord0) <> 0 &
  forall gp g1 g2 g3 g4 g5 g6 g7 g8, pinverse (S:=B32) gp g1 g2 g3 g4 g5 g6 g7 g8 (mat_of A) = Err Panic].
Proof.
exists tiny_mx; rewrite mxE; split=> //.
  have : Bltb b32_zero (b32_of 1 (-80)) by [].
  by rewrite Bltb_correct //; case: Rlt_bool_spec => // h _ z; move: h; rewrite -![B2R _]/(rv _) z /= => /Rlt_irrefl.
by move=> gp g1 g2 g3 g4 g5 g6 g7 g8; rewrite mat1E mxE; exact: pinv_tiny.
Qed.

(*@doc C62 (C71 in f32), finding: for the invertible 1 x 1 matrix [2^66], whose square overflows, pinverse silently returns [0]. *)
Lemma pinverse_overflow_refuted_f32_L : exists A : 'M[b32]_1, [/\ finite (A ord0 ord0), 1 <= rv (A ord0 ord0) &
  forall gp g1 g2 g3 g4 g5 g6 g7 g8, exists X : 'M[b32]_1,
    [/\ pinverse (S:=B32) gp g1 g2 g3 g4 g5 g6 g7 g8 (mat_of A) = Ok (mat_of X), finite (X ord0 ord0) & rv (X ord0 ord0) = 0]].
Proof.
exists (mxn 1 1 (fun _ _ => b32_of 1 66)); rewrite mxE; split=> //.
  have : Bleb (b32_int 1) (b32_of 1 66) by [].
  by rewrite Bleb_correct //; case: Rle_bool_spec => // h _; move: h; rewrite -![B2R _]/(rv _) rv_int1.
move=> gp g1 g2 g3 g4 g5 g6 g7 g8.
have := pinv_huge gp g1 g2 g3 g4 g5 g6 g7 g8; rewrite mat1E mxE.
case: (pinverse _ _ _ _ _ _ _ _ _ _) => //= -[[|[|r]] [|y [|z l]]] //= h.
exists (mxn 1 1 (fun _ _ => y)); rewrite mat1E mxE.
by have [] := beqb_zero h; split.
Qed.

(*@example
(** the hypotheses are met by a 3 x 2 matrix with rounding: everything is finite, the diagonal of R is in range, there is no zero
    on the diagonal of U, and the elements of U are at most 128 *)
Definition mx32p : mat b32 := Mat 3 [seq b32_int (Z.of_nat k) | k <- [:: 1; 2; 3; 4; 5; 7]%N].
Definition diag_in_p (x : b32) : bool := Bleb (b32_of 1 (-50)) (Babs x) && Bleb (Babs x) (b32_of 1 62).
Definition fin_p (M : mat b32) : bool := all (@is_finite b_prec b_emax) (data M).
Example pinverse_rounding_example :
  let g : nat -> B32 := fun=> B754_nan in
  match qr_new (S:=B32) g mx32p, pinverse (S:=B32) (fun=> 7%N) g g g g g g g g mx32p with
  | Ok d, Ok X =>
      match qr_get_r g d, qr_get_h g d with
      | Ok Rm, Ok H =>
          match t g Rm with
          | Ok Rt =>
              match mul (N:=B32) g Rt Rm with
              | Ok N =>
                  match lu_new (S:=B32) (fun=> 7%N) N with
                  | Ok dl =>
                      match lu_get_l g dl, lu_get_u g dl with
                      | Ok L, Ok U => [&& fin_p H, fin_p L, fin_p U, fin_p X, all diag_in_p (rdiag d),
                          ~~ Beqb (nth b32_zero (data U) 0) b32_zero, ~~ Beqb (nth b32_zero (data U) 3) b32_zero &
                          all (fun u => Bleb (Babs u) (b32_int 128)) (data U)]
                      | _, _ => false
                      end
                  | _ => false
                  end
              | _ => false
              end
          | _ => false
          end
      | _, _ => false
      end
  | _, _ => false
  end.
Proof. by vm_cast_no_check (erefl true). Qed.
@*)
