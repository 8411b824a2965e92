(** * Orth: loops that own rows or columns; reflections, plane rotations and
    the Frobenius norm as matrices. *)
From mathcomp Require Import all_ssreflect all_algebra zify ring.
From Verif Require Import Base Scalar Hoare ModelMatrix Spec SpecDecomp LUProofs LUThms MiscThms.

Set Implicit Arguments.
Unset Strict Implicit.
Unset Printing Implicit Defensive.
Import Order.TTheory GRing.Theory Num.Theory.

(** ** Loops in which iteration k changes only what it owns *)
Section Own.
Variables (T : Type) (E : err -> Prop).

(** iteration k writes only the cells (a,b) with own a b = k *)
Lemma for_own (own : nat -> nat -> nat) m n lo hi (body : nat -> seq T -> res (seq T)) v f f' :
  lo <= hi -> repr m n v f ->
  (forall k v f1, lo <= k < hi -> repr m n v f1 ->
     (forall a b, a < m -> b < n -> (own a b == k) || ~~ (lo <= own a b < k) -> f1 a b = f a b) ->
     wpe E (body k v) (fun v' => repr m n v' (fun a b => if own a b == k then f' a b else f1 a b))) ->
  wpe E (for_ lo hi body v)
    (fun v' => repr m n v' (fun a b => if lo <= own a b < hi then f' a b else f a b)).
Proof.
move=> le Hv Hb.
apply: (wpe_for (fun k v => repr m n v (fun a b => if lo <= own a b < k then f' a b else f a b))) => //.
- by apply: repr_ext Hv _ => a b _ _; case: ifP => //; lia.
- move=> k v1 hk Hv1; apply: wpe_mono (Hb k v1 _ hk Hv1 _) => [v2 Hv2|a b _ _ h]; last first.
    by case: ifP => //; lia.
  apply: repr_ext Hv2 _ => a b _ _; case: (altP (own a b =P k)) => [->|ne].
    by have -> : lo <= k < k.+1 by lia.
  by have -> : (lo <= own a b < k.+1) = (lo <= own a b < k) by lia.
Qed.

Lemma for_rev_own (own : nat -> nat -> nat) m n lo hi (body : nat -> seq T -> res (seq T)) v f f' :
  lo <= hi -> repr m n v f ->
  (forall k v f1, lo <= k < hi -> repr m n v f1 ->
     (forall a b, a < m -> b < n -> (own a b == k) || ~~ (k < own a b < hi) -> f1 a b = f a b) ->
     wpe E (body k v) (fun v' => repr m n v' (fun a b => if own a b == k then f' a b else f1 a b))) ->
  wpe E (for_rev lo hi body v)
    (fun v' => repr m n v' (fun a b => if lo <= own a b < hi then f' a b else f a b)).
Proof.
move=> le Hv Hb.
apply: (wpe_for_rev (fun k v => repr m n v (fun a b => if k <= own a b < hi then f' a b else f a b))) => //.
- by apply: repr_ext Hv _ => a b _ _; case: ifP => //; lia.
- move=> k v1 hk Hv1; apply: wpe_mono (Hb k v1 _ hk Hv1 _) => [v2 Hv2|a b _ _ h]; last first.
    by case: ifP => //; lia.
  apply: repr_ext Hv2 _ => a b _ _; case: (altP (own a b =P k)) => [->|ne].
    by have -> : k <= k < hi by lia.
  by have -> : (k.+1 <= own a b < hi) = (k <= own a b < hi) by lia.
Qed.

Lemma for_own1 n lo hi (body : nat -> seq T -> res (seq T)) v f f' :
  lo <= hi <= n -> repr1 n v f ->
  (forall k v f1, lo <= k < hi -> repr1 n v f1 ->
     (forall a, a < n -> ~~ (lo <= a < k) -> f1 a = f a) ->
     body k v = vset v k (f' k)) ->
  wpe E (for_ lo hi body v)
    (fun v' => repr1 n v' (fun a => if lo <= a < hi then f' a else f a)).
Proof.
move=> le Hv Hb.
apply: (wpe_for (fun k v => repr1 n v (fun a => if lo <= a < k then f' a else f a))) => //; first by lia.
- by apply: repr1_ext Hv _ => a _; case: ifP => //; lia.
- move=> k v1 hk Hv1; rewrite (Hb k v1 _ hk Hv1); last by move=> a ha /negPf ->.
  apply: wpe_vset; first by rewrite (repr1_size Hv1); lia.
  apply: repr1_upd Hv1 _ _ => [|a ha]; first by lia.
  case: (altP (a =P k)) => [->|ne]; first by have -> : lo <= k < k.+1 by lia.
  by have -> : (lo <= a < k.+1) = (lo <= a < k) by lia.
Qed.

Lemma wpe_repr1_set n v f i x (Q : seq T -> Prop) : repr1 n v f -> i < n ->
  (forall v', repr1 n v' (fun k => if k == i then x else f k) -> Q v') ->
  wpe E (vset v i x) Q.
Proof.
move=> H hi HQ; apply: wpe_vset; first by rewrite (repr1_size H).
by apply: HQ; apply: repr1_upd H _ _.
Qed.

End Own.
Arguments for_own {T E} own {m n lo hi body v f} f'.
Arguments for_rev_own {T E} own {m n lo hi body v f} f'.
Arguments for_own1 {T E n lo hi body v f} f'.
Arguments wpe_repr1_set {T E n v f i x Q}.

Local Open Scope ring_scope.

(** expose the operations of the field *)
Ltac exs := cbn [exactE exact_num s_num n_T n_zero n_one n_add n_sub n_mul n_neg n_div
  s_abs s_sqrt s_eqb s_ltb s_leb s_max s_eps s_tiny s_two s_c075 s_cm04375 s_c0964].

Section Orth.
Variable F : rcfType.

(** ** Orthogonal matrices *)
Lemma orthogonal1 n : orthogonal (1%:M : 'M[F]_n).
Proof. by split; rewrite trmx1 mulmx1. Qed.

Lemma orthogonalP n (V : 'M[F]_n) : V^T *m V = 1%:M -> orthogonal V.
Proof. by move=> H; split=> //; apply: mulmx1C. Qed.

Lemma orthogonalM n (U V : 'M[F]_n) : orthogonal U -> orthogonal V -> orthogonal (U *m V).
Proof.
move=> [u1 _] [v1 _]; apply: orthogonalP.
by rewrite trmx_mul mulmxA -(mulmxA V^T) u1 mulmx1.
Qed.

Lemma orthogonalT n (U : 'M[F]_n) : orthogonal U -> orthogonal U^T.
Proof. by move=> [h1 h2]; split; rewrite trmxK. Qed.

(** ** Householder reflections I - u u^T / h *)
Section House.
Variable n : nat.
Implicit Types (u : nat -> F) (h : F).

Definition uvec u : 'cV[F]_n := \col_i u i.
Definition house u h : 'M[F]_n :=
  if h == 0 then 1%:M else 1%:M - h^-1 *: (uvec u *m (uvec u)^T).

Lemma house_tr u h : (house u h)^T = house u h.
Proof.
rewrite /house; case: ifP => _; first by rewrite trmx1.
by rewrite linearB /= trmx1 linearZ /= trmx_mul trmxK.
Qed.

Lemma uvec_dot u w : ((uvec u)^T *m uvec w) = (\sum_(0 <= i < n) u i * w i)%:M.
Proof.
apply/matrixP => i j; rewrite !mxE !ord1 eqxx mulr1n big_mkord.
by apply: eq_bigr => l _; rewrite !mxE.
Qed.

Lemma house_invol u h : (h != 0 -> \sum_(0 <= i < n) u i * u i = h *+ 2) ->
  house u h *m house u h = 1%:M.
Proof.
rewrite /house; case: (altP (h =P 0)) => [_ _|h0 /(_ isT) H]; first by rewrite mulmx1.
set M := uvec u *m _; have MM : M *m M = (h *+ 2) *: M.
  by rewrite /M mulmxA -(mulmxA (uvec u)) uvec_dot H mul_mx_scalar -scalemxAl.
rewrite mulmxBl mul1mx mulmxBr mulmx1 -scalemxAl -scalemxAr MM !scalerA.
have -> : h^-1 * h^-1 * (h *+ 2) = h^-1 + h^-1 by rewrite mulr2n mulrDr -!mulrA mulVf // mulr1.
by rewrite scalerDl opprB addrK subrK.
Qed.

Lemma house_orth u h : (h != 0 -> \sum_(0 <= i < n) u i * u i = h *+ 2) -> orthogonal (house u h).
Proof. by move=> H; apply: orthogonalP; rewrite house_tr house_invol. Qed.

Lemma house_l u h p (g : nat -> nat -> F) (i : 'I_n) (j : 'I_p) : h != 0 ->
  (house u h *m mxf n p g) i j = g i j - u i * (\sum_(0 <= l < n) u l * g l j) / h.
Proof.
rewrite /house => /negPf ->; rewrite mulmxBl mul1mx mxE [X in X + _]mxE; congr (_ + _).
rewrite mxE; congr (- _); rewrite -scalemxAl mxE -mulmxA mxE big_ord1 mxE.
have -> : ((uvec u)^T *m mxf n p g) 0 j = \sum_(0 <= l < n) u l * g l j.
  by rewrite mxE big_mkord; apply: eq_bigr => l _; rewrite !mxE.
by rewrite mulrC.
Qed.

Lemma house_r u h p (g : nat -> nat -> F) (i : 'I_p) (j : 'I_n) : h != 0 ->
  (mxf p n g *m house u h) i j = g i j - (\sum_(0 <= l < n) g i l * u l) / h * u j.
Proof.
rewrite /house => /negPf ->; rewrite mulmxBr mulmx1 mxE [X in X + _]mxE; congr (_ + _).
rewrite mxE; congr (- _); rewrite -scalemxAr mxE mulmxA mxE big_ord1 [X in _ * (_ * X)]mxE.
have -> : (mxf p n g *m uvec u) i 0 = \sum_(0 <= l < n) g i l * u l.
  by rewrite mxE big_mkord; apply: eq_bigr => l _; rewrite !mxE.
by rewrite mxE mulrA; congr (_ * _); rewrite mulrC.
Qed.

Lemma house_lE u h p (g : nat -> nat -> F) : h != 0 ->
  house u h *m mxf n p g = mxf n p (fun i j => g i j - u i * (\sum_(0 <= l < n) u l * g l j) / h).
Proof. by move=> h0; apply/matrixP => i j; rewrite house_l // mxE. Qed.

Lemma house_rE u h p (g : nat -> nat -> F) : h != 0 ->
  mxf p n g *m house u h = mxf p n (fun i j => g i j - (\sum_(0 <= l < n) g i l * u l) / h * u j).
Proof. by move=> h0; apply/matrixP => i j; rewrite house_r // mxE. Qed.

(** the similarity transformation of a symmetric matrix *)
Lemma house_sim u h (g : nat -> nat -> F) : h != 0 ->
  (forall a b, (a < n)%N -> (b < n)%N -> g a b = g b a) ->
  let s j := \sum_(0 <= l < n) u l * g l j in
  let k := \sum_(0 <= l < n) u l * s l in
  house u h *m mxf n n g *m house u h =
  mxf n n (fun a b => g a b - u a * s b / h - s a / h * u b + u a * u b * k / (h * h)).
Proof.
move=> h0 sym s k; rewrite house_lE // house_rE //; apply/matrixP => a b; rewrite !mxE.
have -> : \sum_(0 <= l < n) (g a l - u a * s l / h) * u l = s a - u a * k / h.
  rewrite /k /s mulr_sumr mulr_suml -sumrB; apply: eq_big_nat => l hl.
  rewrite sym //; move: (\sum_(0 <= _ < n) _) => z; ring.
rewrite -/(s b); move: (s a) (s b) (g a b) (u a) (u b) => x1 x2 x3 x4 x5; field; exact: h0.
Qed.

Lemma house_ext u u' h h' : h = h' -> (h != 0 -> forall i, (i < n)%N -> u i = u' i) -> house u h = house u' h'.
Proof.
move=> <- H; rewrite /house; case: ifP => // /negbT h0.
by have -> : uvec u = uvec u' by apply/matrixP => i j; rewrite !mxE H.
Qed.
End House.

(** ** Plane rotations *)
Section Givens.
Variable n : nat.

(** X *m givens a b c s: column a becomes c X_a + s X_b, column b becomes c X_b - s X_a *)
Definition gfn (a b : nat) (c s : F) (i j : nat) : F :=
  if j == a then (if i == a then c else if i == b then s else 0)
  else if j == b then (if i == a then - s else if i == b then c else 0)
  else (i == j)%:R.
Definition givens a b c s : 'M[F]_n := mxf n n (gfn a b c s).

Lemma sum2 (a b : nat) (G : nat -> F) (x y : F) : (a < n)%N -> (b < n)%N -> a != b ->
  \sum_(0 <= l < n) G l * (if l == a then x else if l == b then y else 0) = G a * x + G b * y.
Proof.
move=> an bn ab; rewrite big_mkord.
rewrite (bigD1 (Ordinal an)) //= eqxx (bigD1 (Ordinal bn)) /=; last by rewrite -val_eqE /= eq_sym.
rewrite eqxx [in X in _ + (X + _)]eq_sym (negPf ab) big1 ?addr0 // => l /andP[].
by rewrite -!val_eqE /= => /negPf -> /negPf ->; rewrite mulr0.
Qed.

Lemma givens_r a b c s p (g : nat -> nat -> F) (i : 'I_p) (j : 'I_n) :
  (a < n)%N -> (b < n)%N -> a != b ->
  (mxf p n g *m givens a b c s) i j =
  if j == a :> nat then c * g i a + s * g i b
  else if j == b :> nat then c * g i b - s * g i a else g i j.
Proof.
move=> an bn ab; rewrite mxE.
under eq_bigr do rewrite !mxE /gfn.
rewrite (sum_fn n (fun l => g i l * gfn a b c s l j)) /gfn.
case: eqP => [_|ja]; first by rewrite sum2 // ![_ * g i _]mulrC.
case: eqP => [_|jb]; first by rewrite sum2 // mulrN addrC ![_ * g i _]mulrC.
rewrite big_mkord (bigD1 j) //= eqxx mulr1 big1 ?addr0 // => l.
by rewrite -val_eqE => /negPf /= ->; rewrite mulr0.
Qed.

Lemma givens_tr a b c s : a != b -> (givens a b c s)^T = givens a b c (- s).
Proof.
move=> ab; apply/matrixP => i j; rewrite !mxE /gfn opprK.
case: (altP (i =P a :> nat)) => [ia|ia]; case: (altP (j =P a :> nat)) => [ja|ja].
- by [].
- by case: eqP => //; rewrite ia eq_sym (negPf ja).
- by case: eqP => // _; rewrite ja eq_sym (negPf ia).
case: (altP (i =P b :> nat)) => [ib|ib]; case: (altP (j =P b :> nat)) => [jb|jb] //.
- by rewrite ib eq_sym (negPf jb).
- by rewrite jb eq_sym (negPf ib).
by rewrite eq_sym.
Qed.

Lemma givens_orth a b c s : (a < n)%N -> (b < n)%N -> a != b -> c * c + s * s = 1 ->
  orthogonal (givens a b c s).
Proof.
move=> an bn ab cs; apply: orthogonalP; rewrite givens_tr //.
apply/matrixP => i j; rewrite {1}/givens givens_r // mxE /gfn.
rewrite (negPf ab) !eqxx [(b == a)%N]eq_sym (negPf ab) -val_eqE /=.
case: (altP (j =P a :> nat)) => [ja|ja].
  rewrite ja; case: (altP (i =P a :> nat)) => [ia|ia]; first by rewrite /= opprK.
  case: (altP (i =P b :> nat)) => [ib|ib]; last by rewrite !mulr0 addr0.
  by rewrite mulrN [s * c]mulrC addrC subrr.
case: (altP (j =P b :> nat)) => [jb|jb].
  rewrite jb; case: (altP (i =P a :> nat)) => [ia|ia].
    by rewrite ia (negPf ab) opprK [c * s]mulrC subrr.
  case: (altP (i =P b :> nat)) => [ib|ib]; last by rewrite !mulr0 subr0.
  by rewrite mulrN opprK.
by [].
Qed.

(** a symmetric matrix under the similarity G^T W G, entry by entry *)
Definition rot2 (a b : nat) (c s : F) (g : nat -> nat -> F) i j : F :=
  if j == a then c * g i a + s * g i b
  else if j == b then c * g i b - s * g i a else g i j.

Lemma givens_rE a b c s p g : (a < n)%N -> (b < n)%N -> a != b ->
  mxf p n g *m givens a b c s = mxf p n (rot2 a b c s g).
Proof. by move=> an bn ab; apply/matrixP => i j; rewrite givens_r // mxE. Qed.

Lemma givens_lE a b c s p g : (a < n)%N -> (b < n)%N -> a != b ->
  (givens a b c s)^T *m mxf n p g = mxf n p (fun i j => rot2 a b c s (fun x y => g y x) j i).
Proof.
move=> an bn ab; apply: trmx_inj; rewrite trmx_mul trmxK.
have -> : (mxf n p g)^T = mxf p n (fun x y => g y x) by apply/matrixP => i j; rewrite !mxE.
by rewrite givens_rE //; apply/matrixP => i j; rewrite !mxE.
Qed.
End Givens.

(** ** The Frobenius norm *)
Lemma froE m n (A : 'M[F]_(m, n)) : fro A = normF A.
Proof. by congr Num.sqrt; apply: eq_bigr => i _; apply: eq_bigr => j _; rewrite expr2. Qed.

Lemma fro_ge0 m n (A : 'M[F]_(m, n)) : 0 <= fro A. Proof. exact: sqrtr_ge0. Qed.

Lemma froD m n (A B : 'M[F]_(m, n)) : fro (A + B) <= fro A + fro B.
Proof. by rewrite !froE; have [_ _ _] := @normF_norm F m n; apply. Qed.

Lemma froN m n (A : 'M[F]_(m, n)) : fro (- A) = fro A.
Proof. by rewrite /fro; congr Num.sqrt; apply: eq_bigr => i _; apply: eq_bigr => j _; rewrite mxE sqrrN. Qed.

Lemma fro0 m n : fro (0 : 'M[F]_(m, n)) = 0.
Proof. by rewrite froE; have [_ H _ _] := @normF_norm F m n; apply/H. Qed.

Lemma fro0_eq m n (A : 'M[F]_(m, n)) : fro A = 0 -> A = 0.
Proof. by rewrite froE; have [_ H _ _] := @normF_norm F m n; move/H. Qed.

Lemma fro_tr m n (A : 'M[F]_(m, n)) : fro A^T = fro A.
Proof.
by rewrite /fro exchange_big /=; congr Num.sqrt; apply: eq_bigr => i _; apply: eq_bigr => j _; rewrite mxE.
Qed.

Lemma fro_trace m n (A : 'M[F]_(m, n)) : fro A = Num.sqrt (\tr (A^T *m A)).
Proof.
rewrite -fro_tr /fro /mxtrace; congr Num.sqrt; apply: eq_bigr => i _; rewrite mxE.
by apply: eq_bigr => j _; rewrite !mxE expr2.
Qed.

Lemma fro_orth_l m n (U : 'M[F]_m) (A : 'M[F]_(m, n)) : orthogonal U -> fro (U *m A) = fro A.
Proof.
by move=> [h _]; rewrite !fro_trace trmx_mul mulmxA -(mulmxA A^T) h mulmx1.
Qed.

Lemma fro_orth_r m n (V : 'M[F]_n) (A : 'M[F]_(m, n)) : orthogonal V -> fro (A *m V) = fro A.
Proof. by move=> /orthogonalT h; rewrite -fro_tr trmx_mul fro_orth_l // fro_tr. Qed.

Lemma fro_entry m n (A : 'M[F]_(m, n)) i j : `|A i j| <= fro A.
Proof.
rewrite -sqrtr_sqr; apply: ler_wsqrtr.
rewrite (bigD1 i) //= (bigD1 j) //= -addrA ler_addl addr_ge0 //.
  by apply: sumr_ge0 => l _; apply: sqr_ge0.
by apply: sumr_ge0 => k _; apply: sumr_ge0 => l _; apply: sqr_ge0.
Qed.

Lemma fro_le m n (A B : 'M[F]_(m, n)) : (forall i j, `|A i j| <= `|B i j|) -> fro A <= fro B.
Proof.
move=> H; apply: ler_wsqrtr; apply: ler_sum => i _; apply: ler_sum => j _.
by rewrite -[A i j ^+ 2]real_normK ?num_real // -[B i j ^+ 2]real_normK ?num_real // ler_expn2r ?nnegrE.
Qed.

(** a matrix with one non-zero entry *)
Lemma fro_single m n (i0 : 'I_m) (j0 : 'I_n) (A : 'M[F]_(m, n)) :
  (forall i j, (i, j) != (i0, j0) -> A i j = 0) -> fro A = `|A i0 j0|.
Proof.
move=> H; rewrite -sqrtr_sqr; congr Num.sqrt.
rewrite (bigD1 i0) //= (bigD1 j0) //= big1; last first.
  by move=> j hj; rewrite H ?expr0n // xpair_eqE (negPf hj) andbF.
rewrite big1 ?addr0 // => i hi; apply: big1 => j _.
by rewrite H ?expr0n // xpair_eqE (negPf hi).
Qed.

End Orth.
