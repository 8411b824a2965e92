(** * (generated by tools/gen32.py from FloatPinvPrioThms.v) Float32PinvPrioThms: pinverse of a well-conditioned matrix in f32 (C72) *)
From Coq Require Import ZArith Reals Lra Psatz Classical.
From Flocq Require Import Core BinarySingleNaN.
From mathcomp Require Import all_ssreflect all_algebra zify.
From mathcomp Require Import fingroup perm.
From Verif Require Import Base Scalar Hoare ModelMatrix ModelLU ModelQR Spec MatrixProofs MatrixProofs2 MatrixThms LUProofs LUEval QREval B32 SpecFloat32 Float32Base Float32Thms Float32LU SpecFloat32Prio SpecFloat32Pinv SpecFloat32PinvPrio Float32LUThms Float32Prio Float32PrioThms Float32SolveFin Float32SolveFinThms Float32Chol Float32CholThms Float32CholFull RealVec32 QRReal32 Float32QR Float32QRThms Float32QRPrio Float32QRPrioThms Float32PinvThms.

Set Implicit Arguments.
Unset Strict Implicit.
Unset Printing Implicit Defensive.
Local Open Scope R_scope.

(** ** an injective real matrix has a left inverse *)
Lemma rsumn_exch m k (f : nat -> nat -> R) : rsumn m (fun i => rsumn k (fun j => f i j)) = rsumn k (fun j => rsumn m (fun i => f i j)).
Proof. by rewrite /rsumn exchange_big. Qed.
Lemma rsumn_sub2 m f g : rsumn m (fun i => f i - g i) = rsumn m f - rsumn m g.
Proof. by elim: m => [|m IH]; rewrite ?rsumn0 ?rsumnS ?IH; ring. Qed.
Lemma rsumn_cmul m c f : rsumn m (fun i => c * f i) = c * rsumn m f.
Proof. by elim: m => [|m IH]; rewrite ?rsumn0 ?rsumnS ?IH; ring. Qed.
Lemma rsumn_delta m i f : (i < m)%N -> rsumn m (fun l => (if l == i then 1 else 0) * f l) = f i.
Proof.
elim: m => // m IH; rewrite ltnS leq_eqVlt rsumnS => /orP[/eqP->|im].
  rewrite eqxx (rsumn_ext (g := fun=> 0)); last by move=> l lm; rewrite ltn_eqF //; ring.
  by rewrite (rsumn_ext (g := fun l => 0 * 0)) ?rsumn_cmul => [|l _]; ring.
by rewrite IH // gtn_eqF //; ring.
Qed.

Lemma left_inv_exists m k (a : nat -> nat -> R) :
  (forall x, (forall i, (i < m)%N -> rsumn k (fun j => a i j * x j) = 0) -> forall j, (j < k)%N -> x j = 0) ->
  exists V : nat -> nat -> R, forall i j, (i < k)%N -> (j < k)%N -> rsumn m (fun l => V i l * a l j) = if i == j then 1 else 0.
Proof.
elim: k => [|k IH] inj; first by exists (fun _ _ => 0).
have [|V hV] := IH.
  move=> x hx j jk; have := inj (fun j => if (j < k)%N then x j else 0) _ j (leqW jk); rewrite jk; apply.
  move=> i im; rewrite rsumnS ltnn Rmult_0_r Rplus_0_r -(hx i im).
  by apply: rsumn_ext => l lk; rewrite lk.
pose c j := rsumn m (fun l => V j l * a l k).
pose w i := a i k - rsumn k (fun j => a i j * c j).
have [[i0 [im w0]]|nw] := classic (exists i0, (i0 < m)%N /\ w i0 <> 0); last first.
  have := inj (fun j => if (j < k)%N then - c j else 1) _ k (ltnSn k); rewrite ltnn => h; exfalso; apply: R1_neq_R0; apply: h => i im.
  rewrite rsumnS ltnn (rsumn_ext (g := fun l => -1 * (a i l * c l))); last by move=> l lk; rewrite lk; ring.
  rewrite rsumn_cmul; case: (Req_dec (w i) 0) => [|wi]; first by rewrite /w; lra.
  by case: nw; exists i.
pose F l := / w i0 * ((if l == i0 then 1 else 0) - rsumn k (fun j => a i0 j * V j l)).
have FE y : rsumn m (fun l => F l * y l) = / w i0 * (y i0 - rsumn k (fun j => a i0 j * rsumn m (fun l => V j l * y l))).
  rewrite (rsumn_ext (g := fun l => / w i0 * ((if l == i0 then 1 else 0) * y l - rsumn k (fun j => a i0 j * V j l) * y l))).
    rewrite rsumn_cmul rsumn_sub2 rsumn_delta //; congr (_ * (_ - _)).
    rewrite (rsumn_ext (g := fun l => rsumn k (fun j => y l * (a i0 j * V j l)))).
      rewrite rsumn_exch; apply: rsumn_ext => j _.
      by rewrite -rsumn_cmul; apply: rsumn_ext => l _; ring.
    by move=> l _; rewrite rsumn_cmul; ring.
  by move=> l _; rewrite /F; ring.
have F0 j : (j < k)%N -> rsumn m (fun l => F l * a l j) = 0.
  move=> jk; rewrite FE (rsumn_ext (g := fun j' => (if j' == j then 1 else 0) * a i0 j')); first by rewrite rsumn_delta //; ring.
  by move=> j' hj; rewrite hV //; ring.
have F1 : rsumn m (fun l => F l * a l k) = 1 by rewrite FE -/(w i0); field.
exists (fun i l => if i == k then F l else V i l - c i * F l) => i j ik jk.
case: (eqVneq i k) => [->|nik].
  case: (eqVneq k j) => [<-|nkj] //; apply: F0; lia.
rewrite (rsumn_ext (g := fun l => V i l * a l j - c i * (F l * a l j))); last by move=> l _; ring.
rewrite rsumn_sub2 rsumn_cmul.
case: (eqVneq j k) => [->|njk]; first by rewrite F1 (negbTE nik) -/(c i); ring.
by rewrite F0 ?hV; [ring|lia|lia|lia].
Qed.

(** ** a matrix near a symmetric matrix with a bounded inverse has a bounded inverse *)
Lemma left_inv_near n (G N V : nat -> nat -> R) K g : (0 < n)%N -> 0 <= g ->
  (forall i j, (i < n)%N -> (j < n)%N -> G i j = G j i) ->
  (forall i j, (i < n)%N -> (j < n)%N -> rsumn n (fun l => V i l * G l j) = if i == j then 1 else 0) ->
  (forall i, (i < n)%N -> rsumn n (fun l => Rabs (V i l)) <= K) ->
  (forall i j, (i < n)%N -> (j < n)%N -> Rabs (G i j - N i j) <= g) -> K * (INR n * g) <= / 2 ->
  exists V' : nat -> nat -> R,
    (forall i j, (i < n)%N -> (j < n)%N -> rsumn n (fun l => V' i l * N l j) = if i == j then 1 else 0) /\
    (forall i, (i < n)%N -> rsumn n (fun l => Rabs (V' i l)) <= 2 * K).
Proof.
move=> n0 g0 sG hV hK hg hC.
have K0 : 0 <= K by apply: Rle_trans (hK 0%N n0); apply: rsumn_ge0 => k _; exact: Rabs_pos.
(* N is injective *)
have inj x : (forall i, (i < n)%N -> rsumn n (fun j => N i j * x j) = 0) -> forall j, (j < n)%N -> x j = 0.
  move=> hx; have [p [pn mx]] := max_elem x n0.
  have ex : x p = rsumn n (fun l => V p l * rsumn n (fun j => (G l j - N l j) * x j)).
    rewrite (rsumn_ext (g := fun l => V p l * rsumn n (fun j => G l j * x j))); last first.
      move=> l ln; congr (_ * _); rewrite (rsumn_ext (g := fun j => G l j * x j - N l j * x j)); last by move=> j _; ring.
      by rewrite rsumn_sub2 hx //; ring.
    rewrite (rsumn_ext (g := fun l => rsumn n (fun j => V p l * (G l j * x j)))); last by move=> l _; rewrite rsumn_cmul.
    rewrite rsumn_exch (rsumn_ext (g := fun j => (if j == p then 1 else 0) * x j)); first by rewrite rsumn_delta.
    move=> j jn; rewrite (rsumn_ext (g := fun l => x j * (V p l * G l j))); last by move=> l _; ring.
    by rewrite rsumn_cmul hV // eq_sym; ring.
  have bx : Rabs (x p) <= rsumn n (fun l => Rabs (V p l)) * (INR n * g * Rabs (x p)).
    rewrite {1}ex; apply: Rle_trans (rsumn_abs _ _) _; rewrite Rmult_comm -rsumn_cmul; apply: rsumn_le => l ln.
    rewrite Rabs_mult Rmult_comm; apply: Rmult_le_compat_r; first exact: Rabs_pos.
    apply: Rle_trans (rsumn_abs _ _) _; apply: Rle_trans (_ : rsumn n (fun=> g * Rabs (x p)) <= _); last by rewrite rsumn_cst; lra.
    apply: rsumn_le => j jn; rewrite Rabs_mult; apply: Rmult_le_compat; [exact: Rabs_pos|exact: Rabs_pos|exact: hg|exact: mx].
  have xp0 := Rabs_pos (x p).
  have : rsumn n (fun l => Rabs (V p l)) * (INR n * g * Rabs (x p)) <= K * (INR n * g * Rabs (x p)).
    apply: Rmult_le_compat_r (hK p pn); apply: Rmult_le_pos => //; apply: Rmult_le_pos => //; exact: pos_INR.
  have -> : K * (INR n * g * Rabs (x p)) = K * (INR n * g) * Rabs (x p) by ring.
  move=> h; have h2 : K * (INR n * g) * Rabs (x p) <= / 2 * Rabs (x p) by apply: Rmult_le_compat_r.
  have xz : Rabs (x p) = 0 by lra.
  move=> j jn; have := mx j jn; rewrite xz => h3; case: (Req_dec (x j) 0) => // /Rabs_pos_lt; lra.
have [V' hV'] := left_inv_exists inj.
exists V'; split=> // i im.
have rV l j : (l < n)%N -> (j < n)%N -> rsumn n (fun p => G l p * V j p) = if l == j then 1 else 0.
  move=> ln jn; rewrite eq_sym -(hV j l) //; apply: rsumn_ext => p pn; rewrite sG //; ring.
have sV k j : (k < n)%N -> (j < n)%N -> V k j = V j k.
  move=> kn jn; rewrite -(rsumn_delta (V k) jn).
  rewrite (rsumn_ext (g := fun l => rsumn n (fun p => V k l * (G l p * V j p)))); last first.
    by move=> l ln; rewrite rsumn_cmul rV //; ring.
  rewrite rsumn_exch -(rsumn_delta (V j) kn); apply: rsumn_ext => p pn.
  rewrite (rsumn_ext (g := fun l => V j p * (V k l * G l p))); last by move=> l _; ring.
  by rewrite rsumn_cmul hV // eq_sym; ring.
set S := rsumn n _.
have e1 j : (j < n)%N -> V' i j = V i j + rsumn n (fun p => rsumn n (fun l => V' i l * (G l p - N l p)) * V p j).
  move=> jn; rewrite -(rsumn_delta (V' i) jn).
  rewrite (rsumn_ext (g := fun l => rsumn n (fun p => V' i l * (G l p * V j p)))); last first.
    by move=> l ln; rewrite rsumn_cmul rV //; ring.
  rewrite rsumn_exch -{1}(rsumn_delta (fun p => V p j) im) -rsumn_add; apply: rsumn_ext => p pn.
  rewrite (rsumn_ext (g := fun l => V j p * (V' i l * N l p + V' i l * (G l p - N l p)))); last by move=> l _; ring.
  by rewrite rsumn_cmul rsumn_add hV' // (sV p j) // (eq_sym i p); ring.
have S0 : 0 <= S by apply: rsumn_ge0 => k _; exact: Rabs_pos.
have b1 p : (p < n)%N -> Rabs (rsumn n (fun l => V' i l * (G l p - N l p))) <= S * g.
  move=> pn; apply: Rle_trans (rsumn_abs _ _) _; rewrite Rmult_comm -rsumn_cmul; apply: rsumn_le => l ln.
  by rewrite Rabs_mult Rmult_comm; apply: Rmult_le_compat_r; [exact: Rabs_pos|exact: hg].
have : S <= rsumn n (fun j => Rabs (V i j) + rsumn n (fun p => S * g * Rabs (V p j))).
  apply: rsumn_le => j jn; rewrite (e1 j jn); apply: Rle_trans (Rabs_triang _ _) _; apply: Rplus_le_compat_l.
  apply: Rle_trans (rsumn_abs _ _) _; apply: rsumn_le => p pn; rewrite Rabs_mult.
  by apply: Rmult_le_compat_r; [exact: Rabs_pos|exact: b1].
rewrite rsumn_add rsumn_exch => h.
have h2 : rsumn n (fun p => rsumn n (fun j => S * g * Rabs (V p j))) <= rsumn n (fun=> S * g * K).
  apply: rsumn_le => p pn; rewrite rsumn_cmul; apply: Rmult_le_compat_l; [exact: Rmult_le_pos|exact: hK].
rewrite rsumn_cst in h2; have h3 := hK i im.
have h4 : S * (K * (INR n * g)) <= S * / 2 by apply: Rmult_le_compat_l.
by lra.
Qed.

Lemma ok_mat_inj (T : Type) m n (A B : 'M[T]_(m, n)) : Ok (mat_of A) = Ok (mat_of B) -> A = B.
Proof. by move=> [h]; apply: mat_of_inj; congr Mat. Qed.

(** the computed R' R, for columns of norm at most M and an error of the QR decomposition of at most q *)
Lemma gram_ok g4 m n (A Rm : 'M[b32]_(m.+1, n.+1)) (Q : 'I_m.+1 -> 'I_m.+1 -> R) M q (N : 'M[b32]_n.+1) :
  0 <= q -> (forall j, col_norm A j <= M) ->
  (forall i j, \rsum_(l < m.+1) (Q l i * Q l j) = if i == j then 1 else 0) ->
  (forall j, sqrt (\rsum_(i < m.+1) ((rv (A i j) - (\rsum_(l < m.+1) (Q i l * rv (Rm l j)))) ^ 2)) <= q) ->
  (forall i j, finite (Rm i j)) ->
  mul (N:=B32) g4 (mat_of Rm^T%R) (mat_of Rm) = Ok (mat_of N) ->
  let g := (M + q) * q + q * M + err m.+1 * ((M + q) * (M + q)) + INR m.+1 * (grow m.+1 * eta32) in
  M * M + g <= 2 ^ 127 ->
  forall i j, [/\ finite (N i j), Rabs (rv (N i j)) <= M * M + g & Rabs (gram A i j - rv (N i j)) <= g].
Proof.
move=> q0 hM oQ hq FR eN g hP i j.
have [N' [eN' HN]] := mul_rounding_f32_L g4 (Rm^T)%R Rm.
have EN : N' = N by apply: ok_mat_inj; rewrite -eN' eN.
rewrite EN in HN; have [h1 h2] := HN i j.
have [g1 g2] := gram_near oQ hq i j; rewrite /= in g1 g2.
have c0 k : 0 <= col_norm A k by exact: sqrt_pos.
have M0 : 0 <= M by apply: Rle_trans (hM i).
have mag : \rsum_(k < m.+1) (Rabs (rv ((Rm^T)%R i k)) * Rabs (rv (Rm k j))) <= (M + q) * (M + q).
  rewrite (rsum_ext (g := fun k => Rabs (rv (Rm k i)) * Rabs (rv (Rm k j)))); last by move=> k; rewrite mxE.
  apply: Rle_trans g2 _; rewrite -![sqrt _]/(col_norm A _).
  by have := hM i; have := hM j; have := c0 i; have := c0 j => *; apply: Rmult_le_compat; lra.
have gr := grow_ge1 m.+1.
have gE : M * M + g = grow m.+1 * ((M + q) * (M + q) + INR m.+1 * eta32) by rewrite /g /err; ring.
have magg : grow m.+1 * (\rsum_(k < m.+1) (Rabs (rv ((Rm^T)%R i k)) * Rabs (rv (Rm k j))) + INR m.+1 * eta32) <= M * M + g.
  by rewrite gE; apply: Rmult_le_compat_l; lra.
have FN : finite (N i j) by apply: h2; [move=> k; split; rewrite ?mxE; exact: FR|exact: Rle_trans magg hP].
have [_ hn] := h1 FN.
have e2 := Rmult_le_compat_l _ _ _ (err_ge0 m.+1) mag.
split=> //.
  have ex : Rabs (\rsum_(k < m.+1) (rv ((Rm^T)%R i k) * rv (Rm k j))) <= (M + q) * (M + q).
    apply: Rle_trans (rsum_abs _) (Rle_trans _ _ _ _ mag); apply: rsum_le => k; rewrite Rabs_mult; lra.
  move: hn ex; set x := rv (N i j); set y := \rsum_(k < m.+1) _ => hn ex.
  have := Rabs_triang (x - y) y; have -> : x - y + y = x by ring.
  by rewrite /g; move: e2 hn; set z := err m.+1 * _; lra.
move: hn; rewrite (rsum_ext (g := fun k => rv (Rm k i) * rv (Rm k j))); last by move=> k; rewrite mxE.
move: g1; rewrite -![sqrt _]/(col_norm A _) /gram; set x := \rsum_(k < m.+1) (rv (A k i) * _).
set y := \rsum_(k < m.+1) (rv (Rm k i) * _) => g1 hn.
have := Rabs_triang (x - y) (- (rv (N i j) - y)); rewrite Rabs_Ropp.
have -> : x - y + - (rv (N i j) - y) = x - rv (N i j) by ring.
have k1 : (col_norm A i + q) * q <= (M + q) * q by apply: Rmult_le_compat_r; have := hM i; lra.
have k2 : q * col_norm A j <= q * M by apply: Rmult_le_compat_l.
rewrite /g; move: e2 hn; set z := err m.+1 * _; lra.
Qed.

Lemma rsum_cstI n (c : R) : \rsum_(l < n) c = INR n * c.
Proof. by rewrite -/(rsumn n (fun=> c)) rsumn_cst. Qed.

(*@section C62 (C72 in f32) pinverse of a well-conditioned f32 matrix @*)

(*@doc C62 (C72 in f32): let A be a finite f32 matrix with m + 1 rows and n + 1 <= m + 1 columns, all of norm at most M <= 2^18, let
  sg >= 2^-14 be a lower bound for its singular values, larger than 2 (n + 1) times the rounding error of the QR decomposition,
  and let V be the inverse of A' A over the reals, with absolute row sums at most K, K (n + 1) times the error of the computed
  R' R being at most 1/2.  If K times the rounding errors of the LU factors of R' R is at most 1/8 and four explicit bounds (for the
  elements of the factors, of the computed inverse and of the result) are below 2^127, then pinverse does not panic, every
  element of its result is finite, the normal equations hold up to pinv_err in every element, and every element is within
  K pinv_err of the exact pseudo-inverse V A'.  Nothing is assumed about the computed result. *)
Lemma pinverse_no_overflow_f32_L : forall gp g1 g2 g3 g4 g5 g6 g7 g8 m n (A : 'M[b32]_(m.+1, n.+1)) M sg V K, (n <= m)%N ->
  let q := qr_err m.+1 n.+1 M in
  let P := M * M + gram_err m.+1 n.+1 M in
  let W := lu_bound n.+1 P n in
  let Y := lu_bound n.+1 1 n in
  let Z := sol_bound n.+1 (2 * K) W Y in
  let E := pinv_err m.+1 n.+1 M P W Z in
  (forall i j, finite (A i j)) -> 64 * err (m.+1 + 3) <= 1 ->
  (forall j, sqrt (\rsum_(i < m.+1) (rv (A i j) ^ 2)) <= M) -> M <= 2 ^ 18 ->
  (forall x : 'I_n.+1 -> R,
     sg * sqrt (\rsum_(j < n.+1) (x j ^ 2)) <= sqrt (\rsum_(i < m.+1) ((\rsum_(j < n.+1) (rv (A i j) * x j)) ^ 2))) ->
  / 2 ^ 14 <= sg -> 2 * INR n.+1 * q <= sg ->
  (forall i j, (\rsum_(l < n.+1) (V i l * (\rsum_(k < m.+1) (rv (A k l) * rv (A k j))))) = if i == j then 1 else 0) ->
  (forall i, (\rsum_(l < n.+1) Rabs (V i l)) <= K) -> K * (INR n.+1 * gram_err m.+1 n.+1 M) <= / 2 ->
  2 * K * (INR n.+1 * lu_error n.+1 W) <= / 4 ->
  W <= 2 ^ 127 -> Z <= 2 ^ 127 -> grow n.+2 * (Y + INR n.+1 * (W * Z + eta32)) <= 2 ^ 127 ->
  pinv_bound n.+1 M Z <= 2 ^ 127 ->
  exists X : 'M[b32]_(n.+1, m.+1),
  [/\ pinverse (S:=B32) gp g1 g2 g3 g4 g5 g6 g7 g8 (mat_of A) = Ok (mat_of X),
      forall i j, finite (X i j) /\ Rabs (rv (X i j)) <= pinv_bound n.+1 M Z,
      forall i j, Rabs ((\rsum_(l < n.+1) ((\rsum_(k < m.+1) (rv (A k i) * rv (A k l))) * rv (X l j))) - rv (A j i)) <= E &
      forall i j, Rabs (rv (X i j) - (\rsum_(l < n.+1) (V i l * rv (A j l)))) <= K * E].
Proof.
move=> gp g1 g2 g3 g4 g5 g6 g7 g8 m n A M sg V K nm q P W Y Z E FA E1 hM M198 hsg sg0 hq hV hK hC hL hW hZ hYZ hX.
have [d [Rm [H [N [dl [L [U HH]]]]]]] := pinverse_rounding_f32_L gp g1 g2 g3 g4 g5 g6 g7 g8 A.
cbv zeta in HH; have [[e eR eH eN] [el eL eU _ HX]] := HH.
have mn : minn m.+1 n.+1 = n.+1 by apply/minn_idPr.
have [d1 [Rm1 [H1 [Q1 [[e1 eR1 eH1 _ _] [[FR [FH _]] _ dg _ _]]]]]] :=
  qr_no_overflow_f32_L g1 nm FA E1 hM M198 hsg sg0 hq.
move: e1; rewrite e => -[dd]; rewrite -dd in eR1 eH1.
have ER : Rm1 = Rm by apply: ok_mat_inj; rewrite -(eR1 (fun=> b32_zero)) eR.
have EH : H1 = H by apply: ok_mat_inj; rewrite -(eH1 (fun=> b32_zero)) eH.
rewrite ER in FR dg; rewrite EH in FH => {Rm1 H1 Q1 eR1 eH1 dd d1 ER EH}.
have M0 : 0 <= M by apply: Rle_trans (hM ord0); exact: sqrt_pos.
have RG (i : 'I_m.+1) (j : 'I_n.+1) : i = j :> nat -> rv (Rm i j) = 0 \/ / 2 ^ 50 <= Rabs (rv (Rm i j)) <= 2 ^ 62.
  move=> ij; right; have [h1 h2] := dg i j ij; split.
    apply: Rle_trans (_ : / 2 ^ 16 <= _).
      by apply: Rinv_le_contravar; [exact: p2_gt0|apply: Rle_pow; [lra|lia]].
    have -> : / 2 ^ 16 = / 2 ^ 14 / 4 by rewrite (_ : 16 = 14 + 2)%N // pow_add Rinv_mult /=; field; exact: Rgt_not_eq (p2_gt0 14).
    by lra.
  apply: Rle_trans h2 _; apply: Rle_trans (_ : 2 ^ 20 <= _); last by apply: Rle_pow; [lra|lia].
  have -> : 2 ^ 20 = 4 * 2 ^ 18 by rewrite (_ : 20 = 2 + 18)%N // pow_add /=; ring.
  by lra.
have e0 := err_ge0 (m.+1 + 3).
have q0 : 0 <= q.
  rewrite /q /qr_err; set C := _ ^ _; have C1 : 1 <= C by apply: pow_R1_Rle; lra.
  have o0 : 0 < / 2 ^ 64 by apply: Rinv_0_lt_compat; apply: p2_gt0.
  by have := pos_INR n.+1; nra.
have [d1 [Rm1 [H1 [e1 eR1 eH1 [_ _ HQ]]]]] := qr_rounding_f32_L g1 A.
move: e1; rewrite e => -[dd]; rewrite -dd in eR1 eH1.
have ER : Rm1 = Rm by apply: ok_mat_inj; rewrite -(eR1 (fun=> b32_zero)) eR.
have EH : H1 = H by apply: ok_mat_inj; rewrite -(eH1 (fun=> b32_zero)) eH.
rewrite ER EH in HQ => {Rm1 H1 eR1 eH1 dd d1 ER EH}.
have [_ [Q [oQ hQ]]] := HQ E1 FR FH RG.
have hQq j : sqrt (\rsum_(i < m.+1) ((rv (A i j) - (\rsum_(l < m.+1) (Q i l * rv (Rm l j)))) ^ 2)) <= q.
  apply: Rle_trans (hQ j) _; rewrite mn /q /qr_err; apply: Rplus_le_compat_r.
  apply: Rmult_le_compat_l (hM j); have : 1 <= (1 + 25 * err (m.+1 + 3)) ^ n.+1 by apply: pow_R1_Rle; lra.
  by lra.
have g0 : 0 <= gram_err m.+1 n.+1 M.
  have e1 := err_ge0 m.+1; have ge := grow_ge1 m.+1; have ee := eta32_gt0; have ii := pos_INR m.+1.
  rewrite /gram_err -/q; have : 0 <= (M + q) * (M + q) by apply: Rmult_le_pos; lra.
  have : 0 <= (M + q) * q by apply: Rmult_le_pos; lra.
  have : 0 <= q * M by apply: Rmult_le_pos.
  have : 0 <= INR m.+1 * (grow m.+1 * eta32) by apply: Rmult_le_pos => //; apply: Rmult_le_pos; lra.
  by move=> x1 x2 x3 x4; have := Rmult_le_pos _ _ e1 x4; lra.
have P0 : 0 <= P by rewrite /P; have := Rmult_le_pos _ _ M0 M0; lra.
have PW : P <= W.
  rewrite /W /lu_bound; have gg := grow_ge1 n.+2; have ee := eta32_gt0; have ii := pos_INR n.+2.
  have : 1 <= (1 + grow n.+2) ^ n by apply: pow_R1_Rle; lra.
  move=> p1; have : 1 * 1 <= grow n.+2 * (1 + grow n.+2) ^ n by apply: Rmult_le_compat; lra.
  move=> p2; have ie := Rmult_le_pos _ _ ii (Rlt_le _ _ ee).
  have : 1 * P <= grow n.+2 * (1 + grow n.+2) ^ n * (P + INR n.+2 * eta32) by apply: Rmult_le_compat; lra.
  by lra.
have W0 : 0 <= W by lra.
have GN := gram_ok q0 hM oQ hQq FR eN (Rle_trans _ _ _ PW hW).
rewrite -/(gram_err m.+1 n.+1 M) in GN.
(* the inverse of the computed R' R *)
have [Vn [hVn hKn]] : exists Vn : 'I_n.+1 -> 'I_n.+1 -> R, left_inverse Vn N /\ forall i, \rsum_(l < n.+1) Rabs (Vn i l) <= 2 * K.
  have [|||i j hi hj|Vf [h1 h2]] := @left_inv_near n.+1 (fnR (gram A)) (fnR (fun i j => rv (N i j))) (fnR V) K (gram_err m.+1 n.+1 M) (ltn0Sn n) g0 _ _ _ _ hC.
  - by move=> i j _ _; rewrite /fnR /gram; apply: rsum_ext => k; ring.
  - move=> i j hi hj; rewrite -[i]/(val (Ordinal hi)) -[j]/(val (Ordinal hj)).
    rewrite -(rsum_rsumn (F := fun l => V (Ordinal hi) l * gram A l (Ordinal hj))); last by move=> l; rewrite !fnRE.
    exact: hV.
  - move=> i hi; rewrite -[i]/(val (Ordinal hi)).
    rewrite -(rsum_rsumn (F := fun l => Rabs (V (Ordinal hi) l))); last by move=> l; rewrite fnRE.
    exact: hK.
  - by rewrite /fnR; have [_ _] := GN (inord i) (inord j).
  exists (fun i j => Vf i j); split=> [i j|i].
    rewrite (rsum_rsumn (G := fun l => Vf i l * fnR (fun i j => rv (N i j)) l j)); last by move=> l; rewrite fnRE.
    by rewrite h1.
  by rewrite (rsum_rsumn (G := fun l => Rabs (Vf i l))) //; apply: h2.
have hN i j : finite (N i j) /\ Rabs (rv (N i j)) <= P by have [] := GN i j.
have [Yh [eY fY _]] := @inverse_no_overflow_f32_L gp g5 g6 n N P Vn (2 * K) hN hVn hKn hL hW hZ hYZ.
have Z0 : 0 <= Z by have [_] := fY ord0 ord0; have := Rabs_pos (rv (Yh ord0 ord0)); rewrite -/Y -/W -/Z; lra.
have [FL FU hU] : [/\ forall i j, finite (L i j), forall i j, finite (U i j) & forall i j, Rabs (rv (U i j)) <= W].
  have [||dl' [L' [U' [el' eL' eU' h1 h2]]]] := @lu_no_overflow_f32_L gp n n N P; [exact: hN|by rewrite minnn|].
  move: el'; rewrite el => -[dd]; rewrite -dd in eL' eU'.
  move: L' U' eL' eU' h1 h2; rewrite minnn => L' U' eL' eU' h1 h2.
  have EL : L' = L by apply: ok_mat_inj; rewrite -(eL' (fun=> b32_zero)) eL.
  have EU : U' = U by apply: ok_mat_inj; rewrite -(eU' (fun=> b32_zero)) eU.
  rewrite EL in h1; rewrite EU in h2; split=> i j; [by have [] := h1 i j|by have [] := h2 i j|].
  by have [_ h] := h2 i j; apply: Rle_trans h (lu_bound_le _ P0 _); rewrite -ltnS.
have [X [eX HX8]] := mul_rounding_f32_L g8 Yh (A^T)%R.
have epi : pinverse (S:=B32) gp g1 g2 g3 g4 g5 g6 g7 g8 (mat_of A) = Ok (mat_of X).
  rewrite /pinverse e; cbn [bind]; rewrite eR; cbn [bind]; rewrite t_ok_L //; cbn [bind]; rewrite eN; cbn [bind].
  by rewrite eY; cbn [bind]; rewrite t_ok_L.
have am i j : Rabs (rv (A i j)) <= M.
  have := @nrm_coord m.+1 (fun k => rv (A (inord k) j)) i (ltn_ord i); rewrite inord_val => h; apply: Rle_trans h _.
  apply: Rle_trans (hM j); right; rewrite /nrm /dotr; congr sqrt; apply/esym.
  apply: (rsum_rsumn (G := fun k => rv (A (inord k) j) * rv (A (inord k) j))) => k; rewrite inord_val; ring.
have mag i j : \rsum_(k < n.+1) (Rabs (rv (Yh i k)) * Rabs (rv ((A^T)%R k j))) <= INR n.+1 * (Z * M).
  rewrite -rsum_cstI; apply: rsum_le => k; rewrite mxE; have [_ h] := fY i k.
  by apply: Rmult_le_compat; [exact: Rabs_pos|exact: Rabs_pos|exact: h|exact: am].
have gn := grow_ge1 n.+1.
have FX i j : finite (X i j) /\ Rabs (rv (X i j)) <= pinv_bound n.+1 M Z.
  have [h1 h2] := HX8 i j.
  have b : grow n.+1 * (\rsum_(k < n.+1) (Rabs (rv (Yh i k)) * Rabs (rv ((A^T)%R k j))) + INR n.+1 * eta32) <= pinv_bound n.+1 M Z.
    by rewrite /pinv_bound; apply: Rmult_le_compat_l; [lra|have := mag i j; lra].
  have F : finite (X i j).
    by apply: h2; [move=> k; split; [have [] := fY i k|rewrite mxE; exact: FA]|exact: Rle_trans b hX].
  split=> //; have [_ hn] := h1 F; have ex : Rabs (\rsum_(k < n.+1) (rv (Yh i k) * rv ((A^T)%R k j))) <= INR n.+1 * (Z * M).
    by apply: Rle_trans (rsum_abs _) (Rle_trans _ _ _ _ (mag i j)); apply: rsum_le => k; rewrite Rabs_mult; lra.
  have e2 := Rmult_le_compat_l _ _ _ (err_ge0 n.+1) (mag i j).
  move: hn ex e2; rewrite /pinv_bound; set x := rv (X i j); set y := \rsum_(k < n.+1) (rv _ * _); set w := _ * \rsum_(k < n.+1) _ => hn ex e2.
  have := Rabs_triang (x - y) y; have -> : x - y + y = x by ring.
  have -> : grow n.+1 * (INR n.+1 * (Z * M) + INR n.+1 * eta32) = err n.+1 * (INR n.+1 * (Z * M)) + INR n.+1 * (Z * M) + INR n.+1 * (grow n.+1 * eta32) by rewrite /err; ring.
  by lra.
have [nz|] := boolP [forall i, ~~ Beqb (U i i) b32_zero]; last by move=> /negbTE nz; move: HX; rewrite nz epi.
rewrite nz in HX; have [Y1 [X1 [eY1 eX1 HXX]]] := HX.
have EY : Y1 = Yh by apply: ok_mat_inj; move: eY1; rewrite eY => -[h1]; congr Ok; apply/esym; congr Mat.
have EX : X1 = X by apply: ok_mat_inj; rewrite -eX1 epi.
rewrite EX EY in HXX => {X1 Y1 eY1 eX1 EX EY}.
have [_ h1 h2] := HXX (And5 E1 FH FL FU RG) (fun i j => (FX i j).1) W hU.
have K0 : 0 <= K by apply: Rle_trans (hK ord0); apply: rsum_ge0 => k; exact: Rabs_pos.
have ee := eta32_gt0; have ii := pos_INR n.+1.
have hq' j : qr_error A j <= q.
  rewrite /qr_error mn /q /qr_err; apply: Rplus_le_compat_r.
  apply: Rmult_le_compat_l (hM j); have : 1 <= (1 + 25 * err (m.+1 + 3)) ^ n.+1 by apply: pow_R1_Rle; lra.
  by lra.
have qe0 j : 0 <= qr_error A j.
  rewrite /qr_error; set r := minn _ _; have C1 : 1 <= (1 + 25 * err (m.+1 + 3)) ^ r by apply: pow_R1_Rle; lra.
  have o0 : 0 < / 2 ^ 64 by apply: Rinv_0_lt_compat; apply: p2_gt0.
  have c0 : 0 <= col_norm A j by exact: sqrt_pos.
  by have := pos_INR r; move: C1; set C := _ ^ _ => C1 r0; have := Rmult_le_pos _ _ r0 (Rmult_le_pos C _ ltac:(lra) (Rlt_le _ _ o0)); have := Rmult_le_pos (C - 1) _ ltac:(lra) c0; lra.
have hge i j : gram_error A i j <= gram_err m.+1 n.+1 M.
  have ci := hM i; have cj := hM j; rewrite -![sqrt _]/(col_norm A _) in ci cj.
  have c0 k : 0 <= col_norm A k by exact: sqrt_pos.
  have ci0 := c0 i; have cj0 := c0 j; have qi := hq' i; have qj := hq' j; have qi0 := qe0 i; have qj0 := qe0 j.
  rewrite /gram_error /gram_err -/q; apply: Rplus_le_compat_r; apply: Rplus_le_compat; first apply: Rplus_le_compat.
  - by apply: Rmult_le_compat; lra.
  - by apply: Rmult_le_compat; lra.
  by apply: Rmult_le_compat_l; [exact: err_ge0|apply: Rmult_le_compat; lra].
have sg0' Sx : 0 <= Sx -> 0 <= solve_error n.+1 W Sx.
  move=> hS; rewrite /solve_error; have e3 := err_ge0 (3 * n.+1); have g2n := grow_ge1 (2 * n.+1).
  have a1 := Rmult_le_pos _ _ (Rmult_le_pos _ _ (Rmult_le_pos _ _ e3 ii) W0) hS.
  have a2 : 0 <= INR n.+1 * (1 + INR n.+1 + W + (1 + W) * Sx).
    by apply: Rmult_le_pos => //; have := Rmult_le_pos (1 + W) Sx ltac:(lra) hS; lra.
  have a3 := Rmult_le_pos (grow (2 * n.+1)) eta32 ltac:(lra) ltac:(lra).
  by have := Rmult_le_pos _ _ a3 a2; lra.
have smono Sx Sy : 0 <= Sx -> Sx <= Sy -> solve_error n.+1 W Sx <= solve_error n.+1 W Sy.
  move=> hS hSy; rewrite /solve_error; have e3 := err_ge0 (3 * n.+1); have g2n := grow_ge1 (2 * n.+1).
  apply: Rplus_le_compat; first by apply: Rmult_le_compat_l => //; apply: Rmult_le_pos => //; apply: Rmult_le_pos.
  apply: Rmult_le_compat_l; first by apply: Rmult_le_pos; lra.
  apply: Rmult_le_compat_l => //; apply: Rplus_le_compat_l; apply: Rmult_le_compat_l => //; lra.
have gr0 i l : 0 <= gram_error A i l.
  have c0 k : 0 <= col_norm A k by exact: sqrt_pos.
  have em := err_ge0 m.+1; have gm := grow_ge1 m.+1; have im := pos_INR m.+1.
  have b1 : 0 <= col_norm A i + qr_error A i by have := c0 i; have := qe0 i; lra.
  have b2 : 0 <= col_norm A l + qr_error A l by have := c0 l; have := qe0 l; lra.
  have b3 := Rmult_le_pos _ _ b1 (qe0 l); have b4 := Rmult_le_pos _ _ (qe0 i) (c0 l).
  have b5 := Rmult_le_pos _ _ em (Rmult_le_pos _ _ b1 b2).
  have b6 := Rmult_le_pos _ _ im (Rmult_le_pos _ _ (Rle_trans _ _ _ Rle_0_1 gm) (Rlt_le _ _ ee)).
  by rewrite /gram_error; cbv zeta; lra.
have hE i j : pinv_error A N Yh X W i j <= E.
  rewrite /pinv_error /E /pinv_err; apply: Rplus_le_compat; first apply: Rplus_le_compat.
  - rewrite -(rsum_cstI n.+1 (gram_err _ _ _ * _)); apply: rsum_le => l; apply: Rmult_le_compat; [exact: gr0|exact: Rabs_pos|exact: hge|exact: (FX l j).2].
  - rewrite -(rsum_cstI n.+1 (P * _)); apply: rsum_le => l; apply: Rmult_le_compat; [exact: Rabs_pos| |exact: (hN i l).2|].
      have c1 : 0 <= \rsum_(k < n.+1) (Rabs (rv (Yh l k)) * Rabs (rv (A j k))).
        by apply: rsum_ge0 => k; apply: Rmult_le_pos; exact: Rabs_pos.
      have c2 := Rmult_le_pos _ _ (err_ge0 n.+1) c1.
      have c3 := Rmult_le_pos _ _ ii (Rmult_le_pos _ _ (Rle_trans _ _ _ Rle_0_1 gn) (Rlt_le _ _ ee)).
      by lra.
    apply: Rplus_le_compat_r; apply: Rmult_le_compat_l; first exact: err_ge0.
    by rewrite -(rsum_cstI n.+1 (Z * M)); apply: rsum_le => k; apply: Rmult_le_compat; [exact: Rabs_pos|exact: Rabs_pos|exact: (fY l k).2|exact: am].
  have s0 k : 0 <= \rsum_(p < n.+1) Rabs (rv (Yh p k)) by apply: rsum_ge0 => p; exact: Rabs_pos.
  rewrite -(rsum_cstI n.+1 (solve_error _ _ _ * _)); apply: rsum_le => k; apply: Rmult_le_compat; [exact: sg0'|exact: Rabs_pos| |exact: am].
  by apply: smono => //; rewrite -(rsum_cstI n.+1 Z); apply: rsum_le => p; exact: (fY p k).2.
exists X; split=> //; first by move=> i j; exact: Rle_trans (h1 i j) (hE i j).
move=> i j; apply: Rle_trans (h2 V _ i j) _; first exact: hV.
apply: Rle_trans (_ : \rsum_(l < n.+1) (E * Rabs (V i l)) <= _).
  by apply: rsum_le => l; rewrite Rmult_comm; apply: Rmult_le_compat_r; [exact: Rabs_pos|exact: hE].
rewrite rsum_scal Rmult_comm; apply: Rmult_le_compat_r (hK i).
exact: Rle_trans (Rabs_pos _) (Rle_trans _ _ _ (h1 ord0 ord0) (hE ord0 ord0)).
Qed.

(*@example
From Verif Require Import PropFloat32QRPrio.
(** the hypotheses are met by the 3 x 2 matrix of qr_no_overflow_hyps, with sg = 1, M = 3, K = 1 and the inverse
    [6 -5; -5 6] / 11 of A' A = [6 5; 5 6] *)
Definition v211 (i j : 'I_2) : R := if i == j then 6 / 11 else - (5 / 11).
Example pinverse_no_overflow_hyps :
  let q := qr_err 3 2 3 in let P := 3 * 3 + gram_err 3 2 3 in
  let W := lu_bound 2 P 1 in let Y := lu_bound 2 1 1 in let Z := sol_bound 2 (2 * 1) W Y in
  [/\ forall i j, (\rsum_(l < 2) (v211 i l * (\rsum_(k < 3) (rv (mx211 k l) * rv (mx211 k j))))) = if i == j then 1 else 0,
      forall i, (\rsum_(l < 2) Rabs (v211 i l)) <= 1,
      2 * INR 2 * q <= 1 /\ 1 * (INR 2 * gram_err 3 2 3) <= / 2,
      2 * 1 * (INR 2 * lu_error 2 W) <= / 4 /\ W <= 2 ^ 127 &
      [/\ Z <= 2 ^ 127, grow 3 * (Y + INR 2 * (W * Z + eta32)) <= 2 ^ 127 & pinv_bound 2 3 Z <= 2 ^ 127]].
Proof.
move=> q P W Y Z; have e0 := eta32_gt0; have u0 := u32_gt0.
have A i j : rv (mx211 i j) = if i == j :> nat then 2 else 1.
  by rewrite mxE; case: (_ == _); [exact: rv_b32_int2|exact: rv_int1].
have p20 : / 2 ^ 20 <= / 1000000 by apply: Rinv_le_contravar; [lra|rewrite /=; lra].
have uS : u32 <= / 2 ^ 20 by apply: Rinv_le_contravar; [apply: pow_lt; lra|apply: Rle_pow; [lra|lia]].
have ue : eta32 <= / 2 ^ 20 by apply: Rinv_le_contravar; [apply: pow_lt; lra|apply: Rle_pow; [lra|lia]].
have E6 : err 6 <= / 100000.
  have h : (1 + u32) ^ 6 <= (1 + / 1000000) ^ 6 by apply: pow_incr; lra.
  by move: h; rewrite /err /grow; rewrite [X in _ <= X -> _](_ : _ = 1000006000015000020000015000006000001 / 1000000000000000000000000000000000000); [lra|field].
have er k : (k <= 6)%N -> 0 <= err k <= / 100000 by move=> k6; split; [exact: err_ge0|apply: Rle_trans E6; exact: err_le].
have gr k : (k <= 6)%N -> 1 <= grow k <= 1 + / 100000 by move=> /er; rewrite /err; lra.
have ge k : (k <= 6)%N -> 0 <= grow k * eta32 <= / 900000.
  move=> /gr [h1 h2]; split; first by apply: Rmult_le_pos; lra.
  by apply: Rle_trans (_ : (1 + / 100000) * / 1000000 <= _); [apply: Rmult_le_compat; lra|lra].
have I2 : INR 2 = 2 by rewrite /=; ring.
have I3 : INR 3 = 3 by rewrite /=; ring.
have big (x : R) : x <= 8192 -> x <= 2 ^ 127.
  move=> h; apply: Rle_trans h _; apply: Rle_trans (_ : 2 ^ 13 <= _); first by rewrite /=; lra.
  by apply: Rle_pow; [lra|lia].
have q1 : 0 <= q <= / 500.
  rewrite /q /qr_err I2; set C := _ ^ _.
  have [h1 h2] := er 6%N isT; have C1 : 1 <= C <= 1 + / 1900.
    rewrite /C -[(3 + 3)%N]/6%N; have p : 0 <= 25 * err 6 <= / 4000 by lra.
    have : (25 * err 6) * (25 * err 6) <= / 4000 * / 4000 by apply: Rmult_le_compat; lra.
    by have := Rmult_le_pos _ _ (proj1 p) (proj1 p); rewrite /=; lra.
  have o : / 2 ^ 64 <= / 1000000.
    by apply: Rle_trans p20; apply: Rinv_le_contravar; [apply: pow_lt; lra|apply: Rle_pow; [lra|lia]].
  have o0 : 0 <= / 2 ^ 64 by left; apply: Rinv_0_lt_compat; apply: pow_lt; lra.
  have : C * / 2 ^ 64 <= 2 * / 1000000 by apply: Rmult_le_compat; lra.
  have : 0 <= C * / 2 ^ 64 by apply: Rmult_le_pos; lra.
  by lra.
have g1 : 0 <= gram_err 3 2 3 <= / 50.
  rewrite /gram_err -/q I3; have [h1 h2] := er 3%N isT; have [h3 h4] := ge 3%N isT.
  have a1 : (3 + q) * q <= (3 + / 500) * / 500 by apply: Rmult_le_compat; lra.
  have a2 : (3 + q) * (3 + q) <= (3 + / 500) * (3 + / 500) by apply: Rmult_le_compat; lra.
  have a3 : err 3 * ((3 + q) * (3 + q)) <= / 100000 * ((3 + / 500) * (3 + / 500)).
    by apply: Rmult_le_compat => //; apply: Rmult_le_pos; lra.
  have b1 := Rmult_le_pos (3 + q) q ltac:(lra) ltac:(lra).
  have b2 := Rmult_le_pos _ _ h1 (Rmult_le_pos (3 + q) (3 + q) ltac:(lra) ltac:(lra)).
  by split; lra.
have lb x : 0 <= x -> 0 <= lu_bound 2 x 1 <= 2.001 * (x + / 100000).
  move=> x0; rewrite /lu_bound pow_1 I3; have [h1 h2] := gr 3%N isT.
  have a1 : grow 3 * (1 + grow 3) <= 2.001.
    by apply: Rle_trans (_ : (1 + / 100000) * (2 + / 100000) <= _); [apply: Rmult_le_compat; lra|lra].
  have a0 : 0 <= grow 3 * (1 + grow 3) by apply: Rmult_le_pos; lra.
  by split; [apply: Rmult_le_pos; lra|apply: Rmult_le_compat; lra].
have W1 : 0 <= W <= 19 by have := lb P ltac:(rewrite /P; lra); rewrite -/W /P; lra.
have Y1 : 0 <= Y <= 2.1 by have := lb 1 ltac:(lra); rewrite -/Y; lra.
have Z1 : 0 <= Z <= 18.
  rewrite /Z /sol_bound I2; have [h3 h4] := ge 2%N isT.
  have a1 : grow 2 * eta32 * (2 + W) <= / 900000 * 21 by apply: Rmult_le_compat; lra.
  have a0 : 0 <= grow 2 * eta32 * (2 + W) by apply: Rmult_le_pos; lra.
  by split; lra.
have WZ : 0 <= W * Z <= 19 * 18 by split; [apply: Rmult_le_pos; lra|apply: Rmult_le_compat; lra].
split.
- move=> i j; rewrite rsum_2 !rsum_3 !A /v211.
  by case: i j => -[|[|i]] //= hi [[|[|j]] //= hj]; rewrite /eq_op /= /eq_op /=; field.
- move=> i; rewrite rsum_2 /v211 !(fun_if Rabs) Rabs_Ropp !Rabs_pos_eq; try lra.
  by case: i => -[|[|i]] //= hi; rewrite /eq_op /= /eq_op /=; lra.
- by rewrite I2; split; lra.
- split; last by apply: big; lra.
  rewrite /lu_error I2; have [h1 h2] := er 2%N isT; have [h3 h4] := ge 2%N isT.
  have a1 : err 2 * W <= / 100000 * 19 by apply: Rmult_le_compat; lra.
  have a2 : grow 2 * eta32 * (1 + W) <= / 900000 * 20 by apply: Rmult_le_compat; lra.
  by lra.
split; apply: big; first lra.
- rewrite I2; have [h1 h2] := gr 3%N isT.
  apply: Rle_trans (_ : 2 * (3 + 2 * (19 * 18 + 1)) <= _); last lra.
  by apply: Rmult_le_compat; lra.
rewrite /pinv_bound I2; have [h1 h2] := gr 2%N isT.
apply: Rle_trans (_ : 2 * (2 * (18 * 3) + 1) <= _); last lra.
by apply: Rmult_le_compat; lra.
Qed.
@*)
