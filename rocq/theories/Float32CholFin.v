(** * (generated by tools/gen32.py from FloatCholFin.v) Float32CholFin: the triangular solves of a well-conditioned positive definite f32 system do not overflow *)
From Coq Require Import ZArith Reals Lra Psatz.
From Flocq Require Import Core BinarySingleNaN.
From mathcomp Require Import all_ssreflect all_algebra zify.
From mathcomp Require Import fingroup perm.
From Verif Require Import Base Scalar Hoare ModelMatrix ModelLU Spec MatrixProofs MatrixProofs2 LUProofs LUEval B32 SpecFloat32 Float32Base Float32LU Float32Prio SpecFloat32Prio Float32Chol Float32SolveFin.

Set Implicit Arguments.
Unset Strict Implicit.
Unset Printing Implicit Defensive.
Local Open Scope R_scope.

(** one row of a triangular solve: if every q that fits the row up to rounding is bounded by Z, then so is the computed one *)
Lemma tri_step ks (c d : b32) (z f : nat -> b32) Z :
  finite c -> finite d -> rv d <> 0 -> (forall k, k \in ks -> finite (z k) /\ finite (f k)) ->
  grow (size ks) * Rabs (rv c) +
    grow (size ks).+1 * (\big[Rplus/0]_(k <- ks) (Rabs (rv (f k)) * Rabs (rv (z k))) + INR (size ks) * eta32) <= big32 ->
  Z <= big32 ->
  (forall q, Rabs (rv c - (\big[Rplus/0]_(k <- ks) (rv (f k) * rv (z k)) + rv d * q)) <=
      err (size ks).+1 * (\big[Rplus/0]_(k <- ks) (Rabs (rv (f k)) * Rabs (rv (z k))) + Rabs (rv d) * Rabs q) +
      grow (size ks).+1 * eta32 * (INR (size ks) + Rabs (rv d)) -> Rabs q <= Z) ->
  let r := bdiv (chain (S:=B32) c ks z f) d in finite r /\ Rabs (rv r) <= Z.
Proof.
move=> fc fd d0 fk hT hZ H r.
have [ft _] := chain_ok fc fk hT; set t := chain (S:=B32) c ks z f in ft r *.
have hq : Rabs (rv t / rv d) <= Z.
  apply: H; have [_ _] := chain_err ft; rewrite -/t.
  set P := \big[Rplus/0]_(k <- ks) (rv (f k) * _); set Q := \big[Rplus/0]_(k <- ks) _; set m := size ks => h.
  have et : rv d * (rv t / rv d) = rv t by field.
  rewrite -Rabs_mult et; have -> : rv c - (P + rv t) = rv c - P - rv t by ring.
  apply: Rle_trans h _.
  have Q0 : 0 <= Q by apply: big_ind => [||j _]; [lra|move=> *; lra|apply: Rmult_le_pos; apply: Rabs_pos].
  have t0 := Rabs_pos (rv t); have gm := grow_ge1 m; have e0 := eta32_gt0; have u0 := u32_gt0; have m0 := pos_INR m; have dp := Rabs_pos (rv d).
  have a1 : err m * (Q + Rabs (rv t)) <= err m.+1 * (Q + Rabs (rv t)) by apply: Rmult_le_compat_r; [lra|apply: err_le; lia].
  have a2 : grow m * eta32 * (INR m + Rabs (rv d)) <= grow m.+1 * eta32 * (INR m + Rabs (rv d)).
    by apply: Rmult_le_compat_r; [lra|apply: Rmult_le_compat_r; [lra|apply: grow_le; lia]].
  have a3 : 0 <= grow m * eta32 * Rabs (rv d) by apply: Rmult_le_pos => //; apply: Rmult_le_pos; lra.
  lra.
have fr : finite r by apply: div_ok => //; lra.
by split=> //; apply: H; have [_ _] := tri_err fd fr.
Qed.

(** x is bounded when A x is, up to a small multiple of x, and A has a left inverse *)
Lemma inv_bound n (A V : nat -> nat -> R) (x : nat -> R) K C S :
  (forall i j, (i < n)%N -> (j < n)%N -> rsumn n (fun l => V i l * A l j) = if i == j then 1 else 0) ->
  (forall i, (i < n)%N -> rsumn n (fun l => Rabs (V i l)) <= K) ->
  (forall p, (p < n)%N -> (forall j, (j < n)%N -> Rabs (x j) <= Rabs (x p)) ->
     forall i, (i < n)%N -> Rabs (rsumn n (fun j => A i j * x j)) <= C + S * Rabs (x p)) ->
  K * S <= / 2 -> forall l, (l < n)%N -> Rabs (x l) <= 2 * K * C.
Proof.
move=> HV HK H HC l ln.
have [p [pn hp]] := max_elem x (leq_ltn_trans (leq0n l) ln).
have hA := H p pn hp; set X := Rabs (x p) in hp hA; have X0 : 0 <= X by apply: Rabs_pos.
have ep : x p = rsumn n (fun l => V p l * rsumn n (fun j => A l j * x j)).
  rewrite (rsumn_ext (g := fun l => rsumn n (fun j => V p l * (A l j * x j)))); last by move=> l' _; rewrite rsumn_scal.
  rewrite rsumn_swap (rsumn_ext (g := fun j => (if p == j then 1 else 0) * x j)); last first.
    by move=> j hj; rewrite -HV // Rmult_comm -rsumn_scal; apply: rsumn_ext => l' _; ring.
  clear -pn; elim: (n) pn => [//|d IHc]; rewrite ltnS leq_eqVlt rsumnS => /orP[/eqP <-|kn].
    rewrite eqxx (rsumn_ext (g := fun=> 0)); last by move=> j hj; have -> : (p == j) = false by [lia]; ring.
    by rewrite rsumn_cst; ring.
  by rewrite -IHc //; have -> : (p == d) = false by [lia]; ring.
have C0 : 0 <= C + S * X by apply: Rle_trans (Rabs_pos _) (hA p pn).
have hX : X <= K * (C + S * X).
  rewrite /X {1}ep; apply: Rle_trans (rsumn_abs _ _) _.
  apply: Rle_trans (_ : rsumn n (fun l => (C + S * X) * Rabs (V p l)) <= _).
    by apply: rsumn_le => j hj; rewrite Rmult_comm; apply: abs_mul_le; [apply: hA|apply: Rle_refl].
  by rewrite rsumn_scal (Rmult_comm K); apply: Rmult_le_compat_l => //; apply: HK.
apply: Rle_trans (hp l ln) _.
by have := Rmult_le_compat_r _ _ _ X0 HC; lra.
Qed.

(** a lower triangular system whose first rows are solved by u can be completed so that the other rows are 0 *)
Lemma lower_extend n (L : nat -> nat -> R) (u : nat -> R) k :
  (forall i j, (i < j)%N -> L i j = 0) -> (forall l, (l < n)%N -> L l l <> 0) ->
  exists c : nat -> R, (forall l, (l <= k)%N -> c l = u l) /\
    forall i, (k < i < n)%N -> rsumn n (fun l => L i l * c l) = 0.
Proof.
move=> Z D.
suff H m : exists c : nat -> R, (forall l, (l <= k)%N -> c l = u l) /\
    forall i, (k < i < n)%N -> (i < k.+1 + m)%N -> rsumn n (fun l => L i l * c l) = 0.
  by have [c [c1 c2]] := H n; exists c; split=> // i hi; apply: c2 => //; lia.
elim: m => [|m [c [c1 c2]]]; first by exists u; split=> // i h1 h2; exfalso; lia.
set p := (k.+1 + m)%N.
exists (fun l => if l == p then - rsumn p (fun l => L p l * c l) / L p p else c l); split=> [l lk|i hi ip].
  by have -> : (l == p) = false by [rewrite /p; lia]; apply: c1.
have iN : (i < n)%N by lia.
have cut g : rsumn n (fun l => L i l * g l) = rsumn i.+1 (fun l => L i l * g l).
  by rewrite (rsumn_cut (c := i)) ?rsumnS // => l hl; rewrite Z; [ring|lia].
case: (ltngtP i p) => [h|h|ei].
- rewrite cut (rsumn_ext (g := fun l => L i l * c l)); first by rewrite -cut; apply: c2.
  by move=> l hl; have -> : (l == p) = false by [lia].
- by exfalso; rewrite /p in h; lia.
rewrite cut rsumnS ei eqxx (rsumn_ext (g := fun l => L p l * c l)); last by move=> l hl; have -> : (l == p) = false by [lia].
by field; apply: D; rewrite -ei.
Qed.

Section CholFin.
Variables (n : nat) (f : nat -> nat -> b32) (b y z : nat -> b32) (A V : nat -> nat -> R) (w bb K E : R).
Local Notation L i l := (if (l <= i)%N then rv (f i l) else 0).
Hypothesis FW : forall i k, (i < n)%N -> (k < n)%N -> finite (f i k) /\ Rabs (rv (f i k)) <= w.
Hypothesis Dp : forall k, (k < n)%N -> rv (f k k) <> 0.
Hypothesis Fb : forall i, (i < n)%N -> finite (b i) /\ Rabs (rv (b i)) <= bb.
Hypothesis Hy : forall i, (i < n)%N -> y i = bdiv (chain (S:=B32) (b i) (iota 0 i) y (f i)) (f i i).
Hypothesis Hz : forall i, (i < n)%N -> z i = bdiv (chain (S:=B32) (y i) (iota i.+1 (n - i.+1)) z (fun l => f l i)) (f i i).
Hypothesis HE : forall i j, (i < n)%N -> (j < n)%N -> Rabs (A i j - rsumn n (fun l => L i l * L j l)) <= E.
Hypothesis HV : forall i j, (i < n)%N -> (j < n)%N -> rsumn n (fun l => V i l * A l j) = if i == j then 1 else 0.
Hypothesis HK : forall i, (i < n)%N -> rsumn n (fun l => Rabs (V i l)) <= K.
Hypothesis HC : K * (INR n * (err n * (INR n * (w * w)) + E)) <= / 2.
Let ro := grow n * eta32 * (INR n + w).
Let Y := INR n * (w * (2 * K * (bb + ro))).
Let Z := 2 * K * (INR n * (w * (Y + ro))).
Hypothesis b0 : 0 <= bb.
Hypothesis w0 : 0 <= w.
Hypothesis K0 : 0 <= K.
Hypothesis HB1 : grow n * (bb + INR n * (w * Y + eta32)) <= big32.
Hypothesis HB2 : grow n * (Y + INR n * (w * Z + eta32)) <= big32.
Hypothesis HB3 : Z <= big32.

Lemma ro_ge0 : 0 <= ro.
Proof. by rewrite /ro; have := grow_ge1 n; have := eta32_gt0; have := pos_INR n; move=> *; apply: Rmult_le_pos; nra. Qed.
Lemma cY_ge0 : 0 <= Y.
Proof. by have := ro_ge0; rewrite /Y => h; apply: Rmult_le_pos; [exact: pos_INR|apply: Rmult_le_pos => //; apply: Rmult_le_pos; lra]. Qed.
Lemma cZ_ge0 : 0 <= Z.
Proof. have := ro_ge0; have := cY_ge0; rewrite /Z => h1 h2; apply: Rmult_le_pos; first lra. by apply: Rmult_le_pos; [exact: pos_INR|apply: Rmult_le_pos => //; lra]. Qed.
Lemma Lw i l : (i < n)%N -> (l < n)%N -> Rabs (L i l) <= w.
Proof. by move=> hi hl; case: ifP => _; [case: (FW hi hl)|rewrite Rabs_R0]. Qed.

Lemma LZ i j : (i < j)%N -> L i j = 0.
Proof. by move=> ij; rewrite leqNgt ij. Qed.
Lemma LD l : (l < n)%N -> L l l <> 0.
Proof. by move=> hl; rewrite leqnn; apply: Dp. Qed.

(** A x by way of L^T x *)
Lemma Ax_eq x i : (i < n)%N ->
  rsumn n (fun j => A i j * x j) = rsumn n (fun l => L i l * rsumn n (fun j => L j l * x j)) +
    rsumn n (fun j => (A i j - rsumn n (fun l => L i l * L j l)) * x j).
Proof.
move=> hi.
rewrite (rsumn_ext (f := fun j => (A i j - rsumn n (fun l => L i l * L j l)) * x j)
         (g := fun j => A i j * x j - rsumn n (fun l => L i l * (L j l * x j)))); last first.
  by move=> j _; rewrite (rsumn_ext (f := fun l => L i l * (L j l * x j)) (g := fun l => x j * (L i l * L j l))); [rewrite rsumn_scal|move=> l' _]; ring.
rewrite rsumn_sub rsumn_swap (rsumn_ext (f := fun l => rsumn n (fun j => L i l * (L j l * x j))) (g := fun l => L i l * rsumn n (fun j => L j l * x j))); last first.
  by move=> l' hl; rewrite rsumn_scal.
ring.
Qed.
Lemma Ex_le x X i : (i < n)%N -> (forall j, (j < n)%N -> Rabs (x j) <= X) ->
  Rabs (rsumn n (fun j => (A i j - rsumn n (fun l => L i l * L j l)) * x j)) <= INR n * E * X.
Proof.
move=> hi hx; apply: Rle_trans (rsumn_abs _ _) _; rewrite Rmult_assoc -rsumn_cst.
by apply: rsumn_le => j hj; apply: abs_mul_le; [apply: HE|apply: hx].
Qed.

Lemma ch_prefix k (u : nat -> R) : (k < n)%N ->
  (forall i, (i <= k)%N -> Rabs (rv (b i) - rsumn n (fun l => L i l * u l)) <=
     err n * rsumn n (fun l => Rabs (L i l) * Rabs (u l)) + ro) ->
  forall l, (l <= k)%N -> Rabs (u l) <= Y.
Proof.
move=> kn H l lk.
have [c [c1 c2]] := @lower_extend n (fun i l => L i l) u k
  LZ LD.
have [x [_ hx]] := @upper_solve n (fun i j => L j i) c n (leqnn n)
  (fun i j => @LZ j i) LD.
have cX X i : (i < n)%N -> (forall j, (j < n)%N -> Rabs (x j) <= X) -> Rabs (c i) <= INR n * (w * X).
  move=> hi h; rewrite -hx //; apply: Rle_trans (rsumn_abs _ _) _; rewrite -rsumn_cst; apply: rsumn_le => j hj.
  by apply: abs_mul_le; [apply: Lw|apply: h].
have r0 := ro_ge0; have n0 := pos_INR n; have en := err_ge0 n.
rewrite -c1 //; apply: (cX _ _ (leq_ltn_trans lk kn)).
apply: (inv_bound HV HK (C := bb + ro) (S := INR n * (err n * (INR n * (w * w)) + E))) => // p pn hp i hi.
rewrite Ax_eq //; apply: Rle_trans (Rabs_triang _ _) _.
have h2 := Ex_le hi hp; set X := Rabs (x p) in hp h2 *; have X0 : 0 <= X by apply: Rabs_pos.
rewrite (rsumn_ext (g := fun l => L i l * c l)); last by move=> l' hl'; rewrite hx.
have h3 : 0 <= INR n * (err n * (INR n * (w * w)) * X).
  by apply: Rmult_le_pos => //; apply: Rmult_le_pos => //; apply: Rmult_le_pos => //; apply: Rmult_le_pos => //; apply: Rmult_le_pos.
suff h1 : Rabs (rsumn n (fun l => L i l * c l)) <= bb + ro + INR n * (err n * (INR n * (w * w)) * X) by lra.
case: (leqP i k) => ik; last by rewrite c2 ?ik // Rabs_R0; lra.
have ec : rsumn n (fun l => L i l * c l) = rsumn n (fun l => L i l * u l).
  by apply: rsumn_ext => j _; case: leqP => ji; [rewrite c1 //; lia|ring].
have h := H i ik.
have s1 : rsumn n (fun l => Rabs (L i l) * Rabs (u l)) <= INR n * (w * (INR n * (w * X))).
  rewrite -rsumn_cst; apply: rsumn_le => j hj; case: (leqP j i) => ji; last first.
    by rewrite Rabs_R0 Rmult_0_l; repeat apply: Rmult_le_pos.
  apply: Rmult_le_compat; [exact: Rabs_pos|exact: Rabs_pos|by have [] := FW hi hj|].
  by rewrite -c1; [apply: cX|lia].
have s2 := Rmult_le_compat_l _ _ _ en s1.
rewrite ec; set s := rsumn n _ in h *; have -> : s = rv (b i) - (rv (b i) - s) by ring.
apply: Rle_trans (Rabs_triang _ _) _; rewrite Rabs_Ropp.
have [_ hb] := Fb hi.
have -> : INR n * (err n * (INR n * (w * w)) * X) = err n * (INR n * (w * (INR n * (w * X)))) by ring.
lra.
Qed.

Lemma y_cprio i : (i < n)%N -> finite (y i) /\ Rabs (rv (y i)) <= Y.
Proof.
elim/ltn_ind: i => i IH hi.
have [fb hb] := Fb hi; have [fd _] := FW hi hi; have Y0 := cY_ge0; have Z0 := cZ_ge0; have e0 := eta32_gt0; have n0 := pos_INR n; have i0 := pos_INR i.
have YB : Y <= big32.
  apply: Rle_trans HB2; have wz : 0 <= INR n * (w * Z + eta32) by apply: Rmult_le_pos => //; have := Rmult_le_pos _ _ w0 Z0; lra.
  have := grow_ge1 n; nra.
have g1 : grow i <= grow n by apply: grow_le; lia.
have g2 : grow i.+1 <= grow n by apply: grow_le.
have gi := grow_ge1 i; have gi1 := grow_ge1 i.+1.
have ni : INR i <= INR n by apply: le_INR; apply/leP; lia.
rewrite Hy //; apply: tri_step => //.
- by apply: Dp.
- by move=> l; rewrite mem_iota => /andP[_ li]; have [fy _] := IH l li (ltn_trans li hi); have [ff _] := FW hi (ltn_trans li hi).
- rewrite size_iota big_rsumn0; set s := rsumn i _.
  have hs : s <= INR i * (w * Y).
    rewrite -rsumn_cst; apply: rsumn_le => l li; have [_ h1] := IH l li (ltn_trans li hi).
    by have [_ h2] := FW hi (ltn_trans li hi); apply: Rmult_le_compat => //; exact: Rabs_pos.
  have s0 : 0 <= s by apply: rsumn_ge0 => l _; apply: Rmult_le_pos; apply: Rabs_pos.
  have wy := Rmult_le_pos _ _ w0 Y0.
  apply: Rle_trans HB1; rewrite (Rmult_plus_distr_l (grow n)); apply: Rplus_le_compat; apply: Rmult_le_compat => //; [lra|exact: Rabs_pos|lra|nra|].
  have : INR i * (w * Y + eta32) <= INR n * (w * Y + eta32) by apply: Rmult_le_compat_r; lra.
  lra.
move=> q; rewrite size_iota !big_rsumn0 => h.
pose u l := if l == i then q else rv (y l).
have -> : q = u i by rewrite /u eqxx.
apply: (@ch_prefix i u hi) => // j ji.
have hj : (j < n)%N by lia.
have z0 : forall l, (j < l)%N -> L j l = 0 by move=> l hl; rewrite leqNgt hl.
rewrite (rsumn_cut (c := j)) //; last by move=> l hl; rewrite z0; [ring|lia].
rewrite (rsumn_cut (c := j) (f := fun l => Rabs (L j l) * Rabs (u l))) //; last by move=> l hl; rewrite z0 ?Rabs_R0; [ring|lia].
rewrite leqnn.
rewrite (rsumn_ext (f := fun l => L j l * u l) (g := fun l => rv (f j l) * rv (y l))); last first.
  by move=> l hl; rewrite /u; have -> : (l <= j)%N by [lia]; have -> : (l == i) = false by [lia].
rewrite (rsumn_ext (f := fun l => Rabs (L j l) * Rabs (u l)) (g := fun l => Rabs (rv (f j l)) * Rabs (rv (y l)))); last first.
  by move=> l hl; rewrite /u; have -> : (l <= j)%N by [lia]; have -> : (l == i) = false by [lia].
have {}h : Rabs (rv (b j) - (rsumn j (fun l => rv (f j l) * rv (y l)) + rv (f j j) * u j)) <=
   err j.+1 * (rsumn j (fun l => Rabs (rv (f j l)) * Rabs (rv (y l))) + Rabs (rv (f j j)) * Rabs (u j)) +
   grow j.+1 * eta32 * (INR j + Rabs (rv (f j j))).
  move: ji; rewrite leq_eqVlt => /orP[/eqP ->|ji]; first by rewrite /u eqxx.
  have [fy _] := IH j ji hj; rewrite /u; have -> : (j == i) = false by [lia].
  have [ffj _] := FW hj hj; rewrite Hy // in fy; have [_ _] := tri_err ffj fy.
  by rewrite -Hy // size_iota !big_rsumn0.
apply: Rle_trans h _; apply: Rplus_le_compat.
  apply: Rmult_le_compat_r; last by apply: err_le.
  apply: Rplus_le_le_0_compat; last by apply: Rmult_le_pos; apply: Rabs_pos.
  by apply: rsumn_ge0 => l _; apply: Rmult_le_pos; apply: Rabs_pos.
have gj := grow_ge1 j.+1; have j0 := pos_INR j; have [_ hw] := FW hj hj; have fp := Rabs_pos (rv (f j j)).
have gjn : grow j.+1 <= grow n by apply: grow_le.
have nj : INR j <= INR n by apply: le_INR; apply/leP; lia.
rewrite /ro; apply: Rmult_le_compat; [by apply: Rmult_le_pos; lra|lra|by apply: Rmult_le_compat_r; lra|lra].
Qed.

Lemma ch_suffix k (v : nat -> R) : (k < n)%N ->
  (forall i, (k <= i < n)%N -> Rabs (rv (y i) - rsumn n (fun l => L l i * v l)) <=
     err n * rsumn n (fun l => Rabs (L l i) * Rabs (v l)) + ro) ->
  forall l, (k <= l < n)%N -> Rabs (v l) <= Z.
Proof.
move=> kn hw l /andP [kl ln].
pose w1 l := if (l < k)%N then 0 else v l.
have [x0 [x0z hx0]] := @upper_solve n (fun i j => L j i) (fun i => - rsumn n (fun l => L l i * w1 l)) k (ltnW kn)
  (fun i j => @LZ j i) (fun l hl => LD (ltn_trans hl kn)).
pose x l := x0 l + w1 l.
have xw i : (k <= i)%N -> x i = v i.
  by move=> ki; rewrite /x /w1 x0z // ltnNge ki /=; ring.
have r0 := ro_ge0; have n0 := pos_INR n; have en := err_ge0 n; have Y0 := cY_ge0.
rewrite -xw //.
apply: (inv_bound HV HK (C := INR n * (w * (Y + ro))) (S := INR n * (err n * (INR n * (w * w)) + E))) => // p pn hp i hi.
rewrite Ax_eq //; apply: Rle_trans (Rabs_triang _ _) _.
have h2 := Ex_le hi hp; set X := Rabs (x p) in hp h2 *; have X0 : 0 <= X by apply: Rabs_pos.
pose c i := rsumn n (fun j => L j i * x j).
have hc j : (j < n)%N -> Rabs (c j) <= Y + (err n * (INR n * (w * X)) + ro).
  move=> hj; have nn : 0 <= err n * (INR n * (w * X)) by repeat apply: Rmult_le_pos.
  case: (ltnP j k) => jk.
    have -> : c j = 0.
      rewrite /c (rsumn_ext (g := fun l => L l j * x0 l + L l j * w1 l)); last by move=> l' _; rewrite /x; ring.
      by rewrite rsumn_add hx0 //; ring.
    by rewrite Rabs_R0; lra.
  have ec : c j = rsumn n (fun l => L l j * v l).
    apply: rsumn_ext => l' _; case: (leqP k l') => kl'; first by rewrite xw.
    by have -> : (j <= l')%N = false by [lia]; ring.
  have := hw j _; rewrite jk hj => /(_ isT) h.
  have s1 : rsumn n (fun l => Rabs (L l j) * Rabs (v l)) <= INR n * (w * X).
    rewrite -rsumn_cst; apply: rsumn_le => l' hl'; case: (leqP k l') => kl'.
      by rewrite -xw //; apply: Rmult_le_compat; [exact: Rabs_pos|exact: Rabs_pos|apply: Lw|apply: hp].
    have -> : (j <= l')%N = false by lia.
    by rewrite Rabs_R0 Rmult_0_l; apply: Rmult_le_pos.
  have s2 := Rmult_le_compat_l _ _ _ en s1.
  have [_ hy] := y_cprio hj.
  rewrite ec; set s := rsumn n _ in h *; have -> : s = rv (y j) - (rv (y j) - s) by ring.
  by apply: Rle_trans (Rabs_triang _ _) _; rewrite Rabs_Ropp; lra.
have h1 : Rabs (rsumn n (fun l => L i l * rsumn n (fun j => L j l * x j))) <= INR n * (w * (Y + (err n * (INR n * (w * X)) + ro))).
  apply: Rle_trans (rsumn_abs _ _) _; rewrite -rsumn_cst; apply: rsumn_le => j hj.
  by apply: abs_mul_le; [apply: Lw|apply: hc].
have e : INR n * (w * (Y + (err n * (INR n * (w * X)) + ro))) + INR n * E * X =
  INR n * (w * (Y + ro)) + INR n * (err n * (INR n * (w * w)) + E) * X by ring.
by rewrite -e; lra.
Qed.

Lemma z_cprio c : (c <= n)%N -> forall l, (n - c <= l < n)%N -> finite (z l) /\ Rabs (rv (z l)) <= Z.
Proof.
elim: c => [|c IH] cn l; first by move=> h; exfalso; lia.
set k := (n - c.+1)%N => /andP [kl ln].
have kn : (k < n)%N by rewrite /k; lia.
have {}IH j : (k < j < n)%N -> finite (z j) /\ Rabs (rv (z j)) <= Z by move=> h; apply: IH; rewrite /k in h *; lia.
move: kl; rewrite leq_eqVlt => /orP[/eqP <-|kl]; last by apply: IH; rewrite kl.
have Y0 := cY_ge0; have Z0 := cZ_ge0; have e0 := eta32_gt0; have nn := pos_INR n.
have [fy hy] := y_cprio kn; have [fd _] := FW kn kn.
set m := (n - k.+1)%N.
have m0 := pos_INR m; have gm := grow_ge1 m; have gm1 := grow_ge1 m.+1.
have mn : INR m <= INR n by apply: le_INR; apply/leP; rewrite /m; lia.
have g1 : grow m <= grow n by apply: grow_le; rewrite /m; lia.
have g2 : grow m.+1 <= grow n by apply: grow_le; rewrite /m; lia.
have cut (g : nat -> R) i : (i < n)%N -> (forall l, (l < i)%N -> g l = 0) -> rsumn n g = rsumn (n - i.+1) (fun l => g (i.+1 + l)%N) + g i.
  move=> hi g0; have ei : n = (i + (n - i.+1).+1)%N by lia.
  rewrite {1}ei rsumn_drop // rsumn_head addn0 Rplus_comm; congr (_ + _).
  by apply: rsumn_ext => l' _; rewrite addnS addSn.
rewrite Hz //; apply: tri_step => //.
- by apply: Dp.
- by move=> j; rewrite mem_iota => hj; have hj' : (k < j < n)%N by [lia]; have [? _] := IH _ hj'; have [? _] := @FW j k ltac:(lia) kn.
- rewrite size_iota big_rsumn -/m; set s := rsumn m _.
  have hs : s <= INR m * (w * Z).
    rewrite -rsumn_cst; apply: rsumn_le => j hj; have hj' : (k < k.+1 + j < n)%N by rewrite /m in hj; lia.
    have [_ h1] := IH _ hj'; have [_ h2] := @FW (k.+1 + j) k ltac:(lia) kn.
    by apply: Rmult_le_compat => //; exact: Rabs_pos.
  have s0 : 0 <= s by apply: rsumn_ge0 => j _; apply: Rmult_le_pos; apply: Rabs_pos.
  have wz := Rmult_le_pos _ _ w0 Z0.
  apply: Rle_trans HB2; rewrite (Rmult_plus_distr_l (grow n)); apply: Rplus_le_compat; apply: Rmult_le_compat => //; [lra|exact: Rabs_pos|lra|nra|].
  have : INR m * (w * Z + eta32) <= INR n * (w * Z + eta32) by apply: Rmult_le_compat_r; lra.
  lra.
move=> q; rewrite size_iota !big_rsumn => h.
pose u l := if l == k then q else rv (z l).
have -> : q = u k by rewrite /u eqxx.
apply: (@ch_suffix k u kn) => [j /andP[kj jn]|]; last by rewrite leqnn.
have z0 : forall l, (l < j)%N -> L l j = 0 by move=> l' hl; rewrite leqNgt hl.
rewrite (cut (fun l => L l j * u l) j) //; last by move=> l' hl; rewrite z0 //; ring.
rewrite (cut (fun l => Rabs (L l j) * Rabs (u l)) j) //; last by move=> l' hl; rewrite z0 // Rabs_R0; ring.
rewrite leqnn; set N := (n - j.+1)%N.
rewrite (rsumn_ext (f := fun l => L (j.+1 + l)%N j * u (j.+1 + l)%N) (g := fun l => rv (f (j.+1 + l)%N j) * rv (z (j.+1 + l)%N))); last first.
  by move=> l' hl; rewrite /u; have -> : (j <= j.+1 + l')%N by [lia]; have -> : (j.+1 + l' == k)%N = false by [lia].
rewrite (rsumn_ext (f := fun l => Rabs (L (j.+1 + l)%N j) * Rabs (u (j.+1 + l)%N)) (g := fun l => Rabs (rv (f (j.+1 + l)%N j)) * Rabs (rv (z (j.+1 + l)%N)))); last first.
  by move=> l' hl; rewrite /u; have -> : (j <= j.+1 + l')%N by [lia]; have -> : (j.+1 + l' == k)%N = false by [lia].
have {}h : Rabs (rv (y j) - (rsumn N (fun l => rv (f (j.+1 + l)%N j) * rv (z (j.+1 + l)%N)) + rv (f j j) * u j)) <=
   err N.+1 * (rsumn N (fun l => Rabs (rv (f (j.+1 + l)%N j)) * Rabs (rv (z (j.+1 + l)%N))) + Rabs (rv (f j j)) * Rabs (u j)) +
   grow N.+1 * eta32 * (INR N + Rabs (rv (f j j))).
  move: kj; rewrite leq_eqVlt => /orP[/eqP ej|kj]; first by rewrite /N -ej /u eqxx.
  have [fz _] := IH j ltac:(lia); rewrite /u; have -> : (j == k) = false by [lia].
  have [ffj _] := FW jn jn; rewrite Hz // in fz; have [_ _] := tri_err ffj fz.
  by rewrite -Hz // size_iota !big_rsumn.
apply: Rle_trans h _; apply: Rplus_le_compat.
  apply: Rmult_le_compat_r; last by apply: err_le; rewrite /N; lia.
  apply: Rplus_le_le_0_compat; last by apply: Rmult_le_pos; apply: Rabs_pos.
  by apply: rsumn_ge0 => l' _; apply: Rmult_le_pos; apply: Rabs_pos.
have gj := grow_ge1 N.+1; have j0 := pos_INR N; have [_ hw] := FW jn jn; have fp := Rabs_pos (rv (f j j)).
have gjn : grow N.+1 <= grow n by apply: grow_le; rewrite /N; lia.
have nj : INR N <= INR n by apply: le_INR; apply/leP; rewrite /N; lia.
rewrite /ro; apply: Rmult_le_compat; [by apply: Rmult_le_pos; lra|lra|by apply: Rmult_le_compat_r; lra|lra].
Qed.
End CholFin.
