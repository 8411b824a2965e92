(** * RealVec: real vectors as functions on [0, m), their Euclidean norm, and
    Householder reflections (used by the rounding analysis of qr.rs) *)
From Coq Require Import ZArith Reals Lra Psatz.
From mathcomp Require Import all_ssreflect zify.
From Verif Require Import SpecFloat64 FloatBase FloatLU FloatCholThms FloatCholFull.

Set Implicit Arguments.
Unset Strict Implicit.
Unset Printing Implicit Defensive.
Local Open Scope R_scope.

Section RealVec.
Variable m : nat.
Implicit Types (v w u x y : nat -> R).

Definition dotr v w : R := rsumn m (fun i => v i * w i).
Definition nrm v : R := sqrt (dotr v v).

Lemma dotr_ext v w v' w' : (forall i, (i < m)%N -> v i = v' i) -> (forall i, (i < m)%N -> w i = w' i) -> dotr v w = dotr v' w'.
Proof. by move=> h1 h2; apply: rsumn_ext => i hi; rewrite h1 // h2. Qed.
Lemma dotrC v w : dotr v w = dotr w v.
Proof. by apply: rsumn_ext => i _; rewrite Rmult_comm. Qed.
Lemma dotr_ge0 v : 0 <= dotr v v.
Proof. by apply: rsumn_ge0 => i _; apply: Rle_0_sqr. Qed.
Lemma dotrDl v v' w : dotr (fun i => v i + v' i) w = dotr v w + dotr v' w.
Proof. by rewrite /dotr -rsumn_add; apply: rsumn_ext => i _; ring. Qed.
Lemma dotrBl v v' w : dotr (fun i => v i - v' i) w = dotr v w - dotr v' w.
Proof. by rewrite /dotr -rsumn_sub; apply: rsumn_ext => i _; ring. Qed.
Lemma dotrZl c v w : dotr (fun i => c * v i) w = c * dotr v w.
Proof. by rewrite /dotr -rsumn_scal; apply: rsumn_ext => i _; ring. Qed.
Lemma dotrDr v w w' : dotr v (fun i => w i + w' i) = dotr v w + dotr v w'.
Proof. by rewrite dotrC dotrDl !(dotrC v). Qed.
Lemma dotrBr v w w' : dotr v (fun i => w i - w' i) = dotr v w - dotr v w'.
Proof. by rewrite dotrC dotrBl !(dotrC v). Qed.
Lemma dotrZr c v w : dotr v (fun i => c * w i) = c * dotr v w.
Proof. by rewrite dotrC dotrZl (dotrC v). Qed.

Lemma nrm_ge0 v : 0 <= nrm v. Proof. exact: sqrt_pos. Qed.
Lemma nrm_sq v : nrm v * nrm v = dotr v v.
Proof. exact: sqrt_sqrt (dotr_ge0 v). Qed.
Lemma nrm_ext v v' : (forall i, (i < m)%N -> v i = v' i) -> nrm v = nrm v'.
Proof. by move=> h; rewrite /nrm (dotr_ext h h). Qed.
Lemma sq_le a b : 0 <= b -> a * a <= b * b -> a <= b.
Proof. by move=> hb h; case: (Rle_dec a b) => // n; nra. Qed.
Lemma sq_inj a b : 0 <= a -> 0 <= b -> a * a = b * b -> a = b.
Proof. by move=> ha hb h; apply: Rle_antisym; apply: sq_le => //; lra. Qed.
Lemma nrm_abs v : nrm (fun i => Rabs (v i)) = nrm v.
Proof.
rewrite /nrm /dotr; congr sqrt; apply: rsumn_ext => i _.
by rewrite -Rabs_mult Rabs_pos_eq //; apply: Rle_0_sqr.
Qed.

Lemma nrm_cs v w : Rabs (dotr v w) <= nrm v * nrm w.
Proof.
apply: sq_le; first by apply: Rmult_le_pos; apply: nrm_ge0.
rewrite -Rabs_mult Rabs_pos_eq; last exact: Rle_0_sqr.
have -> : nrm v * nrm w * (nrm v * nrm w) = (nrm v * nrm v) * (nrm w * nrm w) by ring.
by rewrite !nrm_sq; apply: cs_rsumn.
Qed.
Lemma nrm_cs_abs v w : rsumn m (fun i => Rabs (v i) * Rabs (w i)) <= nrm v * nrm w.
Proof.
have := nrm_cs (fun i => Rabs (v i)) (fun i => Rabs (w i)); rewrite !nrm_abs.
by move=> h; apply: Rle_trans (Rle_abs _) h.
Qed.

Lemma nrm_tri v w : nrm (fun i => v i + w i) <= nrm v + nrm w.
Proof.
have p1 := nrm_ge0 v; have p2 := nrm_ge0 w.
apply: sq_le; first lra.
rewrite nrm_sq dotrDl !dotrDr (dotrC w v).
have := nrm_cs v w; have := Rle_abs (dotr v w).
have -> : (nrm v + nrm w) * (nrm v + nrm w) = nrm v * nrm v + nrm w * nrm w + 2 * (nrm v * nrm w) by ring.
rewrite !nrm_sq; lra.
Qed.
Lemma nrm_scal c v : nrm (fun i => c * v i) = Rabs c * nrm v.
Proof.
apply: sq_inj; [exact: nrm_ge0|by apply: Rmult_le_pos; [apply: Rabs_pos|apply: nrm_ge0]|].
have -> : Rabs c * nrm v * (Rabs c * nrm v) = (Rabs c * Rabs c) * (nrm v * nrm v) by ring.
rewrite !nrm_sq dotrZl dotrZr -Rabs_mult Rabs_pos_eq; last exact: Rle_0_sqr.
by ring.
Qed.
Lemma nrm_mono v w : (forall i, (i < m)%N -> Rabs (v i) <= w i) -> nrm v <= nrm w.
Proof.
move=> h; apply: sqrt_le_1_alt; apply: rsumn_le => i hi.
have := h i hi; have := Rabs_pos (v i); move=> p q.
have -> : v i * v i = Rabs (v i) * Rabs (v i) by rewrite -Rabs_mult Rabs_pos_eq //; apply: Rle_0_sqr.
by apply: Rmult_le_compat.
Qed.
Lemma nrm_sub v w : nrm (fun i => v i - w i) <= nrm v + nrm w.
Proof.
have := nrm_tri v (fun i => -1 * w i); rewrite nrm_scal Rabs_left1; last lra.
have -> : nrm (fun i => v i + -1 * w i) = nrm (fun i => v i - w i) by apply: nrm_ext => i _; ring.
lra.
Qed.
(* |v - w| <= |v - z| + |z - w| *)
Lemma nrm_tri3 v w z : nrm (fun i => v i - w i) <= nrm (fun i => v i - z i) + nrm (fun i => z i - w i).
Proof.
rewrite (@nrm_ext (fun i => v i - w i) (fun i => (v i - z i) + (z i - w i))); last by move=> i _; ring.
exact: nrm_tri.
Qed.
Lemma nrm_le_add v w : nrm v <= nrm w + nrm (fun i => v i - w i).
Proof.
rewrite (@nrm_ext v (fun i => w i + (v i - w i))); last by move=> i _; ring.
exact: nrm_tri.
Qed.
Lemma nrm_cst c : 0 <= c -> nrm (fun _ => c) <= INR m * c.
Proof.
move=> c0; apply: sq_le; first by apply: Rmult_le_pos => //; apply: pos_INR.
rewrite nrm_sq /dotr rsumn_cst.
have h : INR m * c * (INR m * c) = INR m * INR m * (c * c) by ring.
rewrite h; have cc := Rle_0_sqr c; rewrite /Rsqr in cc.
apply: Rmult_le_compat_r => //.
case: (m) => [|k]; first by rewrite /=; lra.
by rewrite S_INR; have := pos_INR k; nra.
Qed.
Lemma nrm_z v : (forall i, (i < m)%N -> v i = 0) -> nrm v = 0.
Proof. by move=> h; rewrite /nrm /dotr rsumn_z ?sqrt_0 // => i hi; rewrite h // Rmult_0_l. Qed.
Lemma nrm_coord v i : (i < m)%N -> Rabs (v i) <= nrm v.
Proof.
move=> hi; apply: sq_le; first exact: nrm_ge0.
rewrite nrm_sq -Rabs_mult Rabs_pos_eq; last exact: Rle_0_sqr.
by apply: (@rsumn_term m (fun i => v i * v i)) => // l _; apply: Rle_0_sqr.
Qed.
(* a vector with one non-zero coordinate *)
Definition unitv (k : nat) (c : R) (i : nat) : R := if i == k then c else 0.
Lemma nrm_unitv k c : (k < m)%N -> nrm (unitv k c) = Rabs c.
Proof.
move=> hk; apply: sq_inj; [exact: nrm_ge0|exact: Rabs_pos|].
rewrite nrm_sq -Rabs_mult Rabs_pos_eq; last exact: Rle_0_sqr.
rewrite /dotr (rsumn_one hk); first by rewrite /unitv eqxx.
by move=> i _ /negPf ni; rewrite /unitv ni Rmult_0_l.
Qed.
Lemma dotr_unitv k c v : (k < m)%N -> dotr (unitv k c) v = c * v k.
Proof.
move=> hk; rewrite /dotr (rsumn_one hk); first by rewrite /unitv eqxx.
by move=> i _ /negPf ni; rewrite /unitv ni Rmult_0_l.
Qed.

(** the reflection along u (the identity when u = 0) *)
Definition house u v (i : nat) : R := v i - 2 * dotr u v / dotr u u * u i.

Lemma house_z u v i : (forall i, u i = 0) -> house u v i = v i.
Proof. by move=> h; rewrite /house h Rmult_0_r Rminus_0_r. Qed.

Lemma house_ext u v v' i : (i < m)%N -> (forall j, (j < m)%N -> v j = v' j) -> house u v i = house u v' i.
Proof. by move=> hi h; rewrite /house h // (@dotr_ext u v u v'). Qed.

Lemma house_dot u v w : (dotr u u = 0 -> forall i, u i = 0) -> dotr (house u v) (house u w) = dotr v w.
Proof.
move=> hu; case: (Req_dec (dotr u u) 0) => [z|z].
  by apply: dotr_ext => i _; apply: house_z; apply: hu.
rewrite /house dotrBl !dotrBr !dotrZl !dotrZr.
rewrite (dotrC v u); field; exact: z.
Qed.
Lemma house_nrm u v : (dotr u u = 0 -> forall i, u i = 0) -> nrm (house u v) = nrm v.
Proof. by move=> h; rewrite /nrm house_dot. Qed.
Lemma house_inv u v i : (dotr u u = 0 -> forall i, u i = 0) -> house u (house u v) i = v i.
Proof.
move=> hu; case: (Req_dec (dotr u u) 0) => [z|z].
  by rewrite !house_z //; apply: hu.
rewrite {1}/house.
have -> : dotr u (house u v) = - dotr u v.
  by rewrite /house dotrBr dotrZr; field.
by rewrite /house; field.
Qed.
Lemma house_lin u v w c i : house u (fun i => v i + c * w i) i = house u v i + c * house u w i.
Proof. by rewrite /house dotrDr dotrZr /Rdiv; ring. Qed.
Lemma house_sub u v w i : house u (fun i => v i - w i) i = house u v i - house u w i.
Proof. by rewrite /house dotrBr /Rdiv; ring. Qed.
End RealVec.
