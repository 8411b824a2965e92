(** * Rel: a relational logic for two runs of the same function that differ
    only in the contents of freshly allocated memory. *)
From mathcomp Require Import all_ssreflect zify.
From Verif Require Import Base Hoare.

Set Implicit Arguments.
Unset Strict Implicit.
Unset Printing Implicit Defensive.

(** both runs return related values, or fail in the same way *)
Definition rres A B (Q : A -> B -> Prop) (m1 : res A) (m2 : res B) : Prop :=
  match m1, m2 with
  | Ok a, Ok b => Q a b
  | Err e, Err e' => e = e'
  | _, _ => False
  end.

Lemma rres_eq A (m1 m2 : res A) : rres eq m1 m2 <-> m1 = m2.
Proof. by case: m1 m2 => [a|e] [b|e']; split=> //=; [move=> -> | case | move=> -> | case]. Qed.

Lemma rres_refl A (m : res A) : rres eq m m.
Proof. exact/rres_eq. Qed.

Lemma rres_mono A B (Q Q' : A -> B -> Prop) m1 m2 :
  rres Q m1 m2 -> (forall a b, Q a b -> Q' a b) -> rres Q' m1 m2.
Proof. by case: m1 m2 => [a|e] [b|e'] //= h H; apply: H. Qed.

Lemma rbind A B A' B' (Q : A -> B -> Prop) (R : A' -> B' -> Prop) m1 m2 k1 k2 :
  rres Q m1 m2 -> (forall a b, Q a b -> rres R (k1 a) (k2 b)) ->
  rres R (bind m1 k1) (bind m2 k2).
Proof. by case: m1 m2 => [a|e] [b|e'] //= h H; apply: H. Qed.

(** the same computation on both sides *)
Lemma rbind_same A A' B' (R : A' -> B' -> Prop) (m : res A) k1 k2 :
  (forall a, m = Ok a -> rres R (k1 a) (k2 a)) -> rres R (bind m k1) (bind m k2).
Proof. by case: m => //= a H; apply: H. Qed.

Lemma rrequire A B (R : A -> B -> Prop) (b : bool) k1 k2 :
  (b -> rres R k1 k2) -> rres R (require b k1) (require b k2).
Proof. by case: b => //= H; apply: H. Qed.

Lemma rfor A B (I : nat -> A -> B -> Prop) lo hi b1 b2 a b :
  I lo a b ->
  (forall i a b, lo <= i < hi -> I i a b -> rres (I i.+1) (b1 i a) (b2 i b)) ->
  rres (I (maxn lo hi)) (for_ lo hi b1 a) (for_ lo hi b2 b).
Proof.
move=> I0 step; rewrite /for_.
have -> : maxn lo hi = lo + (hi - lo) by lia.
have {}step i a' b' : lo <= i < lo + (hi - lo) -> I i a' b' -> rres (I i.+1) (b1 i a') (b2 i b').
  by move=> h; apply: step; lia.
move: (hi - lo) step => n; elim: n lo a b I0 => [|n IH] lo a b I0 step /=; first by rewrite addn0.
apply: rbind (step lo a b _ I0) _ => [|a' b' h]; first by lia.
rewrite addnS -addSn; apply: IH => // i a'' b'' hi'; apply: step; lia.
Qed.

Lemma rforc A B R (I : nat -> A -> B -> Prop) lo hi b1 b2 a b :
  I lo a b ->
  (forall i a b, lo <= i < hi -> I i a b ->
     rres (fun c d => match c, d with Next a', Next b' => I i.+1 a' b' | Stop r, Stop r' => r = r' | _, _ => False end)
       (b1 i a) (b2 i b)) ->
  rres (fun (c : ctl A R) (d : ctl B R) =>
          match c, d with Next a', Next b' => I (maxn lo hi) a' b' | Stop r, Stop r' => r = r' | _, _ => False end)
    (forc lo hi b1 a) (forc lo hi b2 b).
Proof.
move=> I0 step; rewrite /forc.
have -> : maxn lo hi = lo + (hi - lo) by lia.
have {}step i a' b' : lo <= i < lo + (hi - lo) -> I i a' b' ->
   rres (fun c d => match c, d with Next a', Next b' => I i.+1 a' b' | Stop r, Stop r' => r = r' | _, _ => False end)
       (b1 i a') (b2 i b').
  by move=> h; apply: step; lia.
move: (hi - lo) step => n; elim: n lo a b I0 => [|n IH] lo a b I0 step /=; first by rewrite addn0.
apply: rbind (step lo a b _ I0) _ => [|[a'|r] [b'|r'] h] //=; first by lia.
rewrite addnS -addSn; apply: IH => // i a'' b'' hi'; apply: step; lia.
Qed.

Lemma rloop A B R R' (I : A -> B -> Prop) (J : R -> R' -> Prop) fuel b1 b2 a b :
  I a b ->
  (forall a b, I a b ->
     rres (fun c d => match c, d with Next a', Next b' => I a' b' | Stop r, Stop r' => J r r' | _, _ => False end)
       (b1 a) (b2 b)) ->
  rres J (loop_ fuel b1 a) (loop_ fuel b2 b).
Proof.
move=> I0 step; elim: fuel a b I0 => [|f IH] a b I0 //=.
by apply: rbind (step a b I0) _ => [[a'|r] [b'|r']] //=; apply: IH.
Qed.

Section Vec.
Variable T : Type.
Implicit Types (v w : seq T) (P : nat -> Prop).

(** same length [n], same contents at the indices in [P] *)
Definition agree n P v w : Prop :=
  [/\ size v = n, size w = n & forall i, P i -> vget v i = vget w i].

Lemma agree_refl P v : agree (size v) P v v. Proof. by []. Qed.

Lemma agree_alloc P (g g' : nat -> T) n :
  (forall i, ~ P i) -> agree n P (alloc_dirty_vec g n) (alloc_dirty_vec g' n).
Proof. by move=> H; split=> [||i /H //]; rewrite !size_alloc. Qed.

Lemma agree_full n P v w : agree n P v w -> (forall i, i < n -> P i) -> v = w.
Proof. by case=> sv sw H F; apply: vget_ext => [|i hi]; [rewrite sv | apply: H; apply: F; rewrite -sv]. Qed.

Lemma agree_mono n P P' v w : agree n P v w -> (forall i, i < n -> P' i -> P i) -> agree n P' v w.
Proof.
case=> sv sw H F; split=> // i Pi; case: (ltnP i n) => h; first by apply: H; apply: F.
by rewrite !vget_oob // ?sv ?sw.
Qed.

Lemma agree_get n P v w i : agree n P v w -> P i -> vget v i = vget w i.
Proof. by case=> _ _; apply. Qed.

Lemma rset n P P' v w i x : agree n P v w ->
  (forall k, k < n -> P' k -> k = i \/ P k) ->
  rres (agree n P') (vset v i x) (vset w i x).
Proof.
case=> sv sw H F; rewrite /vset sv sw; case: ifP => //= hi.
apply: (@agree_mono n (fun k => k = i \/ P k)) => //.
split; [by rewrite size_upd | by rewrite size_upd |].
move=> k [->|Pk]; first by rewrite !vget_upd ?sv ?sw // eqxx.
by rewrite !vget_upd ?sv ?sw //; case: ifP => // _; apply: H.
Qed.
End Vec.

(** filling a vector in order, element i at step i, from data that does not
    depend on the old contents *)
Lemma rfill T n (body : nat -> seq T -> res (seq T)) (c : nat -> res T) g g' :
  (forall i d, i < n -> body i d = bind (c i) (fun x => vset d i x)) ->
  for_ 0 n body (alloc_dirty_vec g n) = for_ 0 n body (alloc_dirty_vec g' n).
Proof.
move=> H; apply/rres_eq; apply: rres_mono.
  apply: (rfor (I := fun i => agree n (fun k => k < i))); first exact: agree_alloc.
  move=> i a b hi Hab; rewrite !H; try by lia.
  apply: rbind_same => x _; apply: rset Hab _ => k kn; lia.
by rewrite max0n => a b Hab; apply: agree_full Hab _.
Qed.

(** the same for a doubly indexed fill of an m x n array *)
Lemma rfill2 T m n (body : nat -> nat -> seq T -> res (seq T)) (c : nat -> nat -> res T) g g' :
  (forall i j d, i < m -> j < n -> body i j d = bind (c i j) (fun x => vset d (i * n + j) x)) ->
  for_ 0 m (fun i d => for_ 0 n (body i) d) (alloc_dirty_vec g (m * n)) =
  for_ 0 m (fun i d => for_ 0 n (body i) d) (alloc_dirty_vec g' (m * n)).
Proof.
move=> H; apply/rres_eq; apply: rres_mono.
  apply: (rfor (I := fun i => agree (m * n) (fun k => k < i * n))); first exact: agree_alloc.
  move=> i a b hi Hab; apply: rres_mono.
    apply: (rfor (I := fun j => agree (m * n) (fun k => k < i * n + j))); first by rewrite addn0.
    move=> j a' b' hj Hab'; rewrite !H; try by lia.
    apply: rbind_same => x _; apply: rset Hab' _ => k kn; lia.
  by rewrite max0n mulSn addnC.
by rewrite max0n => a b Hab; apply: agree_full Hab _.
Qed.
