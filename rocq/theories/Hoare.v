(** * Hoare: reasoning rules for the language of Base.v.

    [wpe E m Q]: if [m] returns a value, it satisfies [Q]; if it fails, the
    error is one [E] allows.  [wp] allows no error at all; [wpp] allows only
    running out of fuel. *)
From mathcomp Require Import all_ssreflect zify.
From Verif Require Import Base.

Set Implicit Arguments.
Unset Strict Implicit.
Unset Printing Implicit Defensive.

Definition wpe (E : err -> Prop) A (m : res A) (Q : A -> Prop) : Prop :=
  match m with Ok a => Q a | Err e => E e end.
Definition noerr (e : err) : Prop := False.
Definition fuelerr (e : err) : Prop := e = OutOfFuel.
Notation wp := (wpe noerr).
Notation wpp := (wpe fuelerr).

Lemma wp_ex A (m : res A) (Q : A -> Prop) : wp m Q <-> exists2 a, m = Ok a & Q a.
Proof.
split; first by case: m => //= a qa; exists a.
by case=> a -> qa.
Qed.

Section Rules.
Variable E : err -> Prop.
Variables A B R : Type.
Implicit Types Q : A -> Prop.

Lemma wpe_ok Q (a : A) : Q a -> wpe E (Ok a) Q.
Proof. by []. Qed.

Lemma wpe_mono (m : res A) (Q Q' : A -> Prop) :
  (forall a, Q a -> Q' a) -> wpe E m Q -> wpe E m Q'.
Proof. by move=> qq'; case: m => //= a; apply: qq'. Qed.

Lemma wpe_conj (m : res A) (Q Q' : A -> Prop) :
  wpe E m Q -> wpe E m Q' -> wpe E m (fun a => Q a /\ Q' a).
Proof. by case: m. Qed.

Lemma wpe_bind (m : res A) (k : A -> res B) (Q : B -> Prop) :
  wpe E m (fun a => wpe E (k a) Q) -> wpe E (bind m k) Q.
Proof. by case: m. Qed.

Lemma wpe_bind2 (m : res A) (k : A -> res B) (P : A -> Prop) (Q : B -> Prop) :
  wpe E m P -> (forall a, P a -> wpe E (k a) Q) -> wpe E (bind m k) Q.
Proof. by case: m => //= a pa; apply. Qed.

Lemma wpe_req (b : bool) (m : res A) Q : b -> wpe E m Q -> wpe E (require b m) Q.
Proof. by move=> ->. Qed.

End Rules.

Section LoopRules.
Variable E : err -> Prop.
Variables A R : Type.
Implicit Types Q : A -> Prop.

Lemma for_n_ind (I : nat -> A -> Prop) n lo (body : nat -> A -> res A) s :
  I lo s ->
  (forall i s, lo <= i < lo + n -> I i s -> wpe E (body i s) (I i.+1)) ->
  wpe E (for_n n lo body s) (I (lo + n)).
Proof.
elim: n lo s => [|n IH] lo s I0 step /=; first by rewrite addn0.
apply: wpe_bind; have := step lo s _ I0.
move=> /(_ _)/wpe_mono; apply; last by lia.
move=> s' Is'; rewrite addnS -addSn; apply: IH => // i s'' hi; apply: step; lia.
Qed.

Lemma wpe_for (I : nat -> A -> Prop) lo hi (body : nat -> A -> res A) s Q :
  lo <= hi -> I lo s ->
  (forall i s, lo <= i < hi -> I i s -> wpe E (body i s) (I i.+1)) ->
  (forall s, I hi s -> Q s) ->
  wpe E (for_ lo hi body s) Q.
Proof.
move=> le I0 step fin.
have := @for_n_ind I (hi - lo) lo body s I0; rewrite subnKC //.
by move=> H; apply: wpe_mono (H _) => // i s' hi'; apply: step.
Qed.

Lemma forr_n_ind (I : nat -> A -> Prop) n lo (body : nat -> A -> res A) s :
  I (lo + n) s ->
  (forall i s, lo <= i < lo + n -> I i.+1 s -> wpe E (body i s) (I i)) ->
  wpe E (forr_n n lo body s) (I lo).
Proof.
elim: n s => [|n IH] s I0 step /=; first by rewrite -(addn0 lo).
apply: wpe_bind; have := step (lo + n) s _; rewrite -addnS => /(_ _ I0).
move=> /(_ _)/wpe_mono; apply; last by lia.
move=> s' Is'; apply: IH => // i s'' hi; apply: step; lia.
Qed.

Lemma wpe_for_rev (I : nat -> A -> Prop) lo hi (body : nat -> A -> res A) s Q :
  lo <= hi -> I hi s ->
  (forall i s, lo <= i < hi -> I i.+1 s -> wpe E (body i s) (I i)) ->
  (forall s, I lo s -> Q s) ->
  wpe E (for_rev lo hi body s) Q.
Proof.
move=> le I0 step fin.
have := @forr_n_ind I (hi - lo) lo body s; rewrite subnKC //.
by move=> H; apply: wpe_mono (H _ _) => // i s' hi'; apply: step.
Qed.

Lemma forc_n_ind (I : nat -> A -> Prop) (J : R -> Prop) n lo
    (body : nat -> A -> res (ctl A R)) s :
  I lo s ->
  (forall i s, lo <= i < lo + n -> I i s ->
     wpe E (body i s) (fun c => match c with Next s' => I i.+1 s' | Stop r => J r end)) ->
  wpe E (forc_n n lo body s)
    (fun c => match c with Next s' => I (lo + n) s' | Stop r => J r end).
Proof.
elim: n lo s => [|n IH] lo s I0 step /=; first by rewrite addn0.
apply: wpe_bind; have := step lo s _ I0.
move=> /(_ _)/wpe_mono; apply; last by lia.
case=> [s' Is'|r Jr] //=.
rewrite addnS -addSn; apply: IH => // i s'' hi; apply: step; lia.
Qed.

Lemma wpe_forc (I : nat -> A -> Prop) (J : R -> Prop) lo hi
    (body : nat -> A -> res (ctl A R)) s (Q : ctl A R -> Prop) :
  lo <= hi -> I lo s ->
  (forall i s, lo <= i < hi -> I i s ->
     wpe E (body i s) (fun c => match c with Next s' => I i.+1 s' | Stop r => J r end)) ->
  (forall s, I hi s -> Q (Next s)) -> (forall r, J r -> Q (Stop r)) ->
  wpe E (forc lo hi body s) Q.
Proof.
move=> le I0 step fin finr.
have := @forc_n_ind I J (hi - lo) lo body s I0; rewrite subnKC // => H.
by apply: wpe_mono (H _); [case | move=> i s' hi'; apply: step].
Qed.

End LoopRules.

(** Partial-correctness rule for [loop]. *)
Lemma wpp_loop A R (I : A -> Prop) (J : R -> Prop) fuel
    (body : A -> res (ctl A R)) s (Q : R -> Prop) :
  I s ->
  (forall s, I s ->
     wpp (body s) (fun c => match c with Next s' => I s' | Stop r => J r end)) ->
  (forall r, J r -> Q r) ->
  wpp (loop_ fuel body s) Q.
Proof.
elim: fuel s => [|f IH] s I0 step fin //=.
apply: wpe_bind; apply: wpe_mono (step s I0); case=> [s' Is'|r Jr] /=.
  exact: IH.
exact: fin.
Qed.

(** Partial-correctness rule for [loop] with an iteration counter. *)
Lemma wpp_loop_count A R (I : nat -> A -> Prop) (J : nat -> R -> Prop) fuel
    (body : A -> res (ctl A R)) k s (Q : R -> Prop) :
  I k s ->
  (forall k s, I k s ->
     wpp (body s) (fun c => match c with Next s' => I k.+1 s' | Stop r => J k r end)) ->
  (forall k' r, k <= k' < k + fuel -> J k' r -> Q r) ->
  wpp (loop_ fuel body s) Q.
Proof.
elim: fuel k s => [|f IH] k s I0 step fin //=.
apply: wpe_bind; apply: wpe_mono (step k s I0); case=> [s' Is'|r Jr] /=.
  by apply: IH Is' step _ => k' r' hk; apply: fin; lia.
by apply: fin Jr; lia.
Qed.

(** Total rule for [loop] with a decreasing measure. *)
Lemma wp_loop A R (I : nat -> A -> Prop) fuel (body : A -> res (ctl A R)) k s (Q : R -> Prop) :
  k < fuel -> I k s ->
  (forall k s, I k s ->
     wp (body s) (fun c => match c with
                           | Next s' => exists2 k', k' < k & I k' s' | Stop r => Q r end)) ->
  wp (loop_ fuel body s) Q.
Proof.
move=> kf I0 step; elim: fuel k s kf I0 => [|f IH] k s //= kf I0.
apply: wpe_bind; apply: wpe_mono (step k s I0); case=> [s' [k' kk' Is']|r Jr] //=.
apply: IH Is'; lia.
Qed.

(** ** Loop equations *)
Lemma for_eq A lo hi (b1 b2 : nat -> A -> res A) s :
  (forall i s, lo <= i < hi -> b1 i s = b2 i s) -> for_ lo hi b1 s = for_ lo hi b2 s.
Proof.
move=> H; rewrite /for_.
have {}H : forall i s, lo <= i < lo + (hi - lo) -> b1 i s = b2 i s.
  by move=> i s' hi'; apply: H; lia.
move: (hi - lo) H => n; elim: n lo s => [|n IH] lo s //= H.
rewrite H; last by lia.
by case: (b2 lo s) => //= s'; apply: IH => i s'' h; apply: H; lia.
Qed.

Lemma for_nil A lo hi (b : nat -> A -> res A) s : hi <= lo -> for_ lo hi b s = Ok s.
Proof. by rewrite /for_ -subn_eq0 => /eqP ->. Qed.

Lemma for_recl A lo hi (b : nat -> A -> res A) s :
  lo < hi -> for_ lo hi b s = bind (b lo s) (for_ lo.+1 hi b).
Proof. by move=> h; rewrite /for_; have -> : hi - lo = (hi - lo.+1).+1 by lia. Qed.

Lemma for_n_recr A n lo (b : nat -> A -> res A) s :
  for_n n.+1 lo b s = bind (for_n n lo b s) (b (lo + n)).
Proof.
elim: n lo s => [|n IH] lo s; first by rewrite /= addn0; case: (b lo s).
transitivity (bind (b lo s) (for_n n.+1 lo.+1 b)); first by [].
rewrite [for_n n.+1 lo b s]/=; case: (b lo s) => //= s'.
by rewrite -addSnnS; apply: IH.
Qed.

Lemma for_recr A lo hi (b : nat -> A -> res A) s :
  lo <= hi -> for_ lo hi.+1 b s = bind (for_ lo hi b s) (b hi).
Proof. by move=> h; rewrite /for_ subSn // for_n_recr subnKC. Qed.

(** A body that fails at some point the loop reaches makes the loop fail. *)
Lemma wpe_for_err A (E : err -> Prop) (I : nat -> A -> Prop) lo hi k
    (body : nat -> A -> res A) s :
  lo <= k < hi -> I lo s ->
  (forall i s, lo <= i < k -> I i s -> wpe E (body i s) (I i.+1)) ->
  (forall s, I k s -> wpe E (body k s) (fun _ => False)) ->
  wpe E (for_ lo hi body s) (fun _ => False).
Proof.
move=> hk I0 step bad.
have main : wpe E (for_ lo k.+1 body s) (fun _ => False).
  rewrite for_recr; last by lia.
  apply: wpe_bind; apply: (wpe_for (I:=I)) => //; lia.
have [d ->] : exists d, hi = k.+1 + d by exists (hi - k.+1); lia.
elim: d => [|d IH]; first by rewrite addn0.
rewrite addnS for_recr; last by lia.
by apply: wpe_bind; apply: wpe_mono IH.
Qed.

(** ** Vectors *)
Section Vec.
Variable T : Type.
Implicit Types (v d : seq T).

Lemma vgetE x0 v i : i < size v -> vget v i = Ok (nth x0 v i).
Proof. by elim: v i => [|x v IH] [|i] //=; apply: IH. Qed.

Lemma vget_oob v i : size v <= i -> vget v i = Err Panic.
Proof. by elim: v i => [|x v IH] [|i] //=; apply: IH. Qed.

Lemma vget_ok v i x : vget v i = Ok x -> i < size v.
Proof. by elim: v i => [|y v IH] [|i] //=; apply: IH. Qed.

Lemma size_upd v i x : size (upd v i x) = size v.
Proof. by elim: v i => [|y v IH] [|i] //=; rewrite IH. Qed.

Lemma vget_upd v i x k : i < size v ->
  vget (upd v i x) k = if k == i then Ok x else vget v k.
Proof. by elim: v i k => [|y v IH] [|i] [|k] //= h; rewrite IH. Qed.

Lemma vsetE v i x : i < size v -> vset v i x = Ok (upd v i x).
Proof. by rewrite /vset => ->. Qed.

Lemma vset_oob v i x : size v <= i -> vset v i x = Err Panic.
Proof. by rewrite /vset ltnNge => ->. Qed.

Lemma wpe_vset E v i x (Q : seq T -> Prop) :
  i < size v -> Q (upd v i x) -> wpe E (vset v i x) Q.
Proof. by move=> h; rewrite vsetE. Qed.

Lemma vget_ext v w : size v = size w ->
  (forall i, i < size v -> vget v i = vget w i) -> v = w.
Proof.
elim: v w => [|x v IH] [|y w] //= [sz] H.
have [->] : Ok x = Ok y by apply: (H 0).
by congr cons; apply: IH => // i hi; apply: (H i.+1).
Qed.

Lemma vget_mkseq (f : nat -> T) n i : i < n -> vget (mkseq f n) i = Ok (f i).
Proof. by move=> h; rewrite (vgetE (f 0)) ?size_mkseq // nth_mkseq. Qed.

Lemma vget_cat v w i :
  vget (v ++ w) i = if i < size v then vget v i else vget w (i - size v).
Proof. by elim: v i => [|x v IH] [|i] //=; rewrite ?subn0 // IH. Qed.

Lemma vget_nseq n (x : T) i : i < n -> vget (nseq n x) i = Ok x.
Proof. by elim: n i => [|n IH] [|i] //=; apply: IH. Qed.

Lemma size_alloc (g : nat -> T) n : size (alloc_dirty_vec g n) = n.
Proof. by rewrite size_mkseq. Qed.

(** One-dimensional view: the vector holds f 0, .., f (n-1). *)
Definition repr1 n v (f : nat -> T) : Prop :=
  size v = n /\ forall i, i < n -> vget v i = Ok (f i).

Lemma repr1_get n v f i : repr1 n v f -> i < n -> vget v i = Ok (f i).
Proof. by case=> _; apply. Qed.

Lemma repr1_size n v f : repr1 n v f -> size v = n.
Proof. by case. Qed.

Lemma repr1_ext n v f f' : repr1 n v f -> (forall i, i < n -> f i = f' i) -> repr1 n v f'.
Proof. by case=> sz H ff'; split=> // i hi; rewrite H // ff'. Qed.

Lemma repr1_upd n v f f' i x : repr1 n v f -> i < n ->
  (forall k, k < n -> f' k = if k == i then x else f k) ->
  repr1 n (upd v i x) f'.
Proof.
case=> sz H hi ff'; split=> [|k hk]; first by rewrite size_upd.
by rewrite vget_upd ?sz // ff' //; case: ifP => // _; rewrite H.
Qed.

Lemma repr1_mkseq n f : repr1 n (mkseq f n) f.
Proof. by split=> [|i hi]; rewrite ?size_mkseq // vget_mkseq. Qed.

Lemma repr1_eq n v f : repr1 n v f -> v = mkseq f n.
Proof.
case=> sz H; apply: vget_ext => [|i]; rewrite ?size_mkseq // sz => hi.
by rewrite H // vget_mkseq.
Qed.

Lemma repr1_nth x0 v : repr1 (size v) v (nth x0 v).
Proof. by split=> // i hi; rewrite (vgetE x0). Qed.

(** Two-dimensional view: an m x n row-major array with element (i,j) = f i j. *)
Definition repr m n v (f : nat -> nat -> T) : Prop :=
  size v = m * n /\ forall i j, i < m -> j < n -> vget v (i * n + j) = Ok (f i j).

Lemma idx_lt m n i j : i < m -> j < n -> i * n + j < m * n.
Proof. by move=> hi hj; nia. Qed.

Lemma idx_inj n i j i' j' : j < n -> j' < n ->
  (i * n + j == i' * n + j') = (i == i') && (j == j').
Proof.
move=> hj hj'; apply/eqP/andP => [e|[/eqP -> /eqP ->]] //.
have n0 : 0 < n by lia.
have ei : i = i'.
  have /(congr1 (divn^~ n)) := e.
  by rewrite !divnMDl // !divn_small // !addn0.
have ej : j = j' by move: e; rewrite ei => /addnI.
by rewrite ei ej !eqxx.
Qed.

Lemma idx_divmod m n k : k < m * n -> [/\ k = k %/ n * n + k %% n, k %/ n < m & k %% n < n].
Proof.
move=> h; have n0 : 0 < n by case: n h => [|n]; rewrite ?muln0.
by rewrite -divn_eq ltn_divLR // ltn_pmod.
Qed.

Lemma repr_get m n v f i j : repr m n v f -> i < m -> j < n ->
  vget v (i * n + j) = Ok (f i j).
Proof. by case=> _; apply. Qed.

Lemma repr_size m n v f : repr m n v f -> size v = m * n.
Proof. by case. Qed.

Lemma repr_ext m n v f f' : repr m n v f ->
  (forall i j, i < m -> j < n -> f i j = f' i j) -> repr m n v f'.
Proof. by case=> sz H ff'; split=> // i j hi hj; rewrite H // ff'. Qed.

Lemma repr_upd m n v f f' i j x : repr m n v f -> i < m -> j < n ->
  (forall i' j', i' < m -> j' < n -> f' i' j' = if (i' == i) && (j' == j) then x else f i' j') ->
  repr m n (upd v (i * n + j) x) f'.
Proof.
case=> sz H hi hj ff'; split=> [|i' j' hi' hj']; first by rewrite size_upd.
rewrite vget_upd ?sz ?idx_lt // idx_inj // ff' //.
by case: ifP => // _; rewrite H.
Qed.

Lemma wpe_repr_set E m n v f i j x (Q : seq T -> Prop) :
  repr m n v f -> i < m -> j < n ->
  (forall v', repr m n v' (fun i' j' => if (i' == i) && (j' == j) then x else f i' j') -> Q v') ->
  wpe E (vset v (i * n + j) x) Q.
Proof.
move=> H hi hj HQ; apply: wpe_vset; first by rewrite (repr_size H) idx_lt.
by apply: HQ; apply: repr_upd H _ _ _.
Qed.

(** every vector of the right size has a view (given a default element) *)
Lemma repr_nth x0 m n v : size v = m * n -> repr m n v (fun i j => nth x0 v (i * n + j)).
Proof. by move=> sz; split=> // i j hi hj; rewrite (vgetE x0) // sz idx_lt. Qed.

Lemma repr_inj m n v w f g : repr m n v f -> repr m n w g ->
  (forall i j, i < m -> j < n -> f i j = g i j) -> v = w.
Proof.
move=> [sv Hv] [sw Hw] fg; apply: vget_ext; first by rewrite sv.
move=> k; rewrite sv => hk; have [e hi hj] := idx_divmod hk.
rewrite e; move: (k %/ n) (k %% n) hi hj => i j hi hj.
by rewrite Hv // Hw // fg.
Qed.

(** a vector can be read as a matrix with one column or one row *)
Lemma repr1_col n v f : repr1 n v f <-> repr n 1 v (fun i _ => f i).
Proof.
split; case=> sz H; split.
- by rewrite muln1.
- by move=> i [|//] hi _; rewrite muln1 addn0 H.
- by rewrite sz muln1.
- by move=> i hi; have := H i 0 hi erefl; rewrite muln1 addn0.
Qed.

Lemma repr_flat m n v f : repr m n v f ->
  repr1 (m * n) v (fun k => f (k %/ n) (k %% n)).
Proof.
case=> sz H; split=> // k hk; have [e hi hj] := idx_divmod hk.
by rewrite {1}e H.
Qed.

Lemma flat_repr m n v f : repr1 (m * n) v f -> repr m n v (fun i j => f (i * n + j)).
Proof. by case=> sz H; split=> // i j hi hj; rewrite H // idx_lt. Qed.

End Vec.

(** Filling a vector completely: [for i in 0..n { d[i] = f(i) }]. *)
Lemma for_fill T n (f : nat -> T) (body : nat -> seq T -> res (seq T)) d :
  size d = n ->
  (forall i d, i < n -> size d = n -> body i d = vset d i (f i)) ->
  for_ 0 n body d = Ok (mkseq f n).
Proof.
move=> sz H.
suff /wp_ex [a -> /repr1_eq ->] : wp (for_ 0 n body d) (fun a => repr1 n a f) by [].
apply: (wpe_for (I := fun k a => size a = n /\ forall i, i < k -> vget a i = Ok (f i))) => //.
- move=> i s /= hi [sz' Is]; rewrite H //.
  apply: wpe_vset; rewrite ?sz' //; split; rewrite ?size_upd // => k hk.
  rewrite vget_upd ?sz' //; case: eqP => [->//|ne]; apply: Is; lia.
Qed.

(** The first [k] entries of a vector of length [n] have been written. *)
Section Pre.
Variable T : Type.
Definition pre1 n k (v : seq T) (f : nat -> T) : Prop :=
  size v = n /\ forall i, i < k -> vget v i = Ok (f i).

Lemma pre1_0 n (g : nat -> T) f : pre1 n 0 (alloc_dirty_vec g n) f.
Proof. by split=> //; rewrite size_alloc. Qed.

Lemma pre1_full n v f : pre1 n n v f -> repr1 n v f.
Proof. by []. Qed.

Lemma wpe_pre1_set E n k v f x (Q : seq T -> Prop) :
  pre1 n k v f -> k < n -> x = f k ->
  (forall v', pre1 n k.+1 v' f -> Q v') -> wpe E (vset v k x) Q.
Proof.
move=> [sz H] hk -> HQ; apply: wpe_vset; first by rewrite sz.
apply: HQ; split; first by rewrite size_upd.
move=> i hi; rewrite vget_upd ?sz //; case: eqP => [->//|ne]; apply: H; lia.
Qed.
End Pre.

(** A computation that certainly panics. *)
Definition panicerr (e : err) : Prop := e = Panic.
Lemma panicP A (m : res A) : wpe panicerr m (fun _ => False) -> m = Err Panic.
Proof. by case: m => //= e ->. Qed.

Lemma flat_at T n (G : nat -> nat -> T) i j : j < n ->
  G ((i * n + j) %/ n) ((i * n + j) %% n) = G i j.
Proof.
move=> hj; rewrite divnMDl ?modnMDl ?(modn_small hj) ?(divn_small hj) ?addn0 //; lia.
Qed.

Lemma pre1_repr T m n (v : seq T) G :
  pre1 (m * n) (m * n) v (fun k => G (k %/ n) (k %% n)) -> repr m n v G.
Proof.
move=> [sz H]; split=> // i j hi hj; rewrite H ?idx_lt //.
by rewrite flat_at.
Qed.

(** [for i in 0..n { if p(i) { v.push(i) } }] *)
Lemma for_filter (p : nat -> bool) (body : nat -> seq nat -> res (seq nat)) n :
  (forall i rs, i < n -> body i rs = Ok (if p i then rcons rs i else rs)) ->
  for_ 0 n body [::] = Ok (filter p (iota 0 n)).
Proof.
elim: n => [|n IH] H //; rewrite for_recr // IH; last first.
  by move=> i rs hi; apply: H; lia.
rewrite -[in RHS]addn1 iotaD filter_cat add0n [bind _ _]/= H //=.
by case: (p n); rewrite ?cats0 // -cats1.
Qed.

Arguments wpe_pre1_set {T E n k v f x Q}.
Arguments wpe_vset {T E v i x Q}.
Arguments wpe_repr_set {T E m n v f i j x Q}.
Arguments wpe_for {E A} I {lo hi body s Q}.
Arguments wpe_for_rev {E A} I {lo hi body s Q}.
Arguments wpe_for_err {A E} I {lo hi} k {body s}.
Arguments wpe_forc {E A R} I J {lo hi body s Q}.
