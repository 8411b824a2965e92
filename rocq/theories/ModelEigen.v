(** * ModelEigen: src/decomp/eigen.rs and SVD::direct (src/decomp/svd.rs:452-497)

    hqr2 works with isize index variables.  Here they are [nat]: wherever the
    code subtracts from an index, the comment at the definition says why the
    difference is not negative, or [usub] (which panics) is used where the
    negative index would make the bounds check fail. *)
From mathcomp Require Import all_ssreflect.
From Verif Require Import Base Scalar ModelMatrix ModelHypot ModelLU ModelSVD.

Set Implicit Arguments.
Unset Strict Implicit.
Unset Printing Implicit Defensive.

Section Eigen.
Variable S : scalar.
Local Notation zero := (n_zero S).
Local Notation one := (n_one S).
Local Notation "x +. y" := (n_add (n:=S) x y) (at level 50, left associativity).
Local Notation "x -. y" := (n_sub (n:=S) x y) (at level 50, left associativity).
Local Notation "x *. y" := (n_mul (n:=S) x y) (at level 40, left associativity).
Local Notation "-. x" := (n_neg (n:=S) x) (at level 35, right associativity).

(** eigen.rs:24-29 *)
Record eigen := Eigen { eg_n : nat; eg_d : seq S; eg_e : seq S; eg_v : mat S }.

(** ** tred2 (eigen.rs:33-138): Householder reduction to tridiagonal form.
    State (ddata, vdata, edata). *)
Definition td_state := (seq S * seq S * seq S)%type.

(** eigen.rs:36-38; [n - 1] is only evaluated when [0 < n] *)
Definition tred2_init (n : nat) (d v : seq S) : res (seq S) :=
  for_ 0 n (fun j d => x <-- vget v ((n - 1) * n + j) ;; vset d j x) d.

(** eigen.rs:43-47 *)
Definition tred2_scale (i : nat) (d : seq S) : res S :=
  for_ 0 i (fun k sc => x <-- vget d k ;; Ok (sc +. s_abs x)) zero.

(** eigen.rs:49-54: nothing to eliminate in this row *)
Definition tred2_skip (n i : nat) (st : td_state) : res td_state :=
  let '(d, v, e) := st in
  x <-- vget d (i - 1) ;;
  e <-- vset e i x ;;
  '(d, v) <-- for_ 0 i (fun j st =>
      let '(d, v) := st in
      x <-- vget v ((i - 1) * n + j) ;;
      d <-- vset d j x ;;
      v <-- vset v (i * n + j) zero ;;
      v <-- vset v (j * n + i) zero ;;
      Ok (d, v)) (d, v) ;;
  Ok (d, v, e).

(** eigen.rs:57-60 and 44: scale the row; returns (ddata, h) *)
Definition tred2_scaled (i : nat) (scale : S) (d : seq S) : res (seq S * S) :=
  for_ 0 i (fun k st =>
    let '(d, h) := st in
    x <-- vget d k ;;
    q <-- n_div x scale ;;
    d <-- vset d k q ;;
    Ok (d, h +. q *. q)) (d, zero).

(** eigen.rs:74-84: the product of the (lower triangle of the) matrix with
    the Householder vector; state (vdata, edata) *)
Definition tred2_matvec (n i : nat) (d v e : seq S) : res (seq S * seq S) :=
  for_ 0 i (fun j st =>
    let '(v, e) := st in
    f <-- vget d j ;;
    v <-- vset v (j * n + i) f ;;
    ej <-- vget e j ;;
    vjj <-- vget v (j * n + j) ;;
    '(g, e) <-- for_ (j + 1) i (fun k st =>
        let '(g, e) := st in
        vkj <-- vget v (k * n + j) ;;
        dk <-- vget d k ;;
        ek <-- vget e k ;;
        e <-- vset e k (ek +. vkj *. f) ;;
        Ok (g +. vkj *. dk, e)) (ej +. vjj *. f, e) ;;
    e <-- vset e j g ;;
    Ok (v, e)) (v, e).

(** eigen.rs:85-93: divide by h, and subtract the multiple hh of the vector *)
Definition tred2_correct (i : nat) (h : S) (d e : seq S) : res (seq S) :=
  '(e, f) <-- for_ 0 i (fun j st =>
      let '(e, f) := st in
      ej <-- vget e j ;;
      q <-- n_div ej h ;;
      e <-- vset e j q ;;
      dj <-- vget d j ;;
      Ok (e, f +. q *. dj)) (e, zero) ;;
  hh <-- n_div f (h +. h) ;;
  for_ 0 i (fun j e =>
    ej <-- vget e j ;;
    dj <-- vget d j ;;
    vset e j (ej -. hh *. dj)) e.

(** eigen.rs:94-103: the rank-two update; state (ddata, vdata) *)
Definition tred2_update (n i : nat) (e : seq S) (d v : seq S) : res (seq S * seq S) :=
  for_ 0 i (fun j st =>
    let '(d, v) := st in
    f <-- vget d j ;;
    g <-- vget e j ;;
    v <-- for_ j i (fun k v =>
        orig <-- vget v (k * n + j) ;;
        ek <-- vget e k ;;
        dk <-- vget d k ;;
        vset v (k * n + j) (orig -. (f *. ek +. g *. dk))) v ;;
    x <-- vget v ((i - 1) * n + j) ;;
    d <-- vset d j x ;;
    v <-- vset v (i * n + j) zero ;;
    Ok (d, v)) (d, v).

(** eigen.rs:41-105: one step of the reduction *)
Definition tred2_step (n i : nat) (st : td_state) : res td_state :=
  let '(d, v, e) := st in
  scale <-- tred2_scale i d ;;
  '(d, v, e, h) <--
    (if s_eqb scale zero then
       '(d, v, e) <-- tred2_skip n i (d, v, e) ;;
       Ok (d, v, e, zero)
     else
       '(d, h) <-- tred2_scaled i scale d ;;
       f <-- vget d (i - 1) ;;
       g <-- s_sqrt h ;;
       let g := if s_ltb zero f then -. g else g in
       e <-- vset e i (scale *. g) ;;
       let h := h -. f *. g in
       d <-- vset d (i - 1) (f -. g) ;;
       e <-- for_ 0 i (fun j e => vset e j zero) e ;;
       '(v, e) <-- tred2_matvec n i d v e ;;
       e <-- tred2_correct i h d e ;;
       '(d, v) <-- tred2_update n i e d v ;;
       Ok (d, v, e, h)) ;;
  d <-- vset d i h ;;
  Ok (d, v, e).

(** eigen.rs:108-131: accumulate one transformation; state (ddata, vdata) *)
Definition tred2_acc (n i : nat) (st : seq S * seq S) : res (seq S * seq S) :=
  let '(d, v) := st in
  orig <-- vget v (i * n + i) ;;
  v <-- vset v ((n - 1) * n + i) orig ;;
  v <-- vset v (i * n + i) one ;;
  h <-- vget d (i + 1) ;;
  '(d, v) <--
    (if ~~ s_eqb h zero then
       d <-- for_ 0 (i + 1) (fun k d =>
           x <-- vget v (k * n + (i + 1)) ;;
           q <-- n_div x h ;;
           vset d k q) d ;;
       v <-- for_ 0 (i + 1) (fun j v =>
           g <-- for_ 0 (i + 1) (fun k g =>
               x <-- vget v (k * n + (i + 1)) ;;
               y <-- vget v (k * n + j) ;;
               Ok (g +. x *. y)) zero ;;
           for_ 0 (i + 1) (fun k v =>
               orig <-- vget v (k * n + j) ;;
               dk <-- vget d k ;;
               vset v (k * n + j) (orig -. g *. dk)) v) v ;;
       Ok (d, v)
     else Ok (d, v)) ;;
  v <-- for_ 0 (i + 1) (fun k v => vset v (k * n + (i + 1)) zero) v ;;
  Ok (d, v).

(** eigen.rs:132-135; state (ddata, vdata) *)
Definition tred2_last (n : nat) (d v : seq S) : res (seq S * seq S) :=
  for_ 0 n (fun j st =>
    let '(d, v) := st in
    x <-- vget v ((n - 1) * n + j) ;;
    d <-- vset d j x ;;
    v <-- vset v ((n - 1) * n + j) zero ;;
    Ok (d, v)) (d, v).

(** eigen.rs:33-138 *)
Definition tred2 (n : nat) (d v e : seq S) : res td_state :=
  d <-- tred2_init n d v ;;
  '(d, v, e) <-- for_rev 1 n (tred2_step n) (d, v, e) ;;
  n1 <-- usub n 1 ;;
  '(d, v) <-- for_ 0 n1 (tred2_acc n) (d, v) ;;
  '(d, v) <-- tred2_last n d v ;;
  v <-- vset v (n1 * n + n1) one ;;
  e <-- vset e 0 zero ;;
  Ok (d, v, e).

(** ** tql2 (eigen.rs:141-245): symmetric tridiagonal QL algorithm.
    State (edata, ddata, vdata). *)
Definition tq_state := (seq S * seq S * seq S)%type.

(** eigen.rs:144-147 *)
Definition tql2_shift (n : nat) (e : seq S) : res (seq S) :=
  e <-- for_ 1 n (fun i e => x <-- vget e i ;; vset e (i - 1) x) e ;;
  n1 <-- usub n 1 ;;
  vset e n1 zero.

(** eigen.rs:155-161: the first m >= l with |e[m]| <= bound, else n *)
Definition tql2_find (n l : nat) (bound : S) (e : seq S) : res nat :=
  c <-- forc l n (fun m (_ : unit) =>
      x <-- vget e m ;;
      if s_leb (s_abs x) bound then Ok (Stop m) else Ok (Next tt)) tt ;;
  Ok (match c with Next _ => n | Stop m => m end).

(** eigen.rs:205-209 *)
Definition tql2_rot (n i : nat) (c s : S) (v : seq S) : res (seq S) :=
  for_ 0 n (fun k v =>
    h <-- vget v (k * n + (i + 1)) ;;
    x <-- vget v (k * n + i) ;;
    v <-- vset v (k * n + (i + 1)) (s *. x +. c *. h) ;;
    x <-- vget v (k * n + i) ;;
    vset v (k * n + i) (c *. x -. s *. h)) v.

(** Scalars of the implicit QL sweep that live across its iterations. *)
Record qlvars := QLVars { ql_p : S; ql_c : S; ql_c2 : S; ql_c3 : S; ql_s : S; ql_s2 : S }.

(** eigen.rs:190-210: one rotation of the sweep *)
Definition tql2_sweep (n i : nat) (st : seq S * seq S * seq S * qlvars)
  : res (seq S * seq S * seq S * qlvars) :=
  let '(e, d, v, q) := st in
  let c3 := ql_c2 q in
  let c2 := ql_c q in
  let s2 := ql_s q in
  ei <-- vget e i ;;
  let g := ql_c q *. ei in
  let h := ql_c q *. ql_p q in
  r <-- hypot (ql_p q) ei ;;
  e <-- vset e (i + 1) (ql_s q *. r) ;;
  ei <-- vget e i ;;
  s <-- n_div ei r ;;
  c <-- n_div (ql_p q) r ;;
  di <-- vget d i ;;
  let p := c *. di -. s *. g in
  d <-- vset d (i + 1) (h +. s *. (c *. g +. s *. di)) ;;
  v <-- tql2_rot n i c s v ;;
  Ok (e, d, v, QLVars p c c2 c3 s s2).

(** eigen.rs:166-219: one pass of the [loop]; state (edata, ddata, vdata, f).
    [bound] is eps * tst1. *)
Definition tql2_iter (n l m : nat) (bound : S) (st : seq S * seq S * seq S * S)
  : res (ctl (seq S * seq S * seq S * S) (seq S * seq S * seq S * S)) :=
  let '(e, d, v, f) := st in
  g <-- vget d l ;;
  dl1 <-- vget d (l + 1) ;;
  el <-- vget e l ;;
  p <-- n_div (dl1 -. g) (s_two S *. el) ;;
  r <-- hypot p one ;;
  let r := if s_ltb p zero then -. r else r in
  x <-- n_div el (p +. r) ;;
  d <-- vset d l x ;;
  d <-- vset d (l + 1) (el *. (p +. r)) ;;
  dl1 <-- vget d (l + 1) ;;
  dl <-- vget d l ;;
  let h := g -. dl in
  d <-- for_ (l + 2) n (fun i d => x <-- vget d i ;; vset d i (x -. h)) d ;;
  let f := f +. h in
  p <-- vget d m ;;
  el1 <-- vget e (l + 1) ;;
  '(e, d, v, q) <-- for_rev l m (tql2_sweep n)
       (e, d, v, QLVars p one one one zero zero) ;;
  el <-- vget e l ;;
  p <-- n_div (-. ql_s q *. ql_s2 q *. ql_c3 q *. el1 *. el) dl1 ;;
  e <-- vset e l (ql_s q *. p) ;;
  d <-- vset d l (ql_c q *. p) ;;
  el <-- vget e l ;;
  if s_leb (s_abs el) bound then Ok (Stop (e, d, v, f)) else Ok (Next (e, d, v, f)).

(** eigen.rs:152-224: one eigenvalue; state (edata, ddata, vdata, f, tst1) *)
Definition tql2_step (fuel n l : nat) (st : seq S * seq S * seq S * S * S)
  : res (seq S * seq S * seq S * S * S) :=
  let '(e, d, v, f, tst1) := st in
  dl <-- vget d l ;;
  el <-- vget e l ;;
  let tst1 := s_max tst1 (s_abs dl +. s_abs el) in
  let bound := s_eps S *. tst1 in
  m <-- tql2_find n l bound e ;;
  '(e, d, v, f) <--
    (if l < m then loop_ fuel (tql2_iter n l m bound) (e, d, v, f)
     else Ok (e, d, v, f)) ;;
  dl <-- vget d l ;;
  d <-- vset d l (dl +. f) ;;
  e <-- vset e l zero ;;
  Ok (e, d, v, f, tst1).

(** eigen.rs:229-235: position and value of the largest d[j], j >= i *)
Definition tql2_argmax (n i : nat) (d : seq S) : res (nat * S) :=
  p <-- vget d i ;;
  for_ (i + 1) n (fun j st =>
    let '(k, p) := st in
    x <-- vget d j ;;
    Ok (if s_ltb p x then (j, x) else (k, p))) (i, p).

(** eigen.rs:227-245: selection sort, decreasing; state (ddata, vdata) *)
Definition tql2_sort (n : nat) (d v : seq S) : res (seq S * seq S) :=
  n1 <-- usub n 1 ;;
  for_ 0 n1 (fun i st =>
    let '(d, v) := st in
    '(k, p) <-- tql2_argmax n i d ;;
    if k != i then
      di <-- vget d i ;;
      d <-- vset d k di ;;
      d <-- vset d i p ;;
      v <-- for_ 0 n (fun j v =>
          p <-- vget v (j * n + i) ;;
          x <-- vget v (j * n + k) ;;
          v <-- vset v (j * n + i) x ;;
          vset v (j * n + k) p) v ;;
      Ok (d, v)
    else Ok (d, v)) (d, v).

(** eigen.rs:141-246 *)
Definition tql2 (fuel n : nat) (e d v : seq S) : res tq_state :=
  e <-- tql2_shift n e ;;
  '(e, d, v, _, _) <-- for_ 0 n (tql2_step fuel n) (e, d, v, zero, zero) ;;
  '(d, v) <-- tql2_sort n d v ;;
  Ok (e, d, v).

(** ** orthes (eigen.rs:249-331): reduction to Hessenberg form *)

(** eigen.rs:260-263 *)
Definition orthes_scale (n m : nat) (h : seq S) : res S :=
  for_ m n (fun i sc => x <-- vget h (i * n + (m - 1)) ;; Ok (sc +. s_abs x)) zero.

(** eigen.rs:266-270: state (ort, h) *)
Definition orthes_vec (n m : nat) (scale : S) (hdata ort : seq S) : res (seq S * S) :=
  for_rev m n (fun i st =>
    let '(ort, h) := st in
    x <-- vget hdata (i * n + (m - 1)) ;;
    q <-- n_div x scale ;;
    ort <-- vset ort i q ;;
    Ok (ort, h +. q *. q)) (ort, zero).

(** eigen.rs:280-289: apply the reflection from the left to columns m.. *)
Definition orthes_left (n m : nat) (h : S) (ort hdata : seq S) : res (seq S) :=
  for_ m n (fun j hdata =>
    f <-- for_rev m n (fun i f =>
        u <-- vget ort i ;;
        x <-- vget hdata (i * n + j) ;;
        Ok (f +. u *. x)) zero ;;
    f <-- n_div f h ;;
    for_ m n (fun i hdata =>
        x <-- vget hdata (i * n + j) ;;
        u <-- vget ort i ;;
        vset hdata (i * n + j) (x -. f *. u)) hdata) hdata.

(** eigen.rs:291-300: apply it from the right to all rows *)
Definition orthes_right (n m : nat) (h : S) (ort hdata : seq S) : res (seq S) :=
  for_ 0 n (fun i hdata =>
    f <-- for_rev m n (fun j f =>
        u <-- vget ort j ;;
        x <-- vget hdata (i * n + j) ;;
        Ok (f +. u *. x)) zero ;;
    f <-- n_div f h ;;
    for_ m n (fun j hdata =>
        x <-- vget hdata (i * n + j) ;;
        u <-- vget ort j ;;
        vset hdata (i * n + j) (x -. f *. u)) hdata) hdata.

(** eigen.rs:258-304: one column; state (hdata, ort) *)
Definition orthes_step (n m : nat) (st : seq S * seq S) : res (seq S * seq S) :=
  let '(hdata, ort) := st in
  scale <-- orthes_scale n m hdata ;;
  if ~~ s_eqb scale zero then
    '(ort, h) <-- orthes_vec n m scale hdata ort ;;
    om <-- vget ort m ;;
    g <-- s_sqrt h ;;
    let g := if s_ltb zero om then -. g else g in
    let h := h -. om *. g in
    ort <-- vset ort m (om -. g) ;;
    hdata <-- orthes_left n m h ort hdata ;;
    hdata <-- orthes_right n m h ort hdata ;;
    om <-- vget ort m ;;
    ort <-- vset ort m (scale *. om) ;;
    hdata <-- vset hdata (m * n + (m - 1)) (scale *. g) ;;
    Ok (hdata, ort)
  else Ok (hdata, ort).

(** eigen.rs:307-311 *)
Definition orthes_id (n : nat) (v : seq S) : res (seq S) :=
  for_ 0 n (fun i v =>
    for_ 0 n (fun j v => vset v (i * n + j) (if i == j then one else zero)) v) v.

(** eigen.rs:313-330: accumulate one transformation; state (ort, vdata) *)
Definition orthes_acc (n : nat) (hdata : seq S) (m : nat) (st : seq S * seq S)
  : res (seq S * seq S) :=
  let '(ort, v) := st in
  x <-- vget hdata (m * n + (m - 1)) ;;
  if ~~ s_eqb x zero then
    ort <-- for_ (m + 1) n (fun i ort =>
        x <-- vget hdata (i * n + (m - 1)) ;; vset ort i x) ort ;;
    v <-- for_ m n (fun j v =>
        g <-- for_ m n (fun i g =>
            u <-- vget ort i ;;
            x <-- vget v (i * n + j) ;;
            Ok (g +. u *. x)) zero ;;
        om <-- vget ort m ;;
        g <-- n_div g om ;;
        hm <-- vget hdata (m * n + (m - 1)) ;;
        g <-- n_div g hm ;;
        for_ m n (fun i v =>
            x <-- vget v (i * n + j) ;;
            u <-- vget ort i ;;
            vset v (i * n + j) (x +. g *. u)) v) v ;;
    Ok (ort, v)
  else Ok (ort, v).

(** eigen.rs:249-331; low = 0, high = n - 1, so [high + 1] is [n];
    returns (hdata, vdata) *)
Definition orthes (n : nat) (gort : nat -> S) (hdata v : seq S) : res (seq S * seq S) :=
  let ort := alloc_dirty_vec gort n in
  high <-- usub n 1 ;;
  '(hdata, ort) <-- for_ 1 high (orthes_step n) (hdata, ort) ;;
  v <-- orthes_id n v ;;
  '(ort, v) <-- for_rev 1 high (orthes_acc n hdata) (ort, v) ;;
  Ok (hdata, v).

(** ** cdiv (eigen.rs:334-344): complex division *)
Definition cdiv (xr xi yr yi : S) : res (S * S) :=
  if s_ltb (s_abs yi) (s_abs yr) then
    r <-- n_div yi yr ;;
    let d := yr +. r *. yi in
    a <-- n_div (xr +. r *. xi) d ;;
    b <-- n_div (xi -. r *. xr) d ;;
    Ok (a, b)
  else
    r <-- n_div yr yi ;;
    let d := yi +. r *. yr in
    a <-- n_div (r *. xr +. xi) d ;;
    b <-- n_div (r *. xi -. xr) d ;;
    Ok (a, b).

(** ** hqr2 (eigen.rs:347-753): Hessenberg to real Schur form, eigenvectors.
    [nn] is the order of the matrix ([nn] in the code as well). *)

(** Element (i, j) of a matrix stored in a vector: hdata[i * nn + j]. *)
Definition at2 (nn : nat) (h : seq S) (i j : nat) : res S := vget h (i * nn + j).
Definition set2 (nn : nat) (h : seq S) (i j : nat) (x : S) : res (seq S) :=
  vset h (i * nn + j) x.

(** eigen.rs:369-378: the norm; the branch [i < low || i > high] is dead
    because low = 0 and high = nn - 1.  [max(i-1, 0)] is [i - 1] on nat. *)
Definition hqr2_norm (nn : nat) (h : seq S) : res S :=
  for_ 0 nn (fun i nrm =>
    for_ (i - 1) nn (fun j nrm => x <-- at2 nn h i j ;; Ok (nrm +. s_abs x)) nrm) zero.

(** eigen.rs:385-395: look for a small subdiagonal element, from l = n *)
Fixpoint hqr2_find_l (nn : nat) (norm : S) (h : seq S) (l : nat) : res nat :=
  match l with
  | 0 => Ok 0
  | l'.+1 =>
      a <-- at2 nn h l' l' ;;
      b <-- at2 nn h l l ;;
      let s := s_abs a +. s_abs b in
      let s := if s_eqb s zero then norm else s in
      x <-- at2 nn h l l' ;;
      if s_ltb (s_abs x) (s_eps S *. s) then Ok l else hqr2_find_l nn norm h l'
  end.

(** State of the QR iteration; [hq_n1] is n + 1 (0 when n = -1). *)
Record hq := HQ { hq_d : seq S; hq_e : seq S; hq_h : seq S; hq_v : seq S;
                  hq_ex : S; hq_n1 : nat; hq_iter : nat }.

(** eigen.rs:399-405: one root *)
Definition hqr2_one (nn n : nat) (st : hq) : res hq :=
  x <-- at2 nn (hq_h st) n n ;;
  h <-- set2 nn (hq_h st) n n (x +. hq_ex st) ;;
  x <-- at2 nn h n n ;;
  d <-- vset (hq_d st) n x ;;
  e <-- vset (hq_e st) n zero ;;
  Ok (HQ d e h (hq_v st) (hq_ex st) n 0).

(** eigen.rs:434-438, 441-445, 448-452: the plane rotation on rows or columns
    a, b: z = x_a; x_a = q z + p x_b; x_b = q x_b - p z *)
Definition hqr2_rot_rows (nn lo hi a b : nat) (p q : S) (h : seq S) : res (seq S) :=
  for_ lo hi (fun j h =>
    z <-- at2 nn h a j ;;
    y <-- at2 nn h b j ;;
    h <-- set2 nn h a j (q *. z +. p *. y) ;;
    y <-- at2 nn h b j ;;
    set2 nn h b j (q *. y -. p *. z)) h.
Definition hqr2_rot_cols (nn lo hi a b : nat) (p q : S) (h : seq S) : res (seq S) :=
  for_ lo hi (fun i h =>
    z <-- at2 nn h i a ;;
    y <-- at2 nn h i b ;;
    h <-- set2 nn h i a (q *. z +. p *. y) ;;
    y <-- at2 nn h i b ;;
    set2 nn h i b (q *. y -. p *. z)) h.

(** eigen.rs:406-462: two roots; here l = n - 1, hence 1 <= n *)
Definition hqr2_two (nn n : nat) (st : hq) : res hq :=
  let h := hq_h st in
  a <-- at2 nn h n (n - 1) ;;
  b <-- at2 nn h (n - 1) n ;;
  let w := a *. b in
  a <-- at2 nn h (n - 1) (n - 1) ;;
  b <-- at2 nn h n n ;;
  p <-- n_div (a -. b) (s_two S) ;;
  let q := p *. p +. w in
  z <-- s_sqrt (s_abs q) ;;
  h <-- set2 nn h n n (b +. hq_ex st) ;;
  a <-- at2 nn h (n - 1) (n - 1) ;;
  h <-- set2 nn h (n - 1) (n - 1) (a +. hq_ex st) ;;
  x <-- at2 nn h n n ;;
  if s_leb zero q then
    let z := if s_leb zero p then p +. z else p -. z in
    d <-- vset (hq_d st) (n - 1) (x +. z) ;;
    dn <-- vget d (n - 1) ;;
    d <-- vset d n dn ;;
    d <-- (if ~~ s_eqb z zero then wz <-- n_div w z ;; vset d n (x -. wz) else Ok d) ;;
    e <-- vset (hq_e st) (n - 1) zero ;;
    e <-- vset e n zero ;;
    x <-- at2 nn h n (n - 1) ;;
    let s := s_abs x +. s_abs z in
    p <-- n_div x s ;;
    q <-- n_div z s ;;
    r <-- s_sqrt (p *. p +. q *. q) ;;
    p <-- n_div p r ;;
    q <-- n_div q r ;;
    h <-- hqr2_rot_rows nn (n - 1) nn (n - 1) n p q h ;;
    h <-- hqr2_rot_cols nn 0 (n + 1) (n - 1) n p q h ;;
    v <-- hqr2_rot_cols nn 0 nn (n - 1) n p q (hq_v st) ;;
    Ok (HQ d e h v (hq_ex st) (n - 1) 0)
  else
    d <-- vset (hq_d st) (n - 1) (x +. p) ;;
    d <-- vset d n (x +. p) ;;
    e <-- vset (hq_e st) (n - 1) z ;;
    e <-- vset e n (-. z) ;;
    Ok (HQ d e h (hq_v st) (hq_ex st) (n - 1) 0).

(** eigen.rs:478-481, 500-502: subtract x from the diagonal *)
Definition hqr2_sub_diag (nn n : nat) (x : S) (h : seq S) : res (seq S) :=
  for_ 0 (n + 1) (fun i h => y <-- at2 nn h i i ;; set2 nn h i i (y -. x)) h.

(** eigen.rs:466-510: the shift; here l < n - 1, so 2 <= n.
    Result (hdata, exshift, x, y, w). *)
Definition hqr2_shift (nn n iter : nat) (h : seq S) (ex : S)
  : res (seq S * S * S * S * S) :=
  x <-- at2 nn h n n ;;
  y <-- at2 nn h (n - 1) (n - 1) ;;
  a <-- at2 nn h n (n - 1) ;;
  b <-- at2 nn h (n - 1) n ;;
  let w := a *. b in
  '(h, ex, x, y, w) <--
    (if iter == 10 then
       h <-- hqr2_sub_diag nn n x h ;;
       a <-- at2 nn h n (n - 1) ;;
       b <-- at2 nn h (n - 1) (n - 2) ;;
       let s := s_abs a +. s_abs b in
       let y := s_c075 S *. s in
       Ok (h, ex +. x, y, y, s_cm04375 S *. s *. s)
     else Ok (h, ex, x, y, w)) ;;
  if iter == 30 then
    s <-- n_div (y -. x) (s_two S) ;;
    let s := s *. s +. w in
    if s_ltb zero s then
      s <-- s_sqrt s ;;
      let s := if s_ltb y x then -. s else s in
      t <-- n_div (y -. x) (s_two S) ;;
      q <-- n_div w (t +. s) ;;
      let s := x -. q in
      h <-- hqr2_sub_diag nn n s h ;;
      Ok (h, ex +. s, s_c0964 S, s_c0964 S, s_c0964 S)
    else Ok (h, ex, x, y, w)
  else Ok (h, ex, x, y, w).

(** eigen.rs:515-536: look for two consecutive small subdiagonal elements,
    m = n-2 downto l.  [c] is m - l; the search stops at m = l at the latest.
    Result (m, p, q, r). *)
Fixpoint hqr2_find_m (nn l c : nat) (x y w : S) (h : seq S) : res (nat * S * S * S) :=
  let m := l + c in
  z <-- at2 nn h m m ;;
  let r := x -. z in
  let s := y -. z in
  a <-- at2 nn h (m + 1) m ;;
  t <-- n_div (r *. s -. w) a ;;
  b <-- at2 nn h m (m + 1) ;;
  let p := t +. b in
  zm1 <-- at2 nn h (m + 1) (m + 1) ;;
  let q := zm1 -. z -. r -. s in
  r <-- at2 nn h (m + 2) (m + 1) ;;
  let s := s_abs p +. s_abs q +. s_abs r in
  p <-- n_div p s ;;
  q <-- n_div q s ;;
  r <-- n_div r s ;;
  match c with
  | 0 => Ok (m, p, q, r)
  | c'.+1 =>
      a <-- at2 nn h m (m - 1) ;;
      b <-- at2 nn h (m - 1) (m - 1) ;;
      if s_ltb (s_abs a *. (s_abs q +. s_abs r))
               (s_eps S *. (s_abs p *. (s_abs b +. s_abs z +. s_abs zm1)))
      then Ok (m, p, q, r)
      else hqr2_find_m nn l c' x y w h
  end.

(** eigen.rs:538-543 *)
Definition hqr2_clear (nn m n : nat) (h : seq S) : res (seq S) :=
  for_ (m + 2) (n + 1) (fun i h =>
    h <-- set2 nn h i (i - 2) zero ;;
    if m + 2 < i then set2 nn h i (i - 3) zero else Ok h) h.

(** eigen.rs:573-581: row modification *)
Definition hqr2_rows (nn k : nat) (notlast : bool) (q r x y z : S) (h : seq S) : res (seq S) :=
  for_ k nn (fun j h =>
    a <-- at2 nn h k j ;;
    b <-- at2 nn h (k + 1) j ;;
    let p := a +. q *. b in
    '(p, h) <--
      (if notlast then
         c <-- at2 nn h (k + 2) j ;;
         let p := p +. r *. c in
         h <-- set2 nn h (k + 2) j (c -. p *. z) ;;
         Ok (p, h)
       else Ok (p, h)) ;;
    a <-- at2 nn h k j ;;
    h <-- set2 nn h k j (a -. p *. x) ;;
    b <-- at2 nn h (k + 1) j ;;
    set2 nn h (k + 1) j (b -. p *. y)) h.

(** eigen.rs:584-592 and 595-603: column modification of rows 0..hi *)
Definition hqr2_cols (nn hi k : nat) (notlast : bool) (q r x y z : S) (h : seq S)
  : res (seq S) :=
  for_ 0 hi (fun i h =>
    a <-- at2 nn h i k ;;
    b <-- at2 nn h i (k + 1) ;;
    let p := x *. a +. y *. b in
    '(p, h) <--
      (if notlast then
         c <-- at2 nn h i (k + 2) ;;
         let p := p +. z *. c in
         h <-- set2 nn h i (k + 2) (c -. p *. r) ;;
         Ok (p, h)
       else Ok (p, h)) ;;
    a <-- at2 nn h i k ;;
    h <-- set2 nn h i k (a -. p) ;;
    b <-- at2 nn h i (k + 1) ;;
    set2 nn h i (k + 1) (b -. p *. q)) h.

(** eigen.rs:557-604: one reflection of the double QR step; (p, q, r) are the
    (scaled) components, x the scale.  State (hdata, vdata). *)
Definition hqr2_reflect (nn n l m k : nat) (p q r x : S) (h v : seq S)
  : res (seq S * seq S) :=
  let notlast := k != n - 1 in
  s <-- s_sqrt (p *. p +. q *. q +. r *. r) ;;
  let s := if s_ltb p zero then -. s else s in
  if ~~ s_eqb s zero then
    h <-- (if k != m then set2 nn h k (k - 1) (-. s *. x)
           else if l != m then
             y <-- at2 nn h k (k - 1) ;; set2 nn h k (k - 1) (-. y)
           else Ok h) ;;
    let p := p +. s in
    x <-- n_div p s ;;
    y <-- n_div q s ;;
    z <-- n_div r s ;;
    q <-- n_div q p ;;
    r <-- n_div r p ;;
    h <-- hqr2_rows nn k notlast q r x y z h ;;
    h <-- hqr2_cols nn (minn n (k + 3) + 1) k notlast q r x y z h ;;
    v <-- hqr2_cols nn nn k notlast q r x y z v ;;
    Ok (h, v)
  else Ok (h, v).

(** eigen.rs:546-606: the double QR step.  [x] on entry is only read after it
    has been assigned.  State (hdata, vdata). *)
Definition hqr2_qr (nn n l m : nat) (p q r x : S) (h v : seq S) : res (seq S * seq S) :=
  for_ m n (fun k st =>
    let '(h, v) := st in
    let notlast := k != n - 1 in
    if k != m then
      p <-- at2 nn h k (k - 1) ;;
      q <-- at2 nn h (k + 1) (k - 1) ;;
      r <-- (if notlast then at2 nn h (k + 2) (k - 1) else Ok zero) ;;
      let x := s_abs p +. s_abs q +. s_abs r in
      if s_eqb x zero then Ok (h, v)
      else
        p <-- n_div p x ;;
        q <-- n_div q x ;;
        r <-- n_div r x ;;
        hqr2_reflect nn n l m k p q r x h v
    else hqr2_reflect nn n l m k p q r x h v) (h, v).

(** eigen.rs:463-607: no convergence yet *)
Definition hqr2_more (nn n l : nat) (st : hq) : res hq :=
  '(h, ex, x, y, w) <-- hqr2_shift nn n (hq_iter st) (hq_h st) (hq_ex st) ;;
  '(m, p, q, r) <-- hqr2_find_m nn l (n - 2 - l) x y w h ;;
  h <-- hqr2_clear nn m n h ;;
  '(h, v) <-- hqr2_qr nn n l m p q r x h (hq_v st) ;;
  Ok (HQ (hq_d st) (hq_e st) h v ex (hq_n1 st) (hq_iter st + 1)).

(** eigen.rs:382-608: one pass of the outer loop *)
Definition hqr2_iter (nn : nat) (norm : S) (st : hq) : res (ctl hq hq) :=
  if hq_n1 st == 0 then Ok (Stop st)
  else
    let n := hq_n1 st - 1 in
    l <-- hqr2_find_l nn norm (hq_h st) n ;;
    if l == n then st <-- hqr2_one nn n st ;; Ok (Next st)
    else if l == n - 1 then st <-- hqr2_two nn n st ;; Ok (Next st)
    else st <-- hqr2_more nn n l st ;; Ok (Next st).

(** eigen.rs:657-664: overflow control of a real vector *)
Definition hqr2_scale1 (nn i n : nat) (h : seq S) : res (seq S) :=
  x <-- at2 nn h i n ;;
  let t := s_abs x in
  if s_ltb one (s_eps S *. t *. t) then
    for_ i (n + 1) (fun j h =>
      x <-- at2 nn h j n ;; q <-- n_div x t ;; set2 nn h j n q) h
  else Ok h.

(** eigen.rs:622-666: back substitution of a real vector, one i; state
    (hdata, l, z, s).  [z], [s] are the variables the code reuses; at the
    start they hold a value left over from an earlier computation. *)
Definition hqr2_real_row (nn n : nat) (p norm : S) (d e : seq S)
    (i : nat) (st : seq S * nat * S * S) : res (seq S * nat * S * S) :=
  let '(h, l, z, s) := st in
  a <-- at2 nn h i i ;;
  let w := a -. p in
  r <-- for_ l (n + 1) (fun j r =>
      x <-- at2 nn h i j ;; y <-- at2 nn h j n ;; Ok (r +. x *. y)) zero ;;
  ei <-- vget e i ;;
  if s_ltb ei zero then Ok (h, l, w, r)
  else
    h <--
      (if s_eqb ei zero then
         if ~~ s_eqb w zero then x <-- n_div (-. r) w ;; set2 nn h i n x
         else x <-- n_div (-. r) (s_eps S *. norm) ;; set2 nn h i n x
       else
         x <-- at2 nn h i (i + 1) ;;
         y <-- at2 nn h (i + 1) i ;;
         di <-- vget d i ;;
         let q := (di -. p) *. (di -. p) +. ei *. ei in
         t <-- n_div (x *. s -. z *. r) q ;;
         h <-- set2 nn h i n t ;;
         if s_ltb (s_abs z) (s_abs x) then
           u <-- n_div (-. r -. w *. t) x ;; set2 nn h (i + 1) n u
         else
           u <-- n_div (-. s -. y *. t) z ;; set2 nn h (i + 1) n u) ;;
    h <-- hqr2_scale1 nn i n h ;;
    Ok (h, i, z, s).

(** eigen.rs:618-667 *)
Definition hqr2_real (nn n : nat) (p norm z s : S) (d e h : seq S) : res (seq S) :=
  h <-- set2 nn h n n one ;;
  '(h, _, _, _) <-- for_rev 0 n (hqr2_real_row nn n p norm d e) (h, n, z, s) ;;
  Ok h.

(** eigen.rs:722-729: overflow control of a complex vector; [n] is >= 1 *)
Definition hqr2_scale2 (nn i n : nat) (h : seq S) : res (seq S) :=
  x <-- at2 nn h i (n - 1) ;;
  y <-- at2 nn h i n ;;
  let t := s_max (s_abs x) (s_abs y) in
  if s_ltb one (s_eps S *. t *. t) then
    for_ i (n + 1) (fun j h =>
      x <-- at2 nn h j (n - 1) ;;
      q <-- n_div x t ;;
      h <-- set2 nn h j (n - 1) q ;;
      x <-- at2 nn h j n ;;
      q <-- n_div x t ;;
      set2 nn h j n q) h
  else Ok h.

(** eigen.rs:682-730: back substitution of a complex vector, one i; state
    (hdata, l, z, r, s) *)
Definition hqr2_cplx_row (nn n : nat) (p q norm : S) (d e : seq S)
    (i : nat) (st : seq S * nat * S * S * S) : res (seq S * nat * S * S * S) :=
  let '(h, l, z, r, s) := st in
  '(ra, sa) <-- for_ l (n + 1) (fun j st =>
      let '(ra, sa) := st in
      x <-- at2 nn h i j ;;
      y <-- at2 nn h j (n - 1) ;;
      u <-- at2 nn h j n ;;
      Ok (ra +. x *. y, sa +. x *. u)) (zero, zero) ;;
  a <-- at2 nn h i i ;;
  let w := a -. p in
  ei <-- vget e i ;;
  if s_ltb ei zero then Ok (h, l, w, ra, sa)
  else
    h <--
      (if s_eqb ei zero then
         '(cr, ci) <-- cdiv (-. ra) (-. sa) w q ;;
         h <-- set2 nn h i (n - 1) cr ;;
         set2 nn h i n ci
       else
         x <-- at2 nn h i (i + 1) ;;
         y <-- at2 nn h (i + 1) i ;;
         di <-- vget d i ;;
         let vr := (di -. p) *. (di -. p) +. ei *. ei -. q *. q in
         let vi := (di -. p) *. s_two S *. q in
         let vr := if s_eqb vr zero && s_eqb vi zero then
                     s_eps S *. norm *. (s_abs w +. s_abs q +. s_abs x +. s_abs y +. s_abs z)
                   else vr in
         '(cr, ci) <-- cdiv (x *. r -. z *. ra +. q *. sa) (x *. s -. z *. sa -. q *. ra) vr vi ;;
         h <-- set2 nn h i (n - 1) cr ;;
         h <-- set2 nn h i n ci ;;
         a <-- at2 nn h i (n - 1) ;;
         b <-- at2 nn h i n ;;
         if s_ltb (s_abs z +. s_abs q) (s_abs x) then
           u <-- n_div (-. ra -. w *. a +. q *. b) x ;;
           h <-- set2 nn h (i + 1) (n - 1) u ;;
           a <-- at2 nn h i (n - 1) ;;
           b <-- at2 nn h i n ;;
           u <-- n_div (-. sa -. w *. b -. q *. a) x ;;
           set2 nn h (i + 1) n u
         else
           '(cr, ci) <-- cdiv (-. r -. y *. a) (-. s -. y *. b) z q ;;
           h <-- set2 nn h (i + 1) (n - 1) cr ;;
           set2 nn h (i + 1) n ci) ;;
    h <-- hqr2_scale2 nn i n h ;;
    Ok (h, i, z, r, s).

(** eigen.rs:668-731; for n = 0 the code computes a negative index, whose
    bounds check fails: [usub] *)
Definition hqr2_cplx (nn n : nat) (p q norm z r s : S) (d e h : seq S) : res (seq S) :=
  n1 <-- usub n 1 ;;
  a <-- at2 nn h n n1 ;;
  b <-- at2 nn h n1 n ;;
  h <--
    (if s_ltb (s_abs b) (s_abs a) then
       x <-- n_div q a ;;
       h <-- set2 nn h n1 n1 x ;;
       c <-- at2 nn h n n ;;
       a <-- at2 nn h n n1 ;;
       x <-- n_div (-. (c -. p)) a ;;
       set2 nn h n1 n x
     else
       c <-- at2 nn h n1 n1 ;;
       '(cr, ci) <-- cdiv zero (-. b) (c -. p) q ;;
       h <-- set2 nn h n1 n1 cr ;;
       set2 nn h n1 n ci) ;;
  h <-- set2 nn h n n1 zero ;;
  h <-- set2 nn h n n one ;;
  '(h, _, _, _, _) <-- for_rev 0 n1 (hqr2_cplx_row nn n p q norm d e) (h, n1, z, r, s) ;;
  Ok h.

(** eigen.rs:614-733: back substitution.  [gz n], [gr n], [gs n] stand for the
    values the reused variables z, r, s hold when the vectors of eigenvalue n
    are started; theorems quantify over all of them. *)
Definition hqr2_back (nn : nat) (norm : S) (gz gr gs : nat -> S) (d e h : seq S) : res (seq S) :=
  for_rev 0 nn (fun n h =>
    p <-- vget d n ;;
    q <-- vget e n ;;
    if s_eqb q zero then hqr2_real nn n p norm (gz n) (gs n) d e h
    else if s_ltb q zero then hqr2_cplx nn n p q norm (gz n) (gr n) (gs n) d e h
    else Ok h) h.

(** eigen.rs:736-753: back transformation (the loop over isolated roots is
    dead because low = 0, high = nn - 1; min(j, high) = j) *)
Definition hqr2_trans (nn : nat) (h v : seq S) : res (seq S) :=
  for_rev 0 nn (fun j v =>
    for_ 0 nn (fun i v =>
      z <-- for_ 0 (j + 1) (fun k z =>
          x <-- at2 nn v i k ;; y <-- at2 nn h k j ;; Ok (z +. x *. y)) zero ;;
      set2 nn v i j z) v) v.

(** eigen.rs:347-753; returns (ddata, edata, vdata) *)
Definition hqr2 (fuel nn : nat) (gz gr gs : nat -> S) (d e h v : seq S)
  : res (seq S * seq S * seq S) :=
  norm <-- hqr2_norm nn h ;;
  st <-- loop_ fuel (hqr2_iter nn norm) (HQ d e h v zero nn 0) ;;
  if s_eqb norm zero then Ok (hq_d st, hq_e st, hq_v st)
  else
    h <-- hqr2_back nn norm gz gr gs (hq_d st) (hq_e st) (hq_h st) ;;
    v <-- hqr2_trans nn h (hq_v st) ;;
    Ok (hq_d st, hq_e st, v).

(** ** EigenDecomposition::new and the getters *)

(** eigen.rs:762-771: exact comparison of a(i,j) and a(j,i), i and j < cols *)
Definition eigen_symmetric (n : nat) (a : mat S) : res bool :=
  for_ 0 n (fun j sym =>
    if sym then
      for_ 0 n (fun i sym =>
        if sym then
          x <-- get a i j ;;
          y <-- get a j i ;;
          Ok (s_eqb x y)
        else Ok sym) sym
    else Ok sym) true.

(** eigen.rs:774-778 / 795-799: copy the leading cols x cols part *)
Definition eigen_copy (n : nat) (a : mat S) (v : seq S) : res (seq S) :=
  for_ 0 n (fun i v =>
    for_ 0 n (fun j v => x <-- get a i j ;; vset v (i * n + j) x) v) v.
Definition eigen_copy_t (n : nat) (a : mat S) (h : seq S) : res (seq S) :=
  for_ 0 n (fun j h =>
    for_ 0 n (fun i h => x <-- get a i j ;; vset h (i * n + j) x) h) h.

(** eigen.rs:755-814 *)
Definition eigen_new (fuel : nat) (gv gd ge gh gort gz gr gs : nat -> S) (a : mat S)
  : res eigen :=
  n <-- cols a ;;
  let v := alloc_dirty_vec gv (n * n) in
  let d := alloc_dirty_vec gd n in
  let e := alloc_dirty_vec ge n in
  sym <-- eigen_symmetric n a ;;
  if sym then
    v <-- eigen_copy n a v ;;
    '(d, v, e) <-- tred2 n d v e ;;
    '(e, d, v) <-- tql2 fuel n e d v ;;
    vm <-- new n n v ;;
    Ok (Eigen n d e vm)
  else
    h <-- eigen_copy_t n a (alloc_dirty_vec gh (n * n)) ;;
    '(h, v) <-- orthes n gort h v ;;
    '(d, e, v) <-- hqr2 fuel n gz gr gs d e h v ;;
    vm <-- new n n v ;;
    Ok (Eigen n d e vm).

(** eigen.rs:822-838 *)
Definition eigen_get_d (g : nat -> S) (x : eigen) : res (mat S) :=
  let n := eg_n x in
  ddata <-- for_ 0 n (fun i dd =>
      dd <-- for_ 0 n (fun j dd => vset dd (i * n + j) zero) dd ;;
      di <-- vget (eg_d x) i ;;
      dd <-- vset dd (i * n + i) di ;;
      ei <-- vget (eg_e x) i ;;
      if s_ltb zero ei then vset dd (i * n + (i + 1)) ei
      else if s_ltb ei zero then i1 <-- usub i 1 ;; vset dd (i * n + i1) ei
      else Ok dd) (alloc_dirty_vec g (n * n)) ;;
  new n n ddata.

(** ** SVD::direct (svd.rs:454-497) *)

(** [eigs.iter().map(|&e| e.sqrt())] (svd.rs:472) *)
Fixpoint sqrt_all (xs : seq S) : res (seq S) :=
  match xs with
  | [::] => Ok [::]
  | x :: xs' => y <-- s_sqrt x ;; ys <-- sqrt_all xs' ;; Ok (y :: ys)
  end.

(** svd.rs:468-497, for rows >= cols; [ge] are the allocations of
    EigenDecomposition::new, [gp] the pivot vector of inverse, [g] the others *)
Definition svd_direct_tall (fuel : nat) (ge g : nat -> nat -> S) (gp : nat -> nat)
    (a : mat S) : res (svd S) :=
  at_ <-- t (g 0) a ;;
  ata <-- mul (N:=S) (g 1) at_ a ;;
  edc <-- eigen_new fuel (ge 0) (ge 1) (ge 2) (ge 3) (ge 4) (ge 5) (ge 6) (ge 7) ata ;;
  let v := eg_v edc in
  sv <-- sqrt_all (eg_d edc) ;;
  let k := size sv in
  s <-- block_diag (N:=S) (g 2) k k sv ;;
  s_inv <-- inverse (S:=S) gp (g 3) (g 4) s ;;
  match s_inv with
  | None => Err Panic
  | Some s_inv =>
      n <-- cols a ;;
      '(s_aug, s_inv_aug) <--
        (if rows a == n then Ok (s, s_inv)
         else
           d <-- usub (rows a) n ;;
           sc <-- cols s ;;
           z1 <-- ModelMatrix.zero (N:=S) (g 6) d sc ;;
           s' <-- cb (g 7) s z1 ;;
           z2 <-- ModelMatrix.zero (N:=S) (g 8) (rows s_inv) d ;;
           s_inv' <-- cr (g 9) s_inv z2 ;;
           Ok (s', s_inv')) ;;
      av <-- mul (N:=S) (g 10) a v ;;
      u <-- mul (N:=S) (g 11) av s_inv_aug ;;
      Ok (SVDec u s_aug v)
  end.

(** svd.rs:454-466: a wide matrix is transposed first (the recursive call then
    has rows > cols) *)
Definition svd_direct (fuel : nat) (ge g : nat -> nat -> S) (gp : nat -> nat)
    (gt1 gt2 : nat -> S) (a : mat S) : res (svd S) :=
  n <-- cols a ;;
  if rows a < n then
    at_ <-- t gt1 a ;;
    d <-- svd_direct_tall fuel ge g gp at_ ;;
    s' <-- t gt2 (svd_s d) ;;
    Ok (SVDec (svd_v d) s' (svd_u d))
  else svd_direct_tall fuel ge g gp a.

End Eigen.
