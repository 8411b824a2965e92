(** * ModelSVD: src/decomp/svd.rs

    The isize loop variables that can become -1 (k, ks, j in svd.rs:241-296)
    are kept as their successor, which is a [nat]; each place says so. *)
From mathcomp Require Import all_ssreflect.
From Verif Require Import Base Scalar ModelMatrix ModelHypot.

Set Implicit Arguments.
Unset Strict Implicit.
Unset Printing Implicit Defensive.

Section SVD.
Variable S : scalar.
Local Notation zero := (n_zero S).
Local Notation one := (n_one S).

(** svd.rs:23-27 *)
Record svd := SVDec { svd_u : mat S; svd_s : mat S; svd_v : mat S }.

(** [for i in lo..hi { v[i*w+c] = f(v[i*w+c]) }] for the scalings of one column *)
Definition col_update (lo hi w c : nat) (f : S -> res S) (v : seq S) : res (seq S) :=
  for_ lo hi (fun i v =>
    x <-- vget v (i * w + c) ;;
    y <-- f x ;;
    vset v (i * w + c) y) v.

(** Dot product of columns c1, c2 of v over rows lo..hi (svd.rs:90-93, 176-179, 208-211) *)
Definition col_dot (lo hi w c1 c2 : nat) (v : seq S) : res S :=
  for_ lo hi (fun i t =>
    x <-- vget v (i * w + c1) ;;
    y <-- vget v (i * w + c2) ;;
    Ok (n_add t (n_mul x y))) zero.

(** v[i][c2] += t * v[i][c1] over rows lo..hi (svd.rs:95-97, 181-183, 213-215) *)
Definition col_axpy (lo hi w c1 c2 : nat) (t : S) (v : seq S) : res (seq S) :=
  for_ lo hi (fun i v =>
    y <-- vget v (i * w + c2) ;;
    x <-- vget v (i * w + c1) ;;
    vset v (i * w + c2) (n_add y (n_mul t x))) v.

(** svd.rs:68-86: k-th column transformation; state (adata, sdata) *)
Definition svd_col_house (m n k : nat) (adata sdata : seq S) : res (seq S * seq S) :=
  sdata <-- vset sdata k zero ;;
  sdata <-- for_ k m (fun i sdata =>
      s <-- vget sdata k ;;
      x <-- vget adata (i * n + k) ;;
      h <-- hypot s x ;;
      vset sdata k h) sdata ;;
  s <-- vget sdata k ;;
  '(adata, sdata) <--
    (if ~~ s_eqb s zero then
       x <-- vget adata (k * n + k) ;;
       sdata <-- (if s_ltb x zero then vset sdata k (n_neg s) else Ok sdata) ;;
       adata <-- for_ k m (fun i adata =>
           x <-- vget adata (i * n + k) ;;
           s <-- vget sdata k ;;
           q <-- n_div x s ;;
           vset adata (i * n + k) q) adata ;;
       x <-- vget adata (k * n + k) ;;
       adata <-- vset adata (k * n + k) (n_add x one) ;;
       Ok (adata, sdata)
     else Ok (adata, sdata)) ;;
  s <-- vget sdata k ;;
  sdata <-- vset sdata k (n_neg s) ;;
  Ok (adata, sdata).

(** svd.rs:87-102: apply it to the remaining columns; state (adata, edata) *)
Definition svd_col_apply (m n k nct : nat) (sdata adata edata : seq S)
  : res (seq S * seq S) :=
  for_ (k + 1) n (fun j st =>
    let '(adata, edata) := st in
    adata <--
      (if k < nct then
         s <-- vget sdata k ;;
         if ~~ s_eqb s zero then
           t <-- col_dot k m n k j adata ;;
           x <-- vget adata (k * n + k) ;;
           t <-- n_div (n_neg t) x ;;
           col_axpy k m n k j t adata
         else Ok adata
       else Ok adata) ;;
    x <-- vget adata (k * n + j) ;;
    edata <-- vset edata j x ;;
    Ok (adata, edata)) (adata, edata).

(** svd.rs:104-109 *)
Definition svd_store_u (m n k : nat) (adata udata : seq S) : res (seq S) :=
  for_ k m (fun i udata =>
    x <-- vget adata (i * n + k) ;;
    vset udata (i * m + k) x) udata.

(** svd.rs:114-127: k-th row transformation, in edata *)
Definition svd_row_house (n k : nat) (edata : seq S) : res (seq S) :=
  edata <-- vset edata k zero ;;
  edata <-- for_ (k + 1) n (fun i edata =>
      e <-- vget edata k ;;
      x <-- vget edata i ;;
      h <-- hypot e x ;;
      vset edata k h) edata ;;
  e <-- vget edata k ;;
  edata <--
    (if ~~ s_eqb e zero then
       x <-- vget edata (k + 1) ;;
       edata <-- (if s_ltb x zero then vset edata k (n_neg e) else Ok edata) ;;
       edata <-- for_ (k + 1) n (fun i edata =>
           x <-- vget edata i ;;
           e <-- vget edata k ;;
           q <-- n_div x e ;;
           vset edata i q) edata ;;
       x <-- vget edata (k + 1) ;;
       vset edata (k + 1) (n_add x one)
     else Ok edata) ;;
  e <-- vget edata k ;;
  vset edata k (n_neg e).

(** svd.rs:128-144: apply it to the remaining rows; state (adata, workdata) *)
Definition svd_row_apply (m n k : nat) (edata adata work : seq S)
  : res (seq S * seq S) :=
  e <-- vget edata k ;;
  if (k + 1 < m) && ~~ s_eqb e zero then
    work <-- for_ (k + 1) m (fun i work => vset work i zero) work ;;
    work <-- for_ (k + 1) n (fun j work =>
        for_ (k + 1) m (fun i work =>
          w <-- vget work i ;;
          e <-- vget edata j ;;
          x <-- vget adata (i * n + j) ;;
          vset work i (n_add w (n_mul e x))) work) work ;;
    adata <-- for_ (k + 1) n (fun j adata =>
        e <-- vget edata j ;;
        e1 <-- vget edata (k + 1) ;;
        t <-- n_div (n_neg e) e1 ;;
        for_ (k + 1) m (fun i adata =>
          x <-- vget adata (i * n + j) ;;
          w <-- vget work i ;;
          vset adata (i * n + j) (n_add x (n_mul t w))) adata) adata ;;
    Ok (adata, work)
  else Ok (adata, work).

(** svd.rs:147-149 *)
Definition svd_store_v (n k : nat) (edata vdata : seq S) : res (seq S) :=
  for_ (k + 1) n (fun i vdata =>
    x <-- vget edata i ;;
    vset vdata (i * n + k) x) vdata.

(** State of the bidiagonalisation loop. *)
Record bidiag := Bidiag {
  b_a : seq S; b_s : seq S; b_u : seq S; b_v : seq S; b_e : seq S; b_w : seq S }.

(** svd.rs:67-151: one iteration *)
Definition svd_bidiag_step (m n nct nrt k : nat) (st : bidiag) : res bidiag :=
  '(adata, sdata) <--
    (if k < nct then svd_col_house m n k (b_a st) (b_s st)
     else Ok (b_a st, b_s st)) ;;
  '(adata, edata) <-- svd_col_apply m n k nct sdata adata (b_e st) ;;
  udata <-- (if k < nct then svd_store_u m n k adata (b_u st) else Ok (b_u st)) ;;
  if k < nrt then
    edata <-- svd_row_house n k edata ;;
    '(adata, work) <-- svd_row_apply m n k edata adata (b_w st) ;;
    vdata <-- svd_store_v n k edata (b_v st) ;;
    Ok (Bidiag adata sdata udata vdata edata work)
  else Ok (Bidiag adata sdata udata (b_v st) edata (b_w st)).

(** svd.rs:153-164: final bidiagonal matrix of order p; state (sdata, edata) *)
Definition svd_final_bidiag (m n nct nrt p : nat) (adata sdata edata : seq S)
  : res (seq S * seq S) :=
  sdata <-- (if nct < n then
               x <-- vget adata (nct * n + nct) ;; vset sdata nct x
             else Ok sdata) ;;
  p1 <-- usub p 1 ;;
  sdata <-- (if m < p then vset sdata p1 zero else Ok sdata) ;;
  edata <-- (if nrt + 1 < p then
               x <-- vget adata (nrt * n + p1) ;; vset edata nrt x
             else Ok edata) ;;
  edata <-- vset edata p1 zero ;;
  Ok (sdata, edata).

(** svd.rs:167-202: generate U *)
Definition svd_gen_u (m nct : nat) (sdata udata : seq S) : res (seq S) :=
  udata <-- for_ nct m (fun j udata =>
      udata <-- for_ 0 m (fun i udata => vset udata (i * m + j) zero) udata ;;
      vset udata (j * m + j) one) udata ;;
  for_rev 0 nct (fun k udata =>
    s <-- vget sdata k ;;
    if ~~ s_eqb s zero then
      udata <-- for_ (k + 1) m (fun j udata =>
          t <-- col_dot k m m k j udata ;;
          x <-- vget udata (k * m + k) ;;
          t <-- n_div (n_neg t) x ;;
          col_axpy k m m k j t udata) udata ;;
      udata <-- col_update k m m k (fun x => Ok (n_neg x)) udata ;;
      x <-- vget udata (k * m + k) ;;
      udata <-- vset udata (k * m + k) (n_add one x) ;;
      for_ 0 k (fun i udata => vset udata (i * m + k) zero) udata
    else
      udata <-- for_ 0 m (fun i udata => vset udata (i * m + k) zero) udata ;;
      vset udata (k * m + k) one) udata.

(** svd.rs:205-222: generate V *)
Definition svd_gen_v (n nrt : nat) (edata vdata : seq S) : res (seq S) :=
  for_rev 0 n (fun k vdata =>
    e <-- (if k < nrt then vget edata k else Ok zero) ;;
    vdata <--
      (if (k < nrt) && ~~ s_eqb e zero then
         for_ (k + 1) n (fun j vdata =>
           t <-- col_dot (k + 1) n n k j vdata ;;
           x <-- vget vdata ((k + 1) * n + k) ;;
           t <-- n_div (n_neg t) x ;;
           col_axpy (k + 1) n n k j t vdata) vdata
       else Ok vdata) ;;
    vdata <-- for_ 0 n (fun i vdata => vset vdata (i * n + k) zero) vdata ;;
    vset vdata (k * n + k) one) vdata.

(** svd.rs:241-248: look for a negligible e[k], k = p-2 downto 0.
    Argument and result are k+1 (0 means k = -1). *)
Fixpoint svd_find_e (k1 : nat) (sdata edata : seq S) : res (nat * seq S) :=
  match k1 with
  | 0 => Ok (0, edata)
  | k.+1 =>
      e <-- vget edata k ;;
      s <-- vget sdata k ;;
      s' <-- vget sdata (k + 1) ;;
      if s_leb (s_abs e) (n_add (s_tiny S) (n_mul (s_eps S) (n_add (s_abs s) (s_abs s'))))
      then edata <-- vset edata k zero ;; Ok (k1, edata)
      else svd_find_e k sdata edata
  end.

(** svd.rs:253-262: look for a negligible s[ks], ks = p-1 downto k+1.
    [k1] is k+1; [c] is ks-k, so ks = k1 + c - 1; the result 0 means ks = k. *)
Fixpoint svd_find_s (p k1 c : nat) (sdata edata : seq S) : res (nat * seq S) :=
  match c with
  | 0 => Ok (0, sdata)
  | c'.+1 =>
      let ks := k1 + c' in
      t1 <-- (if ks != p then e <-- vget edata ks ;; Ok (s_abs e) else Ok zero) ;;
      t2 <-- (if ks != k1 then e <-- vget edata (ks - 1) ;; Ok (s_abs e) else Ok zero) ;;
      let t := n_add t1 t2 in
      s <-- vget sdata ks ;;
      if s_leb (s_abs s) (n_add (s_tiny S) (n_mul (s_eps S) t))
      then sdata <-- vset sdata ks zero ;; Ok (c, sdata)
      else svd_find_s p k1 c' sdata edata
  end.

(** Rotation of columns j1, j2 of an (h x w)-matrix (svd.rs:290-294, 309-313,
    356-360, 371-375): t = cs*v[i][j1] + sn*v[i][j2];
    v[i][j2] = -sn*v[i][j1] + cs*v[i][j2]; v[i][j1] = t *)
Definition rot_cols (h w j1 j2 : nat) (cs sn : S) (v : seq S) : res (seq S) :=
  for_ 0 h (fun i v =>
    x <-- vget v (i * w + j1) ;;
    y <-- vget v (i * w + j2) ;;
    let t := n_add (n_mul cs x) (n_mul sn y) in
    v <-- vset v (i * w + j2) (n_add (n_mul (n_neg sn) x) (n_mul cs y)) ;;
    vset v (i * w + j1) t) v.

(** svd.rs:400-404, 407-411: swap columns k and k+1 *)
Definition swap_cols (h w k : nat) (v : seq S) : res (seq S) :=
  for_ 0 h (fun i v =>
    t <-- vget v (i * w + (k + 1)) ;;
    x <-- vget v (i * w + k) ;;
    v <-- vset v (i * w + (k + 1)) x ;;
    vset v (i * w + k) t) v.

(** State of the main iteration. *)
Record sweep := Sweep { w_s : seq S; w_e : seq S; w_u : seq S; w_v : seq S; w_p : nat }.

(** svd.rs:275-296 (kase 1): deflate negligible s(p) *)
Definition svd_kase1 (n k p : nat) (sdata edata vdata : seq S)
  : res (seq S * seq S * seq S) :=
  p2 <-- usub p 2 ;;
  f <-- vget edata p2 ;;
  edata <-- vset edata p2 zero ;;
  '(sdata, edata, vdata, _) <-- for_rev k (p - 1) (fun j st =>
      let '(sdata, edata, vdata, f) := st in
      sj <-- vget sdata j ;;
      t <-- hypot sj f ;;
      cs <-- n_div sj t ;;
      sn <-- n_div f t ;;
      sdata <-- vset sdata j t ;;
      '(edata, f) <--
        (if j != k then
           e <-- vget edata (j - 1) ;;
           let f := n_mul (n_neg sn) e in
           edata <-- vset edata (j - 1) (n_mul cs e) ;;
           Ok (edata, f)
         else Ok (edata, f)) ;;
      vdata <-- rot_cols n n j (p - 1) cs sn vdata ;;
      Ok (sdata, edata, vdata, f)) (sdata, edata, vdata, f) ;;
  Ok (sdata, edata, vdata).

(** svd.rs:297-314 (kase 2): split at negligible s(k-1) *)
Definition svd_kase2 (m k p : nat) (sdata edata udata : seq S)
  : res (seq S * seq S * seq S) :=
  k0 <-- usub k 1 ;;
  f <-- vget edata k0 ;;
  edata <-- vset edata k0 zero ;;
  '(sdata, edata, udata, _) <-- for_ k p (fun j st =>
      let '(sdata, edata, udata, f) := st in
      sj <-- vget sdata j ;;
      t <-- hypot sj f ;;
      cs <-- n_div sj t ;;
      sn <-- n_div f t ;;
      sdata <-- vset sdata j t ;;
      e <-- vget edata j ;;
      let f := n_mul (n_neg sn) e in
      edata <-- vset edata j (n_mul cs e) ;;
      udata <-- rot_cols m m j k0 cs sn udata ;;
      Ok (sdata, edata, udata, f)) (sdata, edata, udata, f) ;;
  Ok (sdata, edata, udata).

(** svd.rs:319-341: the shift; returns the initial (f, g) *)
Definition svd_shift (k p : nat) (sdata edata : seq S) : res (S * S) :=
  p1 <-- usub p 1 ;;
  p2 <-- usub p 2 ;;
  sp <-- vget sdata p1 ;;
  spm1 <-- vget sdata p2 ;;
  epm1 <-- vget edata p2 ;;
  sk <-- vget sdata k ;;
  ek <-- vget edata k ;;
  let scale := s_max (s_max (s_max (s_max (s_abs sp) (s_abs spm1)) (s_abs epm1))
                            (s_abs sk)) (s_abs ek) in
  sp <-- n_div sp scale ;;
  spm1 <-- n_div spm1 scale ;;
  epm1 <-- n_div epm1 scale ;;
  sk <-- n_div sk scale ;;
  ek <-- n_div ek scale ;;
  b <-- n_div (n_add (n_mul (n_add spm1 sp) (n_sub spm1 sp)) (n_mul epm1 epm1))
              (s_two S) ;;
  let c := n_mul (n_mul sp epm1) (n_mul sp epm1) in
  shift <--
    (if ~~ s_eqb b zero || ~~ s_eqb c zero then
       r <-- s_sqrt (n_add (n_mul b b) c) ;;
       let r := if s_ltb b zero then n_neg r else r in
       n_div c (n_add b r)
     else Ok zero) ;;
  Ok (n_add (n_mul (n_add sk sp) (n_sub sk sp)) shift, n_mul sk ek).

(** svd.rs:344-377: chase zeros, one j; state (s, e, u, v, f, g) *)
Definition svd_chase (m n k : nat) (j : nat)
    (st : seq S * seq S * seq S * seq S * S * S)
  : res (seq S * seq S * seq S * seq S * S * S) :=
  let '(sdata, edata, udata, vdata, f, g) := st in
  t <-- hypot f g ;;
  cs <-- n_div f t ;;
  sn <-- n_div g t ;;
  edata <-- (if j != k then vset edata (j - 1) t else Ok edata) ;;
  sj <-- vget sdata j ;;
  ej <-- vget edata j ;;
  let f := n_add (n_mul cs sj) (n_mul sn ej) in
  edata <-- vset edata j (n_sub (n_mul cs ej) (n_mul sn sj)) ;;
  sj1 <-- vget sdata (j + 1) ;;
  let g := n_mul sn sj1 in
  sdata <-- vset sdata (j + 1) (n_mul cs sj1) ;;
  vdata <-- rot_cols n n j (j + 1) cs sn vdata ;;
  t <-- hypot f g ;;
  cs <-- n_div f t ;;
  sn <-- n_div g t ;;
  sdata <-- vset sdata j t ;;
  ej <-- vget edata j ;;
  sj1 <-- vget sdata (j + 1) ;;
  let f := n_add (n_mul cs ej) (n_mul sn sj1) in
  sdata <-- vset sdata (j + 1) (n_add (n_mul (n_neg sn) ej) (n_mul cs sj1)) ;;
  ej1 <-- vget edata (j + 1) ;;
  let g := n_mul sn ej1 in
  edata <-- vset edata (j + 1) (n_mul cs ej1) ;;
  udata <-- (if j < m - 1 then rot_cols m m j (j + 1) cs sn udata else Ok udata) ;;
  Ok (sdata, edata, udata, vdata, f, g).

(** svd.rs:315-379 (kase 3): one qr step *)
Definition svd_kase3 (m n k p : nat) (sdata edata udata vdata : seq S)
  : res (seq S * seq S * seq S * seq S) :=
  '(f, g) <-- svd_shift k p sdata edata ;;
  '(sdata, edata, udata, vdata, f, _) <--
     for_ k (p - 1) (svd_chase m n k) (sdata, edata, udata, vdata, f, g) ;;
  edata <-- vset edata (p - 2) f ;;
  Ok (sdata, edata, udata, vdata).

(** svd.rs:380-414 (kase 4): convergence; [pp] is p_initial - 1 *)
Definition svd_kase4 (m n k pp : nat) (sdata udata vdata : seq S)
  : res (seq S * seq S * seq S) :=
  sk <-- vget sdata k ;;
  '(sdata, vdata) <--
    (if s_leb sk zero then
       sdata <-- vset sdata k (if s_ltb sk zero then n_neg sk else zero) ;;
       vdata <-- col_update 0 (pp + 1) n k (fun x => Ok (n_neg x)) vdata ;;
       Ok (sdata, vdata)
     else Ok (sdata, vdata)) ;;
  c <-- forc k pp (fun k st =>
      let '(sdata, udata, vdata) := st in
      a <-- vget sdata k ;;
      b <-- vget sdata (k + 1) ;;
      if s_leb b a then Ok (Stop st)
      else
        sdata <-- vset sdata k b ;;
        sdata <-- vset sdata (k + 1) a ;;
        vdata <-- (if k < n - 1 then swap_cols n n k vdata else Ok vdata) ;;
        udata <-- (if k < m - 1 then swap_cols m m k udata else Ok udata) ;;
        Ok (Next (sdata, udata, vdata))) (sdata, udata, vdata) ;;
  Ok (match c with Next st => st | Stop st => st end).

(** svd.rs:228-418: one iteration of the main loop *)
Definition svd_iter (m n pp : nat) (st : sweep) : res (ctl sweep sweep) :=
  let p := w_p st in
  if p == 0 then Ok (Stop st)
  else
    '(k1, edata) <-- svd_find_e (p - 1) (w_s st) (w_e st) ;;
    if k1 == p - 1 then
      (* kase 4: k = p - 2, then k += 1 *)
      '(sdata, udata, vdata) <-- svd_kase4 m n k1 pp (w_s st) (w_u st) (w_v st) ;;
      Ok (Next (Sweep sdata edata udata vdata (p - 1)))
    else
      '(c, sdata) <-- svd_find_s p k1 (p - k1) (w_s st) edata ;;
      if c == 0 then
        (* ks == k: kase 3 *)
        '(sdata, edata, udata, vdata) <--
           svd_kase3 m n k1 p sdata edata (w_u st) (w_v st) ;;
        Ok (Next (Sweep sdata edata udata vdata p))
      else if k1 + c == p then
        (* ks == p - 1: kase 1 *)
        '(sdata, edata, vdata) <-- svd_kase1 n k1 p sdata edata (w_v st) ;;
        Ok (Next (Sweep sdata edata (w_u st) vdata p))
      else
        (* kase 2: k = ks, then k += 1, so k = k1 + c *)
        '(sdata, edata, udata) <-- svd_kase2 m (k1 + c) p sdata edata (w_u st) ;;
        Ok (Next (Sweep sdata edata udata (w_v st) p)).

(** svd.rs:45-424, for rows >= cols *)
Definition svd_tall (fuel : nat) (gs gu gv ge gw gb : nat -> S) (a : mat S) : res svd :=
  let adata := get_data a in
  let m := rows a in
  n <-- cols a ;;
  assert! (n <= m) ;;
  let sdata := alloc_dirty_vec gs (minn m n) in
  let udata := alloc_dirty_vec gu (m * m) in
  let vdata := alloc_dirty_vec gv (n * n) in
  let edata := alloc_dirty_vec ge n in
  let work := alloc_dirty_vec gw m in
  m1 <-- usub m 1 ;;
  let nct := minn m1 n in
  (* max(0, min(n-2, m)) over isize *)
  let nrt := minn (n - 2) m in
  st <-- for_ 0 (maxn nct nrt) (svd_bidiag_step m n nct nrt)
           (Bidiag adata sdata udata vdata edata work) ;;
  let p := minn n (m + 1) in
  '(sdata, edata) <-- svd_final_bidiag m n nct nrt p (b_a st) (b_s st) (b_e st) ;;
  udata <-- svd_gen_u m nct sdata (b_u st) ;;
  vdata <-- svd_gen_v n nrt edata (b_v st) ;;
  pp <-- usub p 1 ;;
  r <-- loop_ fuel (svd_iter m n pp) (Sweep sdata edata udata vdata p) ;;
  u <-- new m m (w_u r) ;;
  s <-- block_diag (N:=S) gb m n (w_s r) ;;
  v <-- new n n (w_v r) ;;
  Ok (SVDec u s v).

(** svd.rs:31-41: a wide matrix is transposed first (the recursive call then
    has rows > cols, so it takes the path above) *)
Definition svd_new (fuel : nat) (gs gu gv ge gw gb gt1 gt2 : nat -> S) (a : mat S) : res svd :=
  n <-- cols a ;;
  if rows a < n then
    at_ <-- t gt1 a ;;
    d <-- svd_tall fuel gs gu gv ge gw gb at_ ;;
    s' <-- t gt2 (svd_s d) ;;
    Ok (SVDec (svd_v d) s' (svd_u d))
  else svd_tall fuel gs gu gv ge gw gb a.

(** svd.rs:439-450 *)
Definition svd_rank (d : svd) : res nat :=
  let max_dim := s_ofnat S (maxn (rows (svd_u d)) (rows (svd_v d))) in
  s00 <-- get (svd_s d) 0 0 ;;
  let tol := n_mul (n_mul max_dim s00) (s_eps S) in
  for_ 0 (rows (svd_s d)) (fun i r =>
    x <-- get (svd_s d) i i ;;
    Ok (if s_ltb tol x then r + 1 else r)) 0.

End SVD.
