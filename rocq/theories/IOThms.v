(** * IOThms: C70, proofs. *)
From mathcomp Require Import all_ssreflect all_algebra zify.
From Verif Require Import Base Hoare ModelMatrix ModelUtil Spec SpecUtil MatrixProofs ModelUnwind SpecUnwind ModelIO SpecIO UtilThms UnwindThms.

Set Implicit Arguments.
Unset Strict Implicit.
Unset Printing Implicit Defensive.

Section Csv.
Variables W T : Type.
Variable parser : W -> str -> W * option T.

Lemma items_loop items : forall w data,
  for_in_u items (fun item st =>
              let '(w, data) := st in
              let '(w, x) := parser w (trim item) in
              match x with
              | None => ((w, data), false)
              | Some x => ((w, rcons data x), true)
              end) (w, data) =
  let '(w', ys, ok) := calls parser w [seq trim f | f <- items] in ((w', data ++ ys), ok).
Proof.
elim: items => [|f items IH] w data /=; first by rewrite cats0.
case: (parser w (trim f)) => w' [x|] /=; last by rewrite cats0.
by rewrite IH; case: (calls _ _ _) => [[w'' ys] ok] /=; rewrite cat_rcons.
Qed.

Lemma parse_lines_width w width ls c :
  width = Some c -> all (fun r => size r == c) (parse_lines parser w width ls).1.2.
Proof.
elim: ls w width c => [|[line|] ls IH] w width c ew //=.
case: (calls _ _ _) => [[w' row] ok] /=; rewrite ew.
case: (boolP (ok && (c == size row))) => //= /andP[_ /eqP ec].
have := IH w' (Some (size row)) (size row) erefl.
by case: (parse_lines _ _ _ _) => [[w'' rws] ok'] /= h; rewrite ec eqxx.
Qed.

Lemma lines_loop ls : forall w data k cc,
  let r := for_in_u ls (fun line st =>
        let '(w, data, row_count, col_count) := st in
        let element_count := size data in
        match line with
        | None => (st, false)
        | Some line =>
          let '((w, data), ok) := for_in_u (split comma line) (fun item st =>
              let '(w, data) := st in
              let '(w, x) := parser w (trim item) in
              match x with
              | None => ((w, data), false)
              | Some x => ((w, rcons data x), true)
              end) (w, data) in
          if ~~ ok then ((w, data, row_count, col_count), false) else
          line_col_count <~ usub (size data) element_count or (w, data, row_count, col_count) ;;
          match col_count with
          | None => ((w, data, row_count + 1, Some line_col_count), true)
          | Some c => if c == line_col_count then ((w, data, row_count + 1, col_count), true)
                      else ((w, data, row_count, col_count), false)
          end
        end) (w, data, k, cc) in
  let s := parse_lines parser w cc ls in
  [/\ r.1.1.1.1 = s.1.1, r.2 = s.2 &
    s.2 -> [/\ r.1.1.1.2 = data ++ flatten s.1.2, r.1.1.2 = k + size s.1.2 &
      r.1.2 = if cc is Some c then Some c else if s.1.2 is row :: _ then Some (size row) else None]].
Proof.
elim: ls => [|[line|] ls IH] w data k cc /=.
- by split=> // _; rewrite cats0 addn0; split=> //; case: cc.
- rewrite items_loop -/(fields line).
  case: (calls parser w (fields line)) => [[w' row] ok] /=.
  case: ok => //=.
  have us : usub (size (data ++ row)) (size data) = Ok (size row).
    by rewrite /usub size_cat leq_addr addKn.
  rewrite us /=.
  case: cc => [c|] /=.
    case: eqP => //= ec.
    have := IH w' (data ++ row) (k + 1) (Some c); rewrite -ec.
    set r := for_in_u _ _ _.
    case: (parse_lines _ _ _ _) => [[w'' rws] ok'] /= [h1 h2 h3]; split=> // h.
    by have [-> -> ->] := h3 h; rewrite -catA; split=> //=; lia.
  have := IH w' (data ++ row) (k + 1) (Some (size row)).
  set r := for_in_u _ _ _.
  case: (parse_lines _ _ _ _) => [[w'' rws] ok'] /= [h1 h2 h3]; split=> // h.
  by have [-> -> ->] := h3 h; rewrite -catA; split=> //=; lia.
by [].
Qed.

Lemma fields_gt0 line : 0 < size (fields line).
Proof. by rewrite size_map; case: (split_nonempty comma line) => h [t ->]. Qed.

Lemma calls_width w ls c : parse_lines parser w None ls = c ->
  c.2 -> c.1.2 <> [::] -> exists2 n, 0 < n & all (fun r => size r == n) c.1.2.
Proof.
move=> <-; case: ls => [|[line|] ls] //=.
have := @size_calls_ok _ _ _ parser w (fields line).
case: (calls _ _ _) => [[w' row] ok] /=; rewrite andbT; case: ok => //= /(_ isT) sz.
have := @parse_lines_width w' (Some (size row)) ls (size row) erefl.
case: (parse_lines _ _ _ _) => [[w'' rws] ok'] /= h _ _.
by exists (size row); rewrite ?eqxx // sz fields_gt0.
Qed.
End Csv.

Lemma size_flatten_all T (rws : seq (seq T)) n : all (fun r => size r == n) rws -> size (flatten rws) = size rws * n.
Proof. by elim: rws => //= r rws IH /andP[/eqP e /IH]; rewrite size_cat e => ->; rewrite mulSn. Qed.

Lemma for_in_agrees A B C St (h : A -> B) (phi : C -> St) (b : A -> C -> res C) (bu : B -> St -> St * bool) :
  (forall x st st', b x st = Ok st' -> bu (h x) (phi st) = (phi st', true)) ->
  (forall x st e, b x st = Err e -> (bu (h x) (phi st)).2 = false) ->
  forall xs st, (forall st', for_in xs b st = Ok st' -> for_in_u (map h xs) bu (phi st) = (phi st', true)) /\
                (forall e, for_in xs b st = Err e -> (for_in_u (map h xs) bu (phi st)).2 = false).
Proof.
move=> h1 h2; elim=> [|x xs IH] st /=; first by split=> // st' [->].
case eb: (b x st) => [st1|e1] /=; first by rewrite (h1 _ _ _ eb).
by have := h2 _ _ _ eb; case: (bu _ _) => st' [].
Qed.

(** ** The theorems *)
(*@section C70 read_csv @*)
(*@doc C70: read_csv parses line by line as [parse_lines] says, with the parser's effects; it returns iff all lines were
    parsed and there is at least one, and then it returns the rows. *)
Lemma read_csv_unwind_L : forall W T (parser : W -> str -> W * option T) (w : W) (ls : seq (option str)),
  read_csv_u parser w (Some ls) =
  let '(w', rws, ok) := parse_lines parser w None ls in
  (w', if ok && (0 < size rws) then Some (Mat (size rws) (flatten rws)) else None).
Proof.
move=> W T parser w ls; rewrite /read_csv_u.
have := lines_loop parser ls w [::] 0 None; cbv zeta.
have := @calls_width W T parser w ls _ erefl.
case: (for_in_u ls _ _) => [[[[w1 d1] k1] c1] ok1].
case: (parse_lines _ _ _ _) => [[w2 rws] ok2] /= hw [-> -> h].
case: ok2 h hw => //= /(_ isT)[-> -> ->] hw.
case: rws hw => [|row rws] //= /(_ isT)[//|n n0 /andP[/eqP e h]].
rewrite add0n /new size_cat (size_flatten_all h) e /= mulSn eqxx /= n0.
by [].
Qed.

(*@doc C70: in particular the fields are parsed in the order of the text, each at most once: what the calls are made
    on, from first to last, is an initial segment of the fields of the lines before the first one that cannot be
    read; and if read_csv returns, it is all of them. *)
Lemma read_csv_order_L : forall T (parser : str -> option T) (ls : seq (option str)),
  let log := fun (w : seq str) f => (rcons w f, parser f) in
  let readable := fix go ls := if ls is Some l :: ls' then l :: go ls' else [::] in
  let '(w', M) := read_csv_u log [::] (Some ls) in
  let all_fields := flatten [seq fields l | l <- readable ls] in
  (exists rest, all_fields = w' ++ rest) /\
  (M <> None -> w' = all_fields /\ size (readable ls) = size ls).
Proof.
move=> T parser ls log readable; rewrite read_csv_unwind_L.
have cl : forall l w, exists k, [/\ k <= size l, (calls log w l).1.1 = w ++ take k l & (calls log w l).2 -> k = size l].
  elim=> [|f l IH] w /=; first by exists 0; rewrite cats0.
  case: (parser f) => [y|] /=; last first.
    by exists 1; rewrite /= take0 cats1.
  have [k [kl e1 e2]] := IH (rcons w f); exists k.+1.
  move: e1 e2; case: (calls _ _ _) => [[w' ys] ok] /= -> e2; split=> //; first by rewrite cat_rcons.
  by move=> /e2 ->.
suff gen : forall ls width w, exists k, [/\ k <= size (flatten [seq fields l | l <- readable ls]),
   (parse_lines log w width ls).1.1 = w ++ take k (flatten [seq fields l | l <- readable ls]) &
   (parse_lines log w width ls).2 -> k = size (flatten [seq fields l | l <- readable ls]) /\ size (readable ls) = size ls].
  have [k [kl e1 e2]] := gen ls None [::].
  case: (parse_lines _ _ _ _) e1 e2 => [[w' rws] ok] /= -> e2; split.
    by exists (drop k (flatten [seq fields l | l <- readable ls])); rewrite cat_take_drop.
  by case: ok e2 => //= /(_ isT)[-> ->] _; rewrite take_size.
elim=> [|[l|] ls' IH] width w /=; try by exists 0; rewrite ?cats0.
have [k [kl e1 e2]] := cl (fields l) w.
case: (calls _ _ _) e1 e2 => [[w' row] ok] /= -> e2.
case: ifP => [/andP[ok1 _]|_]; last first.
  exists k; rewrite size_cat; split=> //; first exact: leq_trans kl (leq_addr _ _).
  rewrite takel_cat //.
have [k' [kl' e1' e2']] := IH (Some (size row)) (w ++ take k (fields l)).
exists (size (fields l) + k'); rewrite size_cat leq_add2l; split=> //.
  move: e1'; case: (parse_lines _ _ _ _) => [[w'' rws] ok'] /= ->.
  by rewrite (e2 ok1) take_size -catA take_cat ltnNge leq_addr /= addKn.
move: e2'; case: (parse_lines _ _ _ _) => [[w'' rws] ok'] /= h /h[-> ->]; by split.
Qed.

(*@doc C70: opening the file fails: no call is made. *)
Lemma read_csv_unopened_L : forall W T (parser : W -> str -> W * option T) (w : W), read_csv_u parser w None = (w, None).
Proof. by []. Qed.

(*@doc C70: on a file that can be read to its end, with a parser without effects, this is the read_csv of C41. *)
Lemma read_csv_agrees_L : forall T (parser : str -> res T) (text : str),
  read_csv_u (fun (_ : unit) f => (tt, to_opt (parser f))) tt (Some (map Some (lines text))) =
  (tt, to_opt (read_csv (Some text) parser)).
Proof.
move=> T parser text; rewrite read_csvE /read_csv_u.
set bu := (fun (line : option str) (st : unit * seq T * nat * option nat) => _).
pose phi (st : seq T * nat * option nat) := let '(d, k, c) := st in (tt, d, k, c).
have inner : forall items d, let body := (fun item (st : unit * seq T) =>
              let '(w, data) := st in
              let '(w, x) := (tt, to_opt (parser (trim item))) in
              match x with
              | None => ((w, data), false)
              | Some x => ((w, rcons data x), true)
              end) in
    (forall d', for_in items (fun item data => x <-- parser (trim item) ;; Ok (rcons data x)) d = Ok d' ->
       for_in_u items body (tt, d) = ((tt, d'), true)) /\
    (forall e, for_in items (fun item data => x <-- parser (trim item) ;; Ok (rcons data x)) d = Err e ->
       (for_in_u items body (tt, d)).2 = false).
  elim=> [|f items IH] d /=; first by split=> // d' [->].
  by case: (parser (trim f)) => [x|e] /=; [apply: IH | split].
have h1 : forall x st st', csv_body parser x st = Ok st' -> bu (Some x) (phi st) = (phi st', true).
  move=> line [[d k] c] [[d' k'] c']; rewrite /csv_body /phi /bu.
  have [i1 _] := inner (split comma line) d.
  case e: (for_in _ _ _) => [d1|//]; cbn [bind]; rewrite (i1 _ e) /=.
  case: (usub _ _) => //= lc; case: c => [c|] /=; last by case=> -> <- <-.
  by rewrite /require; case: eqP => //= _ [-> <- <-].
have h2 : forall x st e, csv_body parser x st = Err e -> (bu (Some x) (phi st)).2 = false.
  move=> line [[d k] c] er; rewrite /csv_body /phi /bu.
  have [i1 i2] := inner (split comma line) d.
  case e: (for_in _ _ _) => [d1|e1]; cbn [bind].
    rewrite (i1 _ e) /=.
    case: (usub _ _) => //= lc; case: c => [c|] //=.
    by rewrite /require; case: eqP.
  by move=> _; have := i2 _ e; case: (for_in_u _ _ _) => [[w' d'] []].
have [a1 a2] := for_in_agrees h1 h2 (lines text) ([::], 0, None).
case e: (for_in _ _ _) => [[[d k] c]|e1] /=.
  by have := a1 _ e; rewrite /phi => ->; case: c {e}.
have := a2 _ e; rewrite /phi; case: (for_in_u _ _ _) => [[[[[] d] k] c] []] //.
Qed.

Section Fmt.
Variables W T : Type.
Variable write : W -> str -> W * bool.

Lemma write_all_cat l1 l2 w : write_all write w (l1 ++ l2) =
  let '(w', ok) := write_all write w l1 in if ok then write_all write w' l2 else (w', false).
Proof.
elim: l1 w => [|s l1 IH] w //=.
by case: (write w s) => w' [].
Qed.

Lemma write_all1 s w : write_all write w [:: s] = write w s.
Proof. by rewrite /=; case: (write w s) => w' []. Qed.

Lemma for_in_write l w : for_in_u l (fun s w => write w s) w = write_all write w l.
Proof. by elim: l w => //= s l IH w; case: (write w s) => w' []. Qed.

Lemma for_u_write n lo (body : nat -> W -> W * bool) (P : nat -> seq str) :
  (forall i w, lo <= i < lo + n -> body i w = write_all write w (P i)) ->
  forall w, for_u n lo body w = write_all write w (flatten [seq P i | i <- iota lo n]).
Proof.
elim: n lo => [|n IH] lo h w //=.
rewrite write_all_cat h; last by lia.
case: (write_all _ _ _) => w' [] //.
by apply: IH => i w1 hi; apply: h; lia.
Qed.
End Fmt.

(*@section C70 Debug @*)
(*@doc C70: Debug writes the pieces of the printed form one after the other, each at most once, and stops with an error
    at the first one the formatter fails to write; it does not panic.  [show] gives the strings that the Debug of an
    element writes. *)
Lemma fmt_unwind_L : forall W T (write : W -> str -> W * bool) (show : T -> seq str) (w : W) m n (A : 'M[T]_(m.+1, n.+1)),
  let cells := [seq [seq show (A i j) | j <- enum 'I_n.+1] | i <- enum 'I_m.+1] in
  fmt_u write show w (mat_of A) = write_all write w (pieces (widest [seq map flatten row | row <- cells]) cells).
Proof.
move=> W T write show w m n A cells; pose x0 := A ord0 ord0; pose f := fn x0 A.
have H := mat_of_rep x0 A; rewrite /fmt_u (max_width_ok (fun v => flatten (show v))) max0n.
have -> : \max_(x <- data (mat_of A)) size (flatten (show x)) = widest [seq map flatten row | row <- cells].
  rewrite /widest /cells /= -map_comp big_flatten /= [RHS]big_flatten /= !big_map; apply: eq_bigr => i _.
  by rewrite /= -map_comp !big_map.
set wd := widest _; rewrite [rows _](rep_no_rows H).
have sw i j : i < m.+1 -> j < n.+1 -> size (flatten (show (f i j))) <= wd.
  move=> hi hj; rewrite /f (fn_lt _ _ hi hj) /wd /widest.
  apply: (@leq_bigmax_seq _ _ xpredT (fun c : str => size c) (flatten (show (A (Ordinal hi) (Ordinal hj))))) => //.
  apply/flattenP; exists [seq flatten (show (A (Ordinal hi) j)) | j <- enum 'I_n.+1].
    apply/mapP; exists [seq show (A (Ordinal hi) j) | j <- enum 'I_n.+1]; last by exact: (map_comp flatten (fun j => show (A (Ordinal hi) j))).
    by apply/mapP; exists (Ordinal hi); rewrite ?mem_enum.
  by apply/mapP; exists (Ordinal hj); rewrite ?mem_enum.
have R : cells = [seq [seq show (f i j) | j <- iota 0 n.+1] | i <- iota 0 m.+1].
  rewrite /cells -[in RHS](val_enum_ord m.+1) -[RHS]map_comp; apply: eq_map => i.
  by rewrite /comp -[in RHS](val_enum_ord n.+1) -[RHS]map_comp; apply: eq_map => j /=; rewrite /f fnE.
clearbody wd; rewrite R /pieces -map_comp.
rewrite -[[:: LF] :: flatten _]/([:: [:: LF]] ++ _) write_all_cat write_all1.
case: (write w [:: LF]) => w1 [] //; cbn [negb].
apply: for_u_write => i {}w1 /andP[_ hi]; rewrite add0n in hi.
rewrite /comp /row_pieces -[[:: bar] :: (flatten _ ++ _)]/([:: [:: bar]] ++ _) write_all_cat write_all1.
case: (write w1 [:: bar]) => w2 [] //; cbn [negb]; rewrite (rep_cols H) //; cbn [tryx].
rewrite write_all_cat -map_comp.
rewrite (@for_u_write W write n.+1 0 _ (fun j => cell_pieces wd (show (f i j)))).
  by case: (write_all _ _ _) => w3 [] //; cbn [negb]; rewrite write_all1.
move=> j {}w2 /andP[_ hj]; rewrite add0n in hj.
rewrite (rep_get_ref _ _ H) hi hj; cbn [tryx andb].
rewrite /usub sw //; cbn [tryx]; rewrite padding_ok; cbn [tryx].
by rewrite for_in_write /cell_pieces.
Qed.

(*@doc C70: print writes the same pieces to standard output and panics iff one of them could not be written. *)
Lemma print_unwind_L : forall W T (write : W -> str -> W * bool) (show : T -> seq str) (w : W) m n (A : 'M[T]_(m.+1, n.+1)),
  let cells := [seq [seq show (A i j) | j <- enum 'I_n.+1] | i <- enum 'I_m.+1] in
  print_u write show w (mat_of A) =
  let '(w', ok) := write_all write w (pieces (widest [seq map flatten row | row <- cells]) cells) in
  (w', if ok then Some tt else None).
Proof. by move=> *; rewrite /print_u fmt_unwind_L. Qed.

(*@doc C70: written completely, the pieces are the printed form of C43. *)
Lemma fmt_pieces_L : forall w (cells : seq (seq (seq str))),
  flatten (pieces w cells) = print_matrix w [seq map flatten row | row <- cells].
Proof.
move=> w cells.
have cell_ok row : flatten (flatten [seq cell_pieces w c | c <- row]) =
    flatten [seq space :: right_align w c | c <- [seq flatten i | i <- row]].
  by elim: row => //= c row IH; rewrite flatten_cat IH /right_align -catA.
have row_ok row : flatten (row_pieces w row) = print_row w (map flatten row) ++ [:: LF].
  by rewrite /row_pieces /print_row /= flatten_cat cell_ok /= -catA.
rewrite /pieces /print_matrix /=; congr cons; rewrite -map_comp.
elim: cells => [//|row cells IH]; rewrite !map_cons.
transitivity (flatten (row_pieces w row) ++ flatten (flatten [seq row_pieces w r | r <- cells])); first exact: flatten_cat.
by rewrite row_ok IH.
Qed.

(*@doc C70: a formatter without failures gets the whole text; one that fails gets an initial segment of the pieces. *)
Lemma fmt_prefix_L : forall T (ok : seq str -> str -> bool) (show : T -> seq str) m n (A : 'M[T]_(m.+1, n.+1)),
  let cells := [seq [seq show (A i j) | j <- enum 'I_n.+1] | i <- enum 'I_m.+1] in
  let all_pieces := pieces (widest [seq map flatten row | row <- cells]) cells in
  let '(written, res) := fmt_u (fun w s => if ok w s then (rcons w s, true) else (w, false)) show [::] (mat_of A) in
  (exists rest, all_pieces = written ++ rest) /\ (res = true <-> written = all_pieces).
Proof.
move=> T ok show m n A cells ps; rewrite fmt_unwind_L -/cells -/ps; clearbody ps.
suff gen : forall l w, let r := write_all (fun w s => if ok w s then (rcons w s, true) else (w, false)) w l in
    exists k, [/\ k <= size l, r.1 = w ++ take k l & r.2 = (k == size l)].
  have [k [kl e1 e2]] := gen ps [::].
  case: (write_all _ _ _) e1 e2 => w' r /= -> ->; split.
    by exists (drop k ps); rewrite cat_take_drop.
  split=> [/eqP ->|e]; first by rewrite take_size.
  by apply/eqP; rewrite -e size_takel.
elim=> [|s l IH] w /=; first by exists 0; rewrite cats0.
case: (ok w s) => /=; last by exists 0; rewrite cats0.
by have [k [kl e1 e2]] := IH (rcons w s); exists k.+1; rewrite e1 e2 cat_rcons; split.
Qed.

(*@example
(** A 2 x 2 CSV file whose second line has a third field: the fields are all parsed before read_csv panics. *)
Definition num_parser (w : seq str) (f : str) : seq str * option nat := (rcons w f, Some (size f)).
Definition txt (s : seq nat) : str := map BinNat.N.of_nat s.
Example read_csv_ragged :
  read_csv_u num_parser [::] (Some [:: Some (txt [:: 49; 44; 32; 50]); Some (txt [:: 51; 44; 52; 44; 53]); Some (txt [:: 54])]) =
  ([:: txt [:: 49]; txt [:: 50]; txt [:: 51]; txt [:: 52]; txt [:: 53]], None).
Proof. by vm_compute. Qed.

(** The second line cannot be read: nothing of it or after it is parsed. *)
Example read_csv_unreadable :
  read_csv_u num_parser [::] (Some [:: Some (txt [:: 49; 44; 32; 50]); None; Some (txt [:: 54; 44; 55])]) =
  ([:: txt [:: 49]; txt [:: 50]], None).
Proof. by vm_compute. Qed.

(** A formatter with room for three strings: the line feed, the bar and the first padding. *)
Example fmt_full :
  fmt_u (fun (w : seq str) s => if size w < 3 then (rcons w s, true) else (w, false)) (fun x : nat => [:: txt [:: x]])
    [::] (Mat 1 [:: 49; 50]) = ([:: [:: LF]; [:: bar]; [:: space]], false).
Proof. by vm_compute. Qed.
@*)
