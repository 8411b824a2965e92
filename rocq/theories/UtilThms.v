(** * UtilThms: C41 read_csv, C42 m!, C43 Debug (restated in PropUtil.v). *)
From Coq Require Import BinNat.
From mathcomp Require Import all_ssreflect all_algebra zify.
From Verif Require Import Base Hoare ModelMatrix ModelUtil Spec SpecUtil MatrixProofs.

Set Implicit Arguments.
Unset Strict Implicit.
Unset Printing Implicit Defensive.

(** ** strings *)
Lemma split_nonempty c s : exists h t, split c s = h :: t.
Proof. by elim: s => [|x s [h [t e]]] /=; [exists [::], [::] | rewrite e; case: eqP => _; eexists; eexists]. Qed.

Lemma split_notin c s : c \notin s -> split c s = [:: s].
Proof.
elim: s => [//|x s IH] /=; rewrite in_cons negb_or => /andP[xc cs].
by rewrite eq_sym (negPf xc) (IH cs).
Qed.

Lemma split_cat c s r : c \notin s -> split c (s ++ c :: r) = s :: split c r.
Proof.
elim: s => [|x s IH] /=; first by rewrite eqxx.
by rewrite in_cons negb_or => /andP[xc cs]; rewrite eq_sym (negPf xc) (IH cs).
Qed.

Lemma split_join c (fs : seq str) : fs != [::] -> all (fun f => c \notin f) fs -> split c (join c fs) = fs.
Proof.
elim: fs => [//|f [|f' fs] IH] _ /= /andP[cf cfs]; first exact: split_notin.
by rewrite split_cat // IH.
Qed.

Lemma join_split c s : join c (split c s) = s.
Proof.
elim: s => [//|x s IH] /=; have [h [t e]] := split_nonempty c s.
rewrite e in IH *; case: eqP => [->|_]; first by rewrite -IH.
by rewrite -IH; case: t {e IH}.
Qed.

Lemma split_parts c s : all (fun f => c \notin f) (split c s).
Proof.
elim: s => [//|x s IH] /=; have [h [t e]] := split_nonempty c s; rewrite e in IH *.
case: eqP => [_|/eqP xc] //=; rewrite in_cons negb_or eq_sym xc; exact: IH.
Qed.

Lemma split_sub c s (a : char) f : f \in split c s -> a \in f -> a \in s.
Proof.
elim: s f => [|x s IH] f /=; first by rewrite inE => /eqP ->.
have [h [t e]] := split_nonempty c s; rewrite e in IH *.
case: eqP => [_|_]; rewrite !in_cons => /orP[/eqP ->|ft] //.
- by move=> af; rewrite (IH f) ?orbT // in_cons.
- by rewrite in_cons => /orP[->//|ah]; rewrite (IH h) ?orbT // in_cons eqxx.
by move=> af; rewrite (IH f) ?orbT // in_cons ft orbT.
Qed.

Lemma split_rcons c s x : x != c ->
  exists p q, split c s = rcons p q /\ split c (rcons s x) = rcons p (rcons q x).
Proof.
move=> xc; elim: s => [|y s [p [q [e1 e2]]]] /=; first by rewrite (negPf xc); exists [::], [::].
rewrite e1 e2; case: eqP => _; first by exists ([::] :: p), q.
case: p {e1 e2} => [|a p] /=; first by exists [::], (y :: q).
by exists ((y :: a) :: p), q.
Qed.

Lemma trim_start_rcons s x : is_whitespace x ->
  trim_start (rcons s x) = if all is_whitespace s then [::] else rcons (trim_start s) x.
Proof. by move=> wx; elim: s => [|y s IH] /=; [rewrite wx | case: (is_whitespace y)]. Qed.

Lemma trim_start_all s : all is_whitespace s -> trim_start s = [::].
Proof. by elim: s => [//|x s IH] /= /andP[-> /IH]. Qed.

Lemma trim_rcons s x : is_whitespace x -> trim (rcons s x) = trim s.
Proof.
move=> wx; rewrite /trim trim_start_rcons //; case: ifP => [/trim_start_all -> //|_].
by rewrite /trim_end rev_rcons /= wx.
Qed.

Lemma trim_start_spec s : exists2 a, s = a ++ trim_start s & all is_whitespace a.
Proof.
elim: s => [|x s [a e wa]] /=; first by exists [::].
by case: (boolP (is_whitespace x)) => wx; [exists (x :: a); rewrite /= ?wx // -e | exists [::]].
Qed.

Lemma trim_start_head s : trim_start s = [::] \/ ~~ is_whitespace (head space (trim_start s)).
Proof. by elim: s => [|x s IH] /=; [left | case: (boolP (is_whitespace x)) => wx //=; right]. Qed.

Lemma trim_end_spec s : exists2 b, s = trim_end s ++ b & all is_whitespace b.
Proof.
have [a e wa] := trim_start_spec (rev s); exists (rev a); last by rewrite all_rev.
by rewrite /trim_end -rev_cat -e revK.
Qed.

Lemma trim_start_mem s t : trim_start s = t -> forall y r, t = y :: r -> ~~ is_whitespace y.
Proof. by move=> <- y r e; case: (trim_start_head s) => [h|]; rewrite ?e //; rewrite h in e. Qed.

Lemma head_rcons (T : Type) (x0 : T) s x : head x0 (rcons s x) = head x s.
Proof. by case: s. Qed.

Lemma whiteE c : is_whitespace c = (c \in White_Space).
Proof.
have E (a b : char) : (a == b) = N.eqb a b by apply/eqP/idP => [/N.eqb_eq|/N.eqb_eq].
apply/idP/idP; last by rewrite !inE !E => h; do ?[case/orP: h => [/N.eqb_eq -> //|h]]; move/N.eqb_eq: h => ->.
have r1 : N.leb 9 c && N.leb c 13 -> c \in White_Space.
  case/andP=> /N.leb_le h1 /N.leb_le h2.
  have h : c = 9%num \/ c = 10%num \/ c = 11%num \/ c = 12%num \/ c = 13%num by lia.
  by do ?[case: h => [-> //|h]]; rewrite h.
have r2 : N.leb 8192 c && N.leb c 8202 -> c \in White_Space.
  case/andP=> /N.leb_le h1 /N.leb_le h2.
  have h : c = 8192%num \/ c = 8193%num \/ c = 8194%num \/ c = 8195%num \/ c = 8196%num \/ c = 8197%num \/ c = 8198%num \/ c = 8199%num \/ c = 8200%num \/ c = 8201%num \/ c = 8202%num by lia.
  by do ?[case: h => [-> //|h]]; rewrite h.
rewrite /is_whitespace => h.
by do ?[case/orP: h => [h|h]; [by [apply: r1|apply: r2|move/N.eqb_eq: h => ->]|]]; move/N.eqb_eq: h => ->.
Qed.

(*@section C41 CSV reading @*)
(*@doc C41: trim removes exactly the white space at both ends. *)
Lemma trim_ok_L : forall s, trimmed s (trim s).
Proof.
move=> s; have allE x : all (mem White_Space) x = all is_whitespace x by apply: eq_all => c; rewrite whiteE.
rewrite /trimmed; suff [a [b [e wa wb h]]] : exists a b, [/\ s = a ++ trim s ++ b, all is_whitespace a, all is_whitespace b &
    trim s = [::] \/ ~~ is_whitespace (head space (trim s)) /\ ~~ is_whitespace (last space (trim s))].
  by exists a, b; split; rewrite ?allE // -!whiteE.
have [a ea wa] := trim_start_spec s; have [b eb wb] := trim_end_spec (trim_start s).
exists a, b; split=> //; first by rewrite -eb.
rewrite /trim; set t := trim_end _ in eb *; case: (t =P [::]) => [->|ne]; [by left | right; split].
  case: t ne eb => // y r _ eb; exact: (trim_start_mem eb).
rewrite /t /trim_end; case: (trim_start_head (rev (trim_start s))) => [h|].
  by case: ne; rewrite /t /trim_end h.
by case: (trim_start _) => [//|y r] /=; rewrite rev_cons last_rcons.
Qed.

Lemma chompE l : LF \notin l -> chomp (rcons l LF) = if l is x :: l' then if last x l' == CR then belast x l' else l else l.
Proof.
move=> _; rewrite /chomp rev_rcons /=; case: l => [//|x l].
case/lastP: l => [|l y]; first by rewrite /= /rev /=; case: eqP.
rewrite last_rcons belast_rcons -rcons_cons rev_rcons; case: eqP => _; by rewrite -1?rev_rcons revK.
Qed.

(** a line without LF: its chomped version splits into the same trimmed fields *)
Lemma chomp_fields l : LF \notin l ->
  map trim (split comma (chomp (rcons l LF))) = map trim (split comma l).
Proof.
move=> nl; rewrite chompE //; case: l nl => [//|x l] nl.
case: eqP => // e; set l' := belast x l.
have {e} -> : x :: l = rcons l' CR by rewrite /l' -e -lastI.
have [//|p [q [-> ->]]] := @split_rcons comma l' CR.
by rewrite !map_rcons trim_rcons.
Qed.

Lemma read_lines_cat l s : LF \notin l -> read_lines (l ++ LF :: s) = rcons l LF :: read_lines s.
Proof.
elim: l => [|x l IH] /=; first by rewrite /=.
by rewrite in_cons negb_or eq_sym => /andP[/negPf -> /IH ->].
Qed.

Lemma read_lines_last (l : str) : LF \notin l -> l != [::] -> read_lines l = [:: l].
Proof.
elim: l => [//|x l IH] /=; rewrite in_cons negb_or eq_sym => /andP[/negPf -> nl] _.
by case: l IH nl => [//|y l] IH nl; rewrite IH.
Qed.

Lemma join_notin (a : char) (fs : seq str) : a != comma -> all (fun f => a \notin f) fs -> a \notin join comma fs.
Proof.
move=> ac; elim: fs => [//|f [|f' fs] IH] /= /andP[af afs] //.
by rewrite mem_cat in_cons !negb_or af ac IH.
Qed.

Lemma row_notin row : csv_row row -> LF \notin join comma row.
Proof. by case/andP=> _ h; apply: join_notin => //; apply: sub_all h => f /andP[]. Qed.

Lemma row_split row : csv_row row -> split comma (join comma row) = row.
Proof. by case/andP=> ne h; apply: split_join => //; apply: sub_all h => f /andP[]. Qed.

(** the lines of a csv text split into the trimmed fields of the table *)
Lemma csv_lines s table : is_csv s table ->
  [seq [seq trim f | f <- split comma l] | l <- lines s] = [seq [seq trim f | f <- row] | row <- table].
Proof.
case=> ok; case=> [->|[e ne la]].
  elim: table ok => [//|row table IH] /= /andP[rok tok].
  rewrite /csv_text /= -catA /= /lines read_lines_cat ?row_notin //= chomp_fields ?row_notin //.
  by rewrite row_split // -IH.
case/lastP: table ok e => [_ /(congr1 size)|table row]; first by rewrite size_cat /= addn1.
rewrite /csv_table all_rcons => /andP[rok tok].
rewrite /csv_text map_rcons flatten_rcons catA !cats1 => /rcons_inj[e].
move: ne la; rewrite e {s e} => ne la.
have rne : join comma row != [::].
  apply/negP => /eqP e; move: ne la; rewrite e cats0; case/lastP: table {tok} => [//|t r] _.
  by rewrite map_rcons flatten_rcons catA cats1 last_rcons eqxx.
move: {ne la} tok; elim: table => [|r0 table IH] /=.
  move=> _; rewrite /lines read_lines_last ?row_notin //=.
  suff -> : chomp (join comma row) = join comma row by rewrite row_split.
  rewrite /chomp; case er: (rev _) => [//|x r]; case: (x =P LF) => // ex.
  have := row_notin rok; rewrite -(revK (join comma row)) er rev_cons mem_rcons ex.
  by rewrite in_cons eqxx.
case/andP=> rok0 tok; rewrite -!catA /= /lines read_lines_cat ?row_notin //= chomp_fields ?row_notin //.
by rewrite row_split // -[in LHS]/(lines _) -IH.
Qed.

(*@doc C41: every text is the text of a table, so the theorems below cover every file. *)
Lemma is_csv_total_L : forall s, exists table, is_csv s table.
Proof.
suff H s : exists2 table, csv_table table & s = csv_text table \/ [/\ s ++ [:: LF] = csv_text table, s != [::] & last LF s != LF].
  by move=> s; have [t ? ?] := H s; exists t.
have [k le] := ubnP (size s); elim: k s le => [//|k IH] s le.
have okr l : LF \notin l -> csv_row (split comma l).
  move=> nl; have [h [t e]] := split_nonempty comma l; rewrite /csv_row {1}e /=.
  apply/allP => f ft; rewrite (allP (split_parts comma l) _ ft) /=; apply: contra nl; exact: split_sub ft.
case: (boolP (LF \in s)) => [inS|nl].
  have [l [q [es nl]]] : exists l q, s = l ++ LF :: q /\ LF \notin l.
    exists (take (index LF s) s), (drop (index LF s).+1 s); split; last first.
      by apply/negP => /(nthP LF)[i]; rewrite size_takel ?index_size // => hi; rewrite nth_take // => e;
         have := before_find LF hi; rewrite e /= eqxx.
    by rewrite -{1}(cat_take_drop (index LF s) s) (drop_nth LF) ?index_mem // nth_index.
  have [|t tok ht] := IH q; first by move: le; rewrite es size_cat /=; lia.
  rewrite es {inS le es s}.
  exists (split comma l :: t); first by rewrite /csv_table /= okr.
  have -> : csv_text (split comma l :: t) = l ++ LF :: csv_text t by rewrite /csv_text /= join_split -catA.
  case: ht => [<-|[e ne la]]; [by left | right; split].
  - by rewrite -catA /= e.
  - by case: l {nl}.
  - by rewrite last_cat /=.
case: (s =P [::]) => [->|/eqP ne]; first by exists [::] => //; left.
exists [:: split comma s]; first by rewrite /csv_table /= okr.
right; split=> //; first by rewrite /csv_text /= join_split cats0.
apply: contra nl => /eqP e; rewrite -[X in X \in _]e; case: s ne {le e} => // x s _ /=; exact: (mem_last x s).
Qed.

(** ** the loop of read_csv *)
Section Csv.
Variables (T : Type) (parser : str -> res T).

Definition csv_body (line : str) (st : seq T * nat * option nat) : res (seq T * nat * option nat) :=
  let '(data, row_count, col_count) := st in
  let element_count := size data in
  data <-- for_in (split comma line) (fun item data =>
      x <-- parser (trim item) ;;
      Ok (rcons data x)) data ;;
  line_col_count <-- usub (size data) element_count ;;
  col_count <-- (match col_count with
                 | None => Ok (Some line_col_count)
                 | Some c => assert! (c == line_col_count) ;; Ok col_count
                 end) ;;
  Ok (data, row_count + 1, col_count).

(** the parsed fields of one line *)
Definition parses (fs : seq str) (xs : seq T) : Prop := [seq parser f | f <- fs] = [seq Ok x | x <- xs].

Lemma parses_size fs xs : parses fs xs -> size fs = size xs.
Proof. by move/(congr1 size); rewrite !size_map. Qed.

Lemma items_ok fs xs d : parses (map trim fs) xs ->
  for_in fs (fun item data => x <-- parser (trim item) ;; Ok (rcons data x)) d = Ok (d ++ xs).
Proof.
rewrite /parses; elim: fs xs d => [|f fs IH] [|x xs] d //=; first by rewrite cats0.
by case=> -> /IH H /=; rewrite H cat_rcons.
Qed.

Lemma items_inv fs d d' :
  for_in fs (fun item data => x <-- parser (trim item) ;; Ok (rcons data x)) d = Ok d' ->
  exists2 xs, parses (map trim fs) xs & d' = d ++ xs.
Proof.
elim: fs d => [|f fs IH] d /=; first by case=> <-; exists [::]; rewrite ?cats0.
rewrite /parses; case e: (parser _) => [x|//] /= /IH[xs h ->].
by exists (x :: xs); rewrite /= ?e ?h // cat_rcons.
Qed.

Definition col_ok (cc : option nat) (c : nat) : Prop := cc = None \/ cc = Some c.

Lemma lines_ok ls vals d k cc c : col_ok cc c ->
  (forall i, i < size ls -> parses (map trim (split comma (nth [::] ls i))) (nth [::] vals i)) ->
  size vals = size ls -> all (fun v => size v == c) vals ->
  for_in ls csv_body (d, k, cc) = Ok (d ++ flatten vals, k + size vals, if vals is [::] then cc else Some c).
Proof.
elim: ls vals d k cc => [|l ls IH] [|v vals] d k cc //= hc; first by rewrite cats0 addn0.
move=> H [sz] /andP[/eqP sv av].
rewrite (items_ok _ (H 0 isT)) /= /usub size_cat leq_addr addKn /= sv.
have -> : match cc with Some c0 => assert! (c0 == c);; Ok cc | None => Ok (Some c) end = Ok (Some c).
  by case: hc => -> //=; rewrite eqxx.
rewrite /= (IH vals) //; last by move=> i hi; apply: (H i.+1).
  by rewrite catA addn1 addSnnS; case: vals {sz av H}.
by right.
Qed.

Lemma lines_inv ls d k cc d' k' cc' :
  for_in ls csv_body (d, k, cc) = Ok (d', k', cc') ->
  exists vals, [/\ size vals = size ls,
     forall i, i < size ls -> parses (map trim (split comma (nth [::] ls i))) (nth [::] vals i),
     d' = d ++ flatten vals, k' = k + size vals &
     (forall c, cc' = Some c -> all (fun v => size v == c) vals /\ col_ok cc c) /\
     (cc' = None -> cc = None /\ vals = [::])].
Proof.
elim: ls d k cc => [|l ls IH] d k cc /=.
  case=> <- <- <-; exists [::]; split=> //=; rewrite ?cats0 ?addn0 //; split=> // c ->; by split=> //; right.
case e: (for_in _ _ _) => [d1|//] /=; have [xs px e1] := items_inv e.
rewrite e1 /usub size_cat leq_addr addKn /=.
have [ecc|[c1 ecc hc1]] : (match cc with Some c0 => assert! (c0 == size xs);; Ok cc | None => Ok (Some (size xs)) end = Err Panic) \/
   (exists2 c1, match cc with Some c0 => assert! (c0 == size xs);; Ok cc | None => Ok (Some (size xs)) end = Ok (Some c1) & c1 = size xs /\ col_ok cc c1).
- case: (cc) => [c0|]; last by right; exists (size xs) => //; split=> //; left.
  rewrite /require; case: eqP => [->|_]; [right|by left]; by exists (size xs) => //; split=> //; right.
- by rewrite ecc.
rewrite ecc /= => /IH[vals [sz pv ed ek [hs hn]]]; exists (xs :: vals); split=> //=.
- by rewrite sz.
- by case=> [|i] hi //=; apply: pv.
- by rewrite ed catA.
- by rewrite ek addn1 addSnnS.
split=> [c /hs[av [//|[ec]]]|/hn[]] //; case: hc1 => e2 e3.
by rewrite -e2 ec eqxx -ec; split=> //; rewrite ec.
Qed.

Lemma read_csvE text : read_csv (Some text) parser =
  '(data, row_count, col_count) <-- for_in (lines text) csv_body ([::], 0, None) ;;
  match col_count with None => Err Panic | Some c => new row_count c data end.
Proof. by []. Qed.

Lemma lines_fields s table i : is_csv s table -> i < size table ->
  size (lines s) = size table /\ map trim (split comma (nth [::] (lines s) i)) = map trim (nth [::] table i).
Proof.
move=> /csv_lines e hi; have sz : size (lines s) = size table by move/(congr1 size): e; rewrite !size_map.
split=> //; move/(congr1 (fun x => nth [::] x i)): e.
by rewrite (nth_map [::]) ?sz // (nth_map [::]) // sz.
Qed.

Lemma size_lines s table : is_csv s table -> size (lines s) = size table.
Proof. by move=> /csv_lines /(congr1 size); rewrite !size_map. Qed.
End Csv.

(*@doc C41: a text whose lines all have the same number of fields, all of which parse, is read as the matrix of the
    parsed trimmed fields. *)
Lemma read_csv_ok_L : forall T (parser : str -> res T) s table m n (A : 'M[T]_(m.+1, n.+1)),
  is_csv s table -> size table = m.+1 -> (forall i, i < m.+1 -> size (nth [::] table i) = n.+1) ->
  (forall (i : 'I_m.+1) (j : 'I_n.+1), parser (trim (field table i j)) = Ok (A i j)) ->
  read_csv (Some s) parser = Ok (mat_of A).
Proof.
move=> T parser s table m n A cs sz sr HA.
pose vals := [seq [seq A i j | j <- enum 'I_n.+1] | i <- enum 'I_m.+1].
have sv : size vals = m.+1 by rewrite size_map size_enum_ord.
rewrite read_csvE (@lines_ok _ parser _ vals _ _ _ n.+1).
- case ev: vals => [|v w]; first by rewrite ev in sv.
  rewrite -ev sv /= /new size_mat_of eqxx /=. 
  by [].
- by left.
- rewrite (size_lines cs) sz => i hi; have hi' : i < size table by rewrite sz.
  have [_ ->] := lines_fields cs hi'; rewrite /parses -map_comp.
  apply: (@eq_from_nth _ (Err Panic)); rewrite !size_map sr //.
    by rewrite (nth_map ord0) ?size_enum_ord // size_map size_enum_ord.
  move=> j hj; rewrite (nth_map [::]) ?sr //= -[nth _ _ j]/(field table i j).
  rewrite (HA (Ordinal hi) (Ordinal hj)) [nth [::] vals i](nth_map ord0) ?size_enum_ord //.
  rewrite (nth_map (A ord0 ord0)); last by rewrite size_map size_enum_ord.
  rewrite (nth_map ord0); last by rewrite size_enum_ord.
  by rewrite -[i]/(val (Ordinal hi)) -[j]/(val (Ordinal hj)) !nth_ord_enum.
- by rewrite sv (size_lines cs).
- by rewrite all_map; apply/allP => i _ /=; rewrite size_map size_enum_ord.
Qed.

(*@doc C41: conversely, read_csv returns only if the text has at least one line, all lines have the same number of
    fields and every trimmed field parses; the matrix is then the one of the parsed fields. *)
Lemma read_csv_sound_L : forall T (parser : str -> res T) s table M,
  is_csv s table -> read_csv (Some s) parser = Ok M ->
  exists m n (A : 'M[T]_(m.+1, n.+1)),
    [/\ M = mat_of A, size table = m.+1, forall i, i < m.+1 -> size (nth [::] table i) = n.+1 &
        forall (i : 'I_m.+1) (j : 'I_n.+1), parser (trim (field table i j)) = Ok (A i j)].
Proof.
move=> T parser s table M cs R; have := R; rewrite read_csvE.
case e: (for_in _ _ _) => [[[d k] cc]|//] /=; case: cc e => [c|//] e.
have [vals [sz pv ed ek [/(_ c erefl)[av _] _]]] := lines_inv e; rewrite /= add0n in ed ek.
rewrite /new /require; case: eqP => [sd|//]; case: andP => [[k0 c0] _|//].
have kt : k = size table by rewrite ek sz (size_lines cs).
case: k k0 sd ek kt e => // m _ sd ek kt e; case: c c0 sd av e => // n _ sd av e.
have sv i : i < m.+1 -> size (nth [::] vals i) = n.+1.
  move=> hi; apply/eqP; have := all_nthP [::] av i; apply; by rewrite -ek.
have szf i : i < m.+1 -> size (nth [::] table i) = n.+1.
  move=> hi; have hi' : i < size table by rewrite -kt.
  have [sl fl] := lines_fields cs hi'; rewrite -(sv i hi); have := pv i; rewrite fl sl => /(_ hi').
  by move/parses_size; rewrite size_map.
have x0 : T by case: d sd {ed e} => [/= sd|x ? _ //]; exfalso; move: sd; rewrite mulSn.
have HA (i : 'I_m.+1) (j : 'I_n.+1) : parser (trim (field table i j)) = Ok ((\matrix_(i < m.+1, j < n.+1) nth x0 (nth [::] vals i) j)%R i j).
  rewrite mxE; have hi' : i < size table by rewrite -kt.
  have [sl fl] := lines_fields cs hi'; have := pv i; rewrite fl sl => /(_ hi').
  move/(congr1 (fun x => nth (Err Panic) x j)); rewrite /field.
  by rewrite -map_comp (nth_map [::]) ?szf // (nth_map x0) ?sv.
exists m, n, (\matrix_(i, j) nth x0 (nth [::] vals i) j)%R; split=> //.
by have := read_csv_ok_L cs (esym kt) szf HA; rewrite R => -[].
Qed.

(*@doc C41: in every other case, and if the file cannot be opened, it panics (a parser can fail only by panicking). *)
Lemma read_csv_panics_L : forall T (parser : str -> res T) file,
  (forall f e, parser f = Err e -> e = Panic) ->
  (exists M, read_csv file parser = Ok M) \/ read_csv file parser = Err Panic.
Proof.
move=> T parser file pp.
have W : wpe panicerr (read_csv file parser) (fun _ => True).
  case: file => [s|] //; rewrite read_csvE; apply: wpe_bind.
  move: ([::], 0, None) => st; elim: (lines s) st => [|l ls IH] [[d k] cc] /=.
    case: cc => [c|] //=; rewrite /new /require; by case: ifP => //; case: ifP.
  apply: wpe_bind; apply: (wpe_bind2 (P := fun _ => True)).
    elim: (split comma l) d => [//|f fs IH2] d /=; apply: wpe_bind.
    by case E: (parser _) => [x|e] /=; [apply: IH2 | apply: pp E].
  move=> d' _; rewrite /usub; case: ifP => //= _.
  by case: cc => [c|] /=; [rewrite /require; case: eqP => //= _|]; apply: IH.
by case: (read_csv file parser) W => [M _|e /= ->]; [left; exists M | right].
Qed.

(*@example
(** The hypotheses are met: "1, 2\n 3,4" is the text of a 2 x 2 table (without
    the last line feed), and the number of non-blank characters is a parser. *)
Definition csv_ex : str := map BinNat.N.of_nat [:: 49; 44; 32; 50; 10; 32; 51; 44; 52].
Example read_csv_hyps : is_csv csv_ex (map (map (map BinNat.N.of_nat)) [:: [:: [:: 49]; [:: 32; 50]]; [:: [:: 32; 51]; [:: 52]]]).
Proof. by split=> //; right. Qed.
Example read_csv_run : read_csv (Some csv_ex) (fun f => Ok (head space f)) = Ok (Mat 2 (map BinNat.N.of_nat [:: 49; 50; 51; 52])).
Proof. by vm_compute. Qed.
@*)

(*@section C42 the m! macro @*)
(*@doc C42: rows of equal positive length give the matrix with these rows. *)
Lemma m_macro_ok_L : forall T m n (A : 'M[T]_(m.+1, n.+1)),
  m_macro [seq [seq A i j | j <- enum 'I_n.+1] | i <- enum 'I_m.+1] = Ok (mat_of A).
Proof.
move=> T m n A; rewrite /m_macro -/(data (mat_of A)) size_map size_enum_ord size_mat_of.
by rewrite /udiv /= mulKn // /new size_mat_of eqxx.
Qed.

(*@doc C42: the same for rows given as lists. *)
Lemma m_macro_rows_L : forall T (rws : seq (seq T)) n, rws <> [::] -> 0 < n -> all (fun r => size r == n) rws ->
  exists M, [/\ m_macro rws = Ok M, rows M = size rws, cols M = Ok n &
    forall i j x0, i < size rws -> j < n -> get M i j = Ok (nth x0 (nth [::] rws i) j)].
Proof.
move=> T rws n ne n0 al.
have r0 : 0 < size rws by case: rws ne al.
have sz : size (flatten rws) = size rws * n.
  by elim: rws al {ne r0} => [//|r rws IH] /= /andP[/eqP e /IH h]; rewrite size_cat e h.
have ez : (size rws == 0) = false by case: (size rws) r0.
exists (Mat (size rws) (flatten rws)); split=> //.
- by rewrite /m_macro /udiv ez /= sz mulKn // /new sz eqxx /= r0 n0.
- by rewrite /cols /udiv /= ez sz mulKn.
move=> i j x0 hi hj; rewrite /get /= hi /cols /udiv /= ez sz mulKn //= hj /= (vgetE x0) ?sz ?idx_lt //.
congr Ok; elim: rws i al hi {ne r0 sz ez} => [//|r rws IH] [|i] /= /andP[/eqP e al] hi.
  by rewrite nth_cat e mul0n add0n hj.
by rewrite nth_cat e mulSn -addnA ltnNge leq_addr /= addKn IH.
Qed.

(*@doc C42 is refuted for rows of different length: m!(1, 2, 3; 4) is accepted and builds the 2 x 2 matrix 1 2; 3 4. *)
Lemma m_macro_ragged_refuted_L : ~ (forall (rws : seq (seq nat)) M, m_macro rws = Ok M ->
  forall r, r \in rws -> cols M = Ok (size r)).
Proof. by move/(_ [:: [:: 1; 2; 3]; [:: 4]] (Mat 2 [:: 1; 2; 3; 4]) erefl [:: 4] isT). Qed.

(*@section C43 Debug output @*)
Lemma iotaSr k j : iota k j.+1 = rcons (iota k j) (k + j).
Proof. by rewrite -addn1 iotaD cats1. Qed.

Lemma padding_ok k s : for_ 0 k (fun _ padding => Ok (padding ++ [:: space])) s = Ok (s ++ nseq k space).
Proof.
rewrite /for_ subn0; move: 0; elim: k s => [|k IH] s lo /=; first by rewrite cats0.
by rewrite IH -catA.
Qed.

Lemma max_width_ok T (show : T -> str) d k :
  foldl (fun maxlen elem => let l := size (show elem) in if l < maxlen then maxlen else l) k d =
  maxn k (\max_(x <- d) size (show x)).
Proof.
elim: d k => [|x d IH] k /=; first by rewrite big_nil maxn0.
by rewrite IH big_cons maxnA; congr maxn; case: ltnP => h; lia.
Qed.

(*@doc C43: the rendering never panics on a constructed matrix and is the printed form of its cells: an empty line,
    then one line per row, each cell right-aligned to the widest element. *)
Lemma fmt_ok_L : forall T (show : T -> str) m n (A : 'M[T]_(m.+1, n.+1)),
  let cells := [seq [seq show (A i j) | j <- enum 'I_n.+1] | i <- enum 'I_m.+1] in
  fmt show (mat_of A) = Ok (print_matrix (widest cells) cells).
Proof.
move=> T show m n A cells; pose x0 := A ord0 ord0; pose f := fn x0 A.
have H := mat_of_rep x0 A; rewrite /fmt max_width_ok max0n.
have -> : \max_(x <- data (mat_of A)) size (show x) = widest cells.
  rewrite /widest /cells /= big_flatten /= [RHS]big_flatten /= !big_map; apply: eq_bigr => i _.
  by rewrite !big_map.
set w := widest cells; rewrite [rows _](rep_no_rows H).
have sw i j : i < m.+1 -> j < n.+1 -> size (show (f i j)) <= w.
  move=> hi hj; rewrite /f (fn_lt _ _ hi hj) /w /widest.
  apply: (@leq_bigmax_seq _ _ xpredT (fun c : str => size c) (show (A (Ordinal hi) (Ordinal hj)))) => //.
  apply/flattenP; exists [seq show (A (Ordinal hi) j) | j <- enum 'I_n.+1]; first by apply/mapP; exists (Ordinal hi); rewrite ?mem_enum.
  by apply/mapP; exists (Ordinal hj); rewrite ?mem_enum.
have R : cells = [seq [seq show (f i j) | j <- iota 0 n.+1] | i <- iota 0 m.+1].
  rewrite /cells -[in RHS](val_enum_ord m.+1) -[RHS]map_comp; apply: eq_map => i.
  by rewrite /comp -[in RHS](val_enum_ord n.+1) -[RHS]map_comp; apply: eq_map => j /=; rewrite /f fnE.
rewrite R; have -> : print_matrix w [seq [seq show (f i j) | j <- iota 0 n.+1] | i <- iota 0 m.+1] =
   [:: LF] ++ flatten [seq print_row w [seq show (f i j) | j <- iota 0 n.+1] ++ [:: LF] | i <- iota 0 m.+1].
  by rewrite /print_matrix -map_comp.
suff : wp (for_ 0 m.+1 (fun row out =>
      let out := out ++ [:: bar] in
      n <-- cols (mat_of A) ;;
      out <-- for_ 0 n (fun col out =>
          v <-- get_ref (mat_of A) row col ;;
          let slen := size (show v) in
          k <-- usub w slen ;;
          padding <-- for_ 0 k (fun _ padding => Ok (padding ++ [:: space])) [:: space] ;;
          Ok (out ++ padding ++ show v)) out ;;
      Ok (out ++ [:: space; bar; LF])) [:: LF])
   (fun out => out = [:: LF] ++ flatten [seq print_row w [seq show (f i j) | j <- iota 0 n.+1] ++ [:: LF] | i <- iota 0 m.+1]).
  by case/wp_ex => out -> ->.
apply: (wpe_for (fun i out => out = [:: LF] ++ flatten [seq print_row w [seq show (f i j) | j <- iota 0 n.+1] ++ [:: LF] | i <- iota 0 i])) => //.
move=> i out /andP[_ hi] ->; rewrite (rep_cols H) //; cbn [bind].
apply: (wpe_bind2 (P := fun o => o = ([:: LF] ++ flatten [seq print_row w [seq show (f i j) | j <- iota 0 n.+1] ++ [:: LF] | i <- iota 0 i]) ++ [:: bar] ++
          flatten [seq space :: right_align w (show (f i j)) | j <- iota 0 n.+1])).
  apply: (wpe_for (fun k o => o = ([:: LF] ++ flatten [seq print_row w [seq show (f i j) | j <- iota 0 n.+1] ++ [:: LF] | i <- iota 0 i]) ++ [:: bar] ++
          flatten [seq space :: right_align w (show (f i j)) | j <- iota 0 k])) => //.
  move=> j o /andP[_ hj] ->; rewrite (rep_get_ref _ _ H) hi hj; cbn [bind andb].
  rewrite /usub sw //; cbn [bind]; rewrite padding_ok; cbn [bind wpe].
  rewrite (iotaSr 0 j) add0n map_rcons flatten_rcons /right_align.
  by rewrite -!catA.
move=> o ->; apply: wpe_ok; rewrite (iotaSr 0 i) add0n map_rcons flatten_rcons.
have P l : print_row w [seq show (f i j) | j <- l] = [:: bar] ++ flatten [seq space :: right_align w (show (f i j)) | j <- l] ++ [:: space; bar] by rewrite /print_row -map_comp.
by rewrite P -!catA.
Qed.

Lemma flatten_split (ls : seq str) : all (fun l => LF \notin l) ls ->
  split LF (flatten [seq l ++ [:: LF] | l <- ls]) = rcons ls [::].
Proof. by elim: ls => [//|l ls IH] /= /andP[h /IH e]; rewrite -catA /= split_cat // e. Qed.

(*@doc C43: if the elements print without line feeds, the output consists of an empty line and one line per row, and
    all these lines have the same width. *)
Lemma fmt_lines_L : forall T (show : T -> str) m n (A : 'M[T]_(m.+1, n.+1)),
  (forall x, LF \notin show x) ->
  exists out rws w, [/\ fmt show (mat_of A) = Ok out, split LF out = [::] :: rcons rws [::], size rws = m.+1 &
     forall r, r \in rws -> size r = n.+1 * w.+1 + 3].
Proof.
move=> T show m n A nl; have := fmt_ok_L show A; set cells := map _ _ => H.
exists (print_matrix (widest cells) cells), [seq print_row (widest cells) r | r <- cells], (widest cells); split=> //.
- rewrite /print_matrix -[LF :: _]/([::] ++ LF :: _) split_cat //; congr (_ :: _).
  rewrite (map_comp (fun l => l ++ [:: LF]) (print_row _)) flatten_split //.
  apply/allP => l /mapP[r /mapP[i _ ->] ->]; rewrite /print_row in_cons mem_cat !negb_or /=.
  apply/andP; split=> //; apply/flattenP => -[c /mapP[f /mapP[j _ ->] ->]].
  rewrite in_cons mem_cat /= mem_nseq /= andbF /=; exact/negP.
- by rewrite size_map /cells size_map size_enum_ord.
move=> r /mapP[cs csc ->]; 
have sc : size cs = n.+1 by case/mapP: csc => i _ ->; rewrite size_map size_enum_ord.
have le c : c \in cs -> size c <= widest cells.
  move=> cc; apply: (@leq_bigmax_seq _ _ xpredT (fun c : str => size c) c) => //; apply/flattenP; by exists cs.
rewrite -sc /print_row -cat1s !size_cat addnCA; congr (_ + 3); elim: cs le {csc sc} => [//|c cs IH] le /=.
rewrite size_cat IH; last by move=> c' h; apply: le; rewrite in_cons h orbT.
by rewrite /right_align size_cat size_nseq subnK ?le // ?in_cons ?eqxx // mulSn addSn.
Qed.

(*@example
(** For instance the 1 x 2 matrix with cells "1" and "-20" prints as "\n|   1 -20 |\n". *)
Example fmt_run : fmt (fun n : nat => map BinNat.N.of_nat (if n == 0 then [:: 49] else [:: 45; 50; 48])) (Mat 1 [:: 0; 1])
  = Ok (map BinNat.N.of_nat [:: 10; 124; 32; 32; 32; 49; 32; 45; 50; 48; 32; 124; 10]).
Proof. by vm_compute. Qed.
@*)
