(** * SpecIO: what read_csv and Debug do to the outside, for C70. *)
From mathcomp Require Import all_ssreflect all_algebra.
From Verif Require Import Base ModelMatrix ModelUtil SpecUtil SpecUnwind.

Set Implicit Arguments.
Unset Strict Implicit.
Unset Printing Implicit Defensive.

(** The fields of a line, without the white space around them. *)
Definition fields (line : str) : seq str := [seq trim f | f <- split comma line].

(** Parse the lines one by one.  A line that cannot be read ends it, a call
    that panics ends it, and so does a line with another number of fields than
    the line before -- after all of its fields have been parsed.  Result: the
    world, the rows parsed completely before the end, and whether all lines
    were. *)
Fixpoint parse_lines W T (parser : W -> str -> W * option T) (w : W) (width : option nat) (ls : seq (option str))
    : W * seq (seq T) * bool :=
  match ls with
  | [::] => (w, [::], true)
  | None :: _ => (w, [::], false)
  | Some line :: ls' =>
    let '(w', row, ok) := calls parser w (fields line) in
    if ok && (if width is Some c then c == size row else true) then
      let '(w'', rws, ok') := parse_lines parser w' (Some (size row)) ls' in (w'', row :: rws, ok')
    else (w', [::], false)
  end.

(** The strings the printed form of a matrix is written in: a line feed; for
    every row a bar, for every cell its padding and its own pieces, and " |"
    with a line feed. *)
Definition cell_pieces (w : nat) (cell : seq str) : seq str := nseq (w - size (flatten cell)).+1 space :: cell.
Definition row_pieces (w : nat) (row : seq (seq str)) : seq str :=
  [:: bar] :: flatten [seq cell_pieces w c | c <- row] ++ [:: [:: space; bar; LF]].
Definition pieces (w : nat) (cells : seq (seq (seq str))) : seq str :=
  [:: LF] :: flatten [seq row_pieces w row | row <- cells].

(** Write the strings in order up to the first failure. *)
Fixpoint write_all W (write : W -> str -> W * bool) (w : W) (l : seq str) : W * bool :=
  match l with
  | [::] => (w, true)
  | s :: l' => let '(w', ok) := write w s in if ok then write_all write w' l' else (w', false)
  end.
