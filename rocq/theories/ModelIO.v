(** * ModelIO: read_csv (src/util.rs) and Debug for Matrix (matrix.rs:536-567)
    with the effects they have on the outside: the calls of the parser, read
    errors, and a formatter that can fail.

    ModelUtil.v describes the same two functions on a file that can be read
    to its end, with a parser that has no effects, and the whole text printed
    by Debug.  Here, as in ModelUnwind.v, [W] is the world that the parser or
    the formatter acts on, and a run keeps it when it stops early. *)
From mathcomp Require Import all_ssreflect.
From Verif Require Import Base ModelMatrix ModelUtil ModelUnwind.

Set Implicit Arguments.
Unset Strict Implicit.
Unset Printing Implicit Defensive.

(** [for x in xs { body }] on a state that survives a panic or an early return *)
Fixpoint for_in_u B St (xs : seq B) (body : B -> St -> St * bool) (st : St) : St * bool :=
  match xs with
  | [::] => (st, true)
  | x :: xs' => let '(st', ok) := body x st in
                if ok then for_in_u xs' body st' else (st', false)
  end.

Section Csv.
Variables W T : Type.

(** util.rs:9-35.  [file] is [None] if opening the file fails, and otherwise
    what the iterator [buf_reader.lines()] yields: [Some line] (without its
    line end), or [None] for a read error or a line that is not UTF-8.
    [parser] acts on the world and may panic ([None]). *)
Definition read_csv_u (parser : W -> str -> W * option T) (w : W) (file : option (seq (option str)))
    : W * option (mat T) :=
  match file with
  | None => (w, None)                            (* util.rs:14 unwrap *)
  | Some ls =>
    let '((w, data, row_count, col_count), ok) := for_in_u ls (fun line st =>
        let '(w, data, row_count, col_count) := st in
        let element_count := size data in
        match line with
        | None => (st, false)                    (* util.rs:17 line.unwrap() *)
        | Some line =>
          let '((w, data), ok) := for_in_u (split comma line) (fun item st =>
              let '(w, data) := st in
              let '(w, x) := parser w (trim item) in
              match x with
              | None => ((w, data), false)
              | Some x => ((w, rcons data x), true)
              end) (w, data) in
          if ~~ ok then ((w, data, row_count, col_count), false) else
          line_col_count <~ usub (size data) element_count or (w, data, row_count, col_count) ;;
          match col_count with
          | None => ((w, data, row_count + 1, Some line_col_count), true)
          | Some c => if c == line_col_count then ((w, data, row_count + 1, col_count), true)
                      else ((w, data, row_count, col_count), false)
          end
        end) (w, [::], 0, None) in
    (w, if ok then match col_count with None => None | Some c => to_opt (new row_count c data) end else None)
  end.
End Csv.

Section Fmt.
Variables W T : Type.

(** matrix.rs:544-566.  [write w s] is [fmt.write_str(s)]: [false] is
    [Err(fmt::Error)], on which try! returns.  [show x] are the strings that
    the element's own Debug writes, one after the other;
    [write!(fmt, "{}{:?}", padding, v)] writes [padding] and then these.
    Returns the world and whether [Ok(())] was returned. *)
Definition fmt_u (write : W -> str -> W * bool) (show : T -> seq str) (w : W) (M : mat T) : W * bool :=
  let text v := flatten (show v) in
  let max_width := foldl (fun maxlen elem =>
      let l := size (text elem) in if l < maxlen then maxlen else l) 0 (data M) in
  let '(w, ok) := write w [:: LF] in
  if ~~ ok then (w, false) else
  for_u (rows M) 0 (fun row w =>
    let '(w, ok) := write w [:: bar] in
    if ~~ ok then (w, false) else
    n <~ cols M or w ;;
    let '(w, ok) := for_u n 0 (fun col w =>
        v <~ get_ref M row col or w ;;
        let slen := size (text v) in
        k <~ usub max_width slen or w ;;
        padding <~ for_ 0 k (fun _ padding => Ok (padding ++ [:: space])) [:: space] or w ;;
        for_in_u (padding :: show v) (fun s w => write w s) w) w in
    if ~~ ok then (w, false) else
    write w [:: space; bar; LF]) w.

(** matrix.rs:538-540.  [print!("{:?}", self)]: [write] is writing a string to
    standard output; [print!] panics if the formatter returned an error. *)
Definition print_u (write : W -> str -> W * bool) (show : T -> seq str) (w : W) (M : mat T) : W * option unit :=
  let '(w, ok) := fmt_u write show w M in (w, if ok then Some tt else None).
End Fmt.
