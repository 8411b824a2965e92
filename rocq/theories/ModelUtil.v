(** * ModelUtil: src/util.rs (read_csv), src/macros.rs (m!), Debug for Matrix
    (matrix.rs:536-567). *)
From Coq Require Import BinNat.
From mathcomp Require Import all_ssreflect.
From Verif Require Import Base ModelMatrix.

Set Implicit Arguments.
Unset Strict Implicit.
Unset Printing Implicit Defensive.

(** A char is its Unicode scalar value. *)
Notation char := BinNums.N.
Definition str := seq char.
Definition LF : char := 10%num.
Definition CR : char := 13%num.
Definition comma : char := 44%num.
Definition space : char := 32%num.
Definition bar : char := 124%num.

(** std: char::is_whitespace, the Unicode property White_Space *)
Definition is_whitespace (c : char) : bool :=
  [|| N.leb 9 c && N.leb c 13, N.eqb c 32, N.eqb c 133, N.eqb c 160, N.eqb c 5760,
      N.leb 8192 c && N.leb c 8202, N.eqb c 8232, N.eqb c 8233, N.eqb c 8239, N.eqb c 8287 | N.eqb c 12288].

(** std: str::trim *)
Fixpoint trim_start (s : str) : str :=
  match s with
  | [::] => [::]
  | x :: s' => if is_whitespace x then trim_start s' else s
  end.
Definition trim_end (s : str) : str := rev (trim_start (rev s)).
Definition trim (s : str) : str := trim_end (trim_start s).

(** std: str::split with a one-char pattern; n separators give n+1 pieces *)
Fixpoint split (c : char) (s : str) : seq str :=
  match s with
  | [::] => [:: [::]]
  | x :: s' =>
      if x == c then [::] :: split c s'
      else match split c s' with
           | h :: t => (x :: h) :: t
           | [::] => [:: [:: x]]
           end
  end.

(** std: BufRead::lines.  Repeated read_until(LF): each piece keeps its LF;
    nothing is produced at end of file. *)
Fixpoint read_lines (s : str) : seq str :=
  match s with
  | [::] => [::]
  | x :: s' =>
      if x == LF then [:: LF] :: read_lines s'
      else match read_lines s' with
           | h :: t => (x :: h) :: t
           | [::] => [:: [:: x]]
           end
  end.
(** ... and a final LF, then a final CR before it, is removed. *)
Definition chomp (l : str) : str :=
  match rev l with
  | x :: r => if x == LF then rev (if r is y :: r' then if y == CR then r' else r else r) else l
  | [::] => l
  end.
Definition lines (s : str) : seq str := map chomp (read_lines s).

(** [for x in xs { body }] *)
Fixpoint for_in A B (xs : seq B) (body : B -> A -> res A) (s : A) : res A :=
  match xs with
  | [::] => Ok s
  | x :: xs' => s' <-- body x s ;; for_in xs' body s'
  end.

Section Csv.
Variable T : Type.

(** util.rs:9-35.  [file] is the text of the named file, [None] if opening it
    fails (unwrap panics).  Simplifications: the text is valid UTF-8 and
    reading never fails after opening; [parser] may panic. *)
Definition read_csv (file : option str) (parser : str -> res T) : res (mat T) :=
  match file with
  | None => Err Panic
  | Some text =>
      '(data, row_count, col_count) <-- for_in (lines text) (fun line st =>
          let '(data, row_count, col_count) := st in
          let element_count := size data in
          data <-- for_in (split comma line) (fun item data =>
              x <-- parser (trim item) ;;
              Ok (rcons data x)) data ;;
          line_col_count <-- usub (size data) element_count ;;
          col_count <-- (match col_count with
                         | None => Ok (Some line_col_count)
                         | Some c => assert! (c == line_col_count) ;; Ok col_count
                         end) ;;
          Ok (data, row_count + 1, col_count)) ([::], 0, None) ;;
      match col_count with
      | None => Err Panic                (* util.rs:32 assert *)
      | Some c => new row_count c data
      end
  end.

(** macros.rs:17-33: m!(row; row; ...) with the rows given as lists of
    elements.  [_rows] counts the rows, [_cols] is (number of elements)/_rows. *)
Definition m_macro (rws : seq (seq T)) : res (mat T) :=
  let items := flatten rws in
  let _rows := size rws in
  _cols <-- udiv (size items) _rows ;;
  new _rows _cols items.

(** matrix.rs:544-566, the string appended to the formatter.  [show x] is
    format!("{:?}", x); its length is the number of bytes, so here a string is
    its sequence of bytes. *)
Definition fmt (show : T -> str) (M : mat T) : res str :=
  let max_width := foldl (fun maxlen elem =>
      let l := size (show elem) in if l < maxlen then maxlen else l) 0 (data M) in
  for_ 0 (rows M) (fun row out =>
      let out := out ++ [:: bar] in
      n <-- cols M ;;
      out <-- for_ 0 n (fun col out =>
          v <-- get_ref M row col ;;
          let slen := size (show v) in
          k <-- usub max_width slen ;;
          padding <-- for_ 0 k (fun _ padding => Ok (padding ++ [:: space])) [:: space] ;;
          Ok (out ++ padding ++ show v)) out ;;
      Ok (out ++ [:: space; bar; LF])) [:: LF].
End Csv.
