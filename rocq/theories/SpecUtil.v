(** * SpecUtil: what a CSV text, trimming and the printed form of a matrix
    are, independently of read_csv and fmt. *)
From Coq Require Import BinNat.
From mathcomp Require Import all_ssreflect all_algebra.
From Verif Require Import Base ModelMatrix ModelUtil.

Set Implicit Arguments.
Unset Strict Implicit.
Unset Printing Implicit Defensive.

(** f1,f2,..,fn *)
Fixpoint join (c : char) (fs : seq str) : str :=
  match fs with
  | [::] => [::]
  | [:: f] => f
  | f :: fs' => f ++ c :: join c fs'
  end.

(** A table: at least one field per line, fields without comma or line feed. *)
Definition csv_row (row : seq str) : bool :=
  (row != [::]) && all (fun f => (comma \notin f) && (LF \notin f)) row.
Definition csv_table (table : seq (seq str)) : bool := all csv_row table.

(** Its text: the fields of a line separated by commas, a line feed after each line. *)
Definition csv_text (table : seq (seq str)) : str :=
  flatten [seq join comma row ++ [:: LF] | row <- table].

(** [s] is the text of the table, possibly without the last line feed (which
    may be left out only if the last line is not empty). *)
Definition is_csv (s : str) (table : seq (seq str)) : Prop :=
  csv_table table /\
  (s = csv_text table \/ [/\ s ++ [:: LF] = csv_text table, s != [::] & last LF s != LF]).

(** The 25 code points with the Unicode property White_Space: TAB, LF, VT, FF, CR, SPACE, NEL, NBSP,
    OGHAM SPACE MARK, EN QUAD .. HAIR SPACE, LINE and PARAGRAPH SEPARATOR, NNBSP, MMSP, IDEOGRAPHIC SPACE. *)
Definition White_Space : seq char :=
  [:: 9%num; 10%num; 11%num; 12%num; 13%num; 32%num; 133%num; 160%num; 5760%num; 8192%num; 8193%num; 8194%num;
      8195%num; 8196%num; 8197%num; 8198%num; 8199%num; 8200%num; 8201%num; 8202%num;
      8232%num; 8233%num; 8239%num; 8287%num; 12288%num].

(** [t] is [s] without the white space at both ends. *)
Definition trimmed (s t : str) : Prop :=
  exists a b, [/\ s = a ++ t ++ b, all (mem White_Space) a, all (mem White_Space) b &
    t = [::] \/ (head space t \notin White_Space) /\ (last space t \notin White_Space)].

(** field j of line i *)
Definition field (table : seq (seq str)) (i j : nat) : str := nth [::] (nth [::] table i) j.

(** ** Printed form *)
(** [s] right-aligned in [w] columns *)
Definition right_align (w : nat) (s : str) : str := nseq (w - size s) space ++ s.
(** One line: a bar, every cell right-aligned to width [w] after a space, a space, a bar *)
Definition print_row (w : nat) (cells : seq str) : str :=
  bar :: flatten [seq space :: right_align w c | c <- cells] ++ [:: space; bar].
(** All lines, after an empty one *)
Definition print_matrix (w : nat) (cells : seq (seq str)) : str :=
  LF :: flatten [seq print_row w row ++ [:: LF] | row <- cells].
(** width of the widest cell *)
Definition widest (cells : seq (seq str)) : nat := \max_(c <- flatten cells) size c.
