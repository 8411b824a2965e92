(** * C70: reading a CSV file and printing a matrix, interrupted at any point

    Only property theorems, each closed by a lemma of IOThms.v, and the
    Examples showing that their hypotheses are met.  Generated from IOThms.v by
    tools/genprops.py. *)
From mathcomp Require Import all_ssreflect all_algebra zify.
From Verif Require Import Base Hoare ModelMatrix ModelUtil Spec SpecUtil MatrixProofs ModelUnwind SpecUnwind ModelIO SpecIO UtilThms UnwindThms.
From Verif Require Import IOThms.

Set Implicit Arguments.
Unset Strict Implicit.
Unset Printing Implicit Defensive.



(** ** C70 read_csv *)

(** C70: read_csv parses line by line as [parse_lines] says, with the parser's effects; it returns iff all lines were
    parsed and there is at least one, and then it returns the rows. *)
Theorem read_csv_unwind : forall W T (parser : W -> str -> W * option T) (w : W) (ls : seq (option str)),
  read_csv_u parser w (Some ls) =
  let '(w', rws, ok) := parse_lines parser w None ls in
  (w', if ok && (0 < size rws) then Some (Mat (size rws) (flatten rws)) else None).
Proof. exact: read_csv_unwind_L. Qed.
Print Assumptions read_csv_unwind.

(** C70: in particular the fields are parsed in the order of the text, each at most once: what the calls are made
    on, from first to last, is an initial segment of the fields of the lines before the first one that cannot be
    read; and if read_csv returns, it is all of them. *)
Theorem read_csv_order : forall T (parser : str -> option T) (ls : seq (option str)),
  let log := fun (w : seq str) f => (rcons w f, parser f) in
  let readable := fix go ls := if ls is Some l :: ls' then l :: go ls' else [::] in
  let '(w', M) := read_csv_u log [::] (Some ls) in
  let all_fields := flatten [seq fields l | l <- readable ls] in
  (exists rest, all_fields = w' ++ rest) /\
  (M <> None -> w' = all_fields /\ size (readable ls) = size ls).
Proof. exact: read_csv_order_L. Qed.
Print Assumptions read_csv_order.

(** C70: opening the file fails: no call is made. *)
Theorem read_csv_unopened : forall W T (parser : W -> str -> W * option T) (w : W), read_csv_u parser w None = (w, None).
Proof. exact: read_csv_unopened_L. Qed.
Print Assumptions read_csv_unopened.

(** C70: on a file that can be read to its end, with a parser without effects, this is the read_csv of C41. *)
Theorem read_csv_agrees : forall T (parser : str -> res T) (text : str),
  read_csv_u (fun (_ : unit) f => (tt, to_opt (parser f))) tt (Some (map Some (lines text))) =
  (tt, to_opt (read_csv (Some text) parser)).
Proof. exact: read_csv_agrees_L. Qed.
Print Assumptions read_csv_agrees.

(** ** C70 Debug *)

(** C70: Debug writes the pieces of the printed form one after the other, each at most once, and stops with an error
    at the first one the formatter fails to write; it does not panic.  [show] gives the strings that the Debug of an
    element writes. *)
Theorem fmt_unwind : forall W T (write : W -> str -> W * bool) (show : T -> seq str) (w : W) m n (A : 'M[T]_(m.+1, n.+1)),
  let cells := [seq [seq show (A i j) | j <- enum 'I_n.+1] | i <- enum 'I_m.+1] in
  fmt_u write show w (mat_of A) = write_all write w (pieces (widest [seq map flatten row | row <- cells]) cells).
Proof. exact: fmt_unwind_L. Qed.
Print Assumptions fmt_unwind.

(** C70: print writes the same pieces to standard output and panics iff one of them could not be written. *)
Theorem print_unwind : forall W T (write : W -> str -> W * bool) (show : T -> seq str) (w : W) m n (A : 'M[T]_(m.+1, n.+1)),
  let cells := [seq [seq show (A i j) | j <- enum 'I_n.+1] | i <- enum 'I_m.+1] in
  print_u write show w (mat_of A) =
  let '(w', ok) := write_all write w (pieces (widest [seq map flatten row | row <- cells]) cells) in
  (w', if ok then Some tt else None).
Proof. exact: print_unwind_L. Qed.
Print Assumptions print_unwind.

(** C70: written completely, the pieces are the printed form of C43. *)
Theorem fmt_pieces : forall w (cells : seq (seq (seq str))),
  flatten (pieces w cells) = print_matrix w [seq map flatten row | row <- cells].
Proof. exact: fmt_pieces_L. Qed.
Print Assumptions fmt_pieces.

(** C70: a formatter without failures gets the whole text; one that fails gets an initial segment of the pieces. *)
Theorem fmt_prefix : forall T (ok : seq str -> str -> bool) (show : T -> seq str) m n (A : 'M[T]_(m.+1, n.+1)),
  let cells := [seq [seq show (A i j) | j <- enum 'I_n.+1] | i <- enum 'I_m.+1] in
  let all_pieces := pieces (widest [seq map flatten row | row <- cells]) cells in
  let '(written, res) := fmt_u (fun w s => if ok w s then (rcons w s, true) else (w, false)) show [::] (mat_of A) in
  (exists rest, all_pieces = written ++ rest) /\ (res = true <-> written = all_pieces).
Proof. exact: fmt_prefix_L. Qed.
Print Assumptions fmt_prefix.

(** A 2 x 2 CSV file whose second line has a third field: the fields are all parsed before read_csv panics. *)
Definition num_parser (w : seq str) (f : str) : seq str * option nat := (rcons w f, Some (size f)).
Definition txt (s : seq nat) : str := map BinNat.N.of_nat s.
Example read_csv_ragged :
  read_csv_u num_parser [::] (Some [:: Some (txt [:: 49; 44; 32; 50]); Some (txt [:: 51; 44; 52; 44; 53]); Some (txt [:: 54])]) =
  ([:: txt [:: 49]; txt [:: 50]; txt [:: 51]; txt [:: 52]; txt [:: 53]], None).
Proof. by vm_compute. Qed.

(** The second line cannot be read: nothing of it or after it is parsed. *)
Example read_csv_unreadable :
  read_csv_u num_parser [::] (Some [:: Some (txt [:: 49; 44; 32; 50]); None; Some (txt [:: 54; 44; 55])]) =
  ([:: txt [:: 49]; txt [:: 50]], None).
Proof. by vm_compute. Qed.

(** A formatter with room for three strings: the line feed, the bar and the first padding. *)
Example fmt_full :
  fmt_u (fun (w : seq str) s => if size w < 3 then (rcons w s, true) else (w, false)) (fun x : nat => [:: txt [:: x]])
    [::] (Mat 1 [:: 49; 50]) = ([:: [:: LF]; [:: bar]; [:: space]], false).
Proof. by vm_compute. Qed.
