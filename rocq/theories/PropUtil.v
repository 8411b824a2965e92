(** * C41-C43: CSV reading, the m! macro, Debug output

    Only property theorems, each closed by a lemma of UtilThms.v, and the
    Examples showing that their hypotheses are met.  Generated from UtilThms.v by
    tools/genprops.py. *)
From mathcomp Require Import all_ssreflect all_algebra zify.
From Verif Require Import Base Hoare ModelMatrix ModelUtil Spec SpecUtil MatrixProofs.
From Verif Require Import UtilThms.

Set Implicit Arguments.
Unset Strict Implicit.
Unset Printing Implicit Defensive.



(** ** C41 CSV reading *)

(** C41: trim removes exactly the white space at both ends. *)
Theorem trim_ok : forall s, trimmed s (trim s).
Proof. exact: trim_ok_L. Qed.
Print Assumptions trim_ok.

(** C41: every text is the text of a table, so the theorems below cover every file. *)
Theorem is_csv_total : forall s, exists table, is_csv s table.
Proof. exact: is_csv_total_L. Qed.
Print Assumptions is_csv_total.

(** C41: a text whose lines all have the same number of fields, all of which parse, is read as the matrix of the
    parsed trimmed fields. *)
Theorem read_csv_ok : forall T (parser : str -> res T) s table m n (A : 'M[T]_(m.+1, n.+1)),
  is_csv s table -> size table = m.+1 -> (forall i, i < m.+1 -> size (nth [::] table i) = n.+1) ->
  (forall (i : 'I_m.+1) (j : 'I_n.+1), parser (trim (field table i j)) = Ok (A i j)) ->
  read_csv (Some s) parser = Ok (mat_of A).
Proof. exact: read_csv_ok_L. Qed.
Print Assumptions read_csv_ok.

(** C41: conversely, read_csv returns only if the text has at least one line, all lines have the same number of
    fields and every trimmed field parses; the matrix is then the one of the parsed fields. *)
Theorem read_csv_sound : forall T (parser : str -> res T) s table M,
  is_csv s table -> read_csv (Some s) parser = Ok M ->
  exists m n (A : 'M[T]_(m.+1, n.+1)),
    [/\ M = mat_of A, size table = m.+1, forall i, i < m.+1 -> size (nth [::] table i) = n.+1 &
        forall (i : 'I_m.+1) (j : 'I_n.+1), parser (trim (field table i j)) = Ok (A i j)].
Proof. exact: read_csv_sound_L. Qed.
Print Assumptions read_csv_sound.

(** C41: in every other case, and if the file cannot be opened, it panics (a parser can fail only by panicking). *)
Theorem read_csv_panics : forall T (parser : str -> res T) file,
  (forall f e, parser f = Err e -> e = Panic) ->
  (exists M, read_csv file parser = Ok M) \/ read_csv file parser = Err Panic.
Proof. exact: read_csv_panics_L. Qed.
Print Assumptions read_csv_panics.

(** The hypotheses are met: "1, 2\n 3,4" is the text of a 2 x 2 table (without
    the last line feed), and the number of non-blank characters is a parser. *)
Definition csv_ex : str := map BinNat.N.of_nat [:: 49; 44; 32; 50; 10; 32; 51; 44; 52].
Example read_csv_hyps : is_csv csv_ex (map (map (map BinNat.N.of_nat)) [:: [:: [:: 49]; [:: 32; 50]]; [:: [:: 32; 51]; [:: 52]]]).
Proof. by split=> //; right. Qed.
Example read_csv_run : read_csv (Some csv_ex) (fun f => Ok (head space f)) = Ok (Mat 2 (map BinNat.N.of_nat [:: 49; 50; 51; 52])).
Proof. by vm_compute. Qed.

(** ** C42 the m! macro *)

(** C42: rows of equal positive length give the matrix with these rows. *)
Theorem m_macro_ok : forall T m n (A : 'M[T]_(m.+1, n.+1)),
  m_macro [seq [seq A i j | j <- enum 'I_n.+1] | i <- enum 'I_m.+1] = Ok (mat_of A).
Proof. exact: m_macro_ok_L. Qed.
Print Assumptions m_macro_ok.

(** C42: the same for rows given as lists. *)
Theorem m_macro_rows : forall T (rws : seq (seq T)) n, rws <> [::] -> 0 < n -> all (fun r => size r == n) rws ->
  exists M, [/\ m_macro rws = Ok M, rows M = size rws, cols M = Ok n &
    forall i j x0, i < size rws -> j < n -> get M i j = Ok (nth x0 (nth [::] rws i) j)].
Proof. exact: m_macro_rows_L. Qed.
Print Assumptions m_macro_rows.

(** C42 is refuted for rows of different length: m!(1, 2, 3; 4) is accepted and builds the 2 x 2 matrix 1 2; 3 4. *)
Theorem m_macro_ragged_refuted : ~ (forall (rws : seq (seq nat)) M, m_macro rws = Ok M ->
  forall r, r \in rws -> cols M = Ok (size r)).
Proof. exact: m_macro_ragged_refuted_L. Qed.
Print Assumptions m_macro_ragged_refuted.

(** ** C43 Debug output *)

(** C43: the rendering never panics on a constructed matrix and is the printed form of its cells: an empty line,
    then one line per row, each cell right-aligned to the widest element. *)
Theorem fmt_ok : forall T (show : T -> str) m n (A : 'M[T]_(m.+1, n.+1)),
  let cells := [seq [seq show (A i j) | j <- enum 'I_n.+1] | i <- enum 'I_m.+1] in
  fmt show (mat_of A) = Ok (print_matrix (widest cells) cells).
Proof. exact: fmt_ok_L. Qed.
Print Assumptions fmt_ok.

(** C43: if the elements print without line feeds, the output consists of an empty line and one line per row, and
    all these lines have the same width. *)
Theorem fmt_lines : forall T (show : T -> str) m n (A : 'M[T]_(m.+1, n.+1)),
  (forall x, LF \notin show x) ->
  exists out rws w, [/\ fmt show (mat_of A) = Ok out, split LF out = [::] :: rcons rws [::], size rws = m.+1 &
     forall r, r \in rws -> size r = n.+1 * w.+1 + 3].
Proof. exact: fmt_lines_L. Qed.
Print Assumptions fmt_lines.

(** For instance the 1 x 2 matrix with cells "1" and "-20" prints as "\n|   1 -20 |\n". *)
Example fmt_run : fmt (fun n : nat => map BinNat.N.of_nat (if n == 0 then [:: 49] else [:: 45; 50; 48])) (Mat 1 [:: 0; 1])
  = Ok (map BinNat.N.of_nat [:: 10; 124; 32; 32; 32; 49; 32; 45; 50; 48; 32; 124; 10]).
Proof. by vm_compute. Qed.
