(** * [std::fstream], the stream of the README and of most examples
    (README.md, docs/schema/index.md, docs/writing.md, test/doc_examples/*.cpp).  "A file
    stream shares one position between reads and writes."

    The standard's [basic_istream::read], [basic_ostream::write] and [seekg] over a
    [basic_filebuf] opened for both.  Reading right after writing or writing right after
    reading, without a positioning call in between, is undefined ([filebuf], C's rules for
    [FILE]); what happens then is left open ([undef_read], [undef_write]). *)
From Verif Require Export Prog.
Local Open Scope Z_scope.

Inductive last_op := Positioned | Reading | Writing.

Record file := mkFile { f_buf : list Z; f_pos : nat; f_last : last_op; f_fail : bool }.

Section Undefined.
Variable undef_read : file -> Z -> option (list Z) * file.
Variable undef_write : file -> list Z -> bool * file.

(** [read]: nothing when the state is bad; otherwise what there is, up to [n]
    characters; fewer than [n] set the fail bit. *)
Definition file_read (s : file) (n : Z) : option (list Z) * file :=
  if f_fail s then (None, s)
  else match f_last s with
  | Writing => undef_read s n
  | _ =>
      let left := skipn (f_pos s) (f_buf s) in
      if n <=? Z.of_nat (length left)
      then (Some (firstn (Z.to_nat n) left),
            mkFile (f_buf s) (f_pos s + Z.to_nat n) Reading false)
      else (None, mkFile (f_buf s) (f_pos s + length left) Reading true)
  end.

(** The file with [bs] put at position [p]; a gap before it is filled with zeros. *)
Definition overwrite (buf : list Z) (p : nat) (bs : list Z) : list Z :=
  match bs with
  | [] => buf
  | _ => firstn p (buf ++ repeat 0 (p - length buf)) ++ bs ++ skipn (p + length bs) buf
  end.

Definition file_write (s : file) (bs : list Z) : bool * file :=
  if f_fail s then (false, s)
  else match f_last s with
  | Reading => undef_write s bs
  | _ => (true, mkFile (overwrite (f_buf s) (f_pos s) bs) (f_pos s + length bs) Writing false)
  end.

Definition file_istream : istream := mkI file file_read.
Definition file_ostream : ostream := mkO file file_write.
End Undefined.

(** [seekg(p)]: nothing on a failed stream. *)
Definition seekg (p : nat) (s : file) : file :=
  if f_fail s then s else mkFile (f_buf s) p Positioned false.

(** [clear()] *)
Definition clear (s : file) : file := mkFile (f_buf s) (f_pos s) (f_last s) false.
