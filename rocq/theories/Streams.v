(** * Reference streams *)
From Verif Require Export Prog CTypes.

(** [byte_stream] (docs/streams.md, "A reference implementation";
    test/doc_examples/guide_stream_example.cpp): a growing buffer, a read
    position, a health flag that never recovers. *)
Record bst := mkBst { b_buf : list Z; b_pos : Z; b_ok : bool }.

(** [read]: the bound check adds two [size_t]s.  When the sum wraps around, the
    copy runs past the end of the buffer; [junk] is whatever is found there.  The
    library tests the flag after each access (read_impl.hpp:39,57). *)
Definition bst_read (szw : nat) (junk : Z -> list Z) (s : bst) (n : Z)
  : option (list Z) * bst :=
  let sz := Z.of_nat (length (b_buf s)) in
  if sz <? (b_pos s + n) mod pow256 szw then (None, mkBst (b_buf s) (b_pos s) false)
  else
    let s' := mkBst (b_buf s) ((b_pos s + n) mod pow256 szw) (b_ok s) in
    let bs := if b_pos s + n <=? sz
              then firstn (Z.to_nat n) (skipn (Z.to_nat (b_pos s)) (b_buf s))
              else junk n in
    if b_ok s then (Some bs, s') else (None, s').

Definition byte_stream (szw : nat) (junk : Z -> list Z) : istream :=
  mkI bst (bst_read szw junk).

(** [write]: appends; the flag is unchanged. *)
Definition bst_write (s : bst) (bs : list Z) : bool * bst :=
  (b_ok s, mkBst (b_buf s ++ bs) (b_pos s) (b_ok s)).

Definition byte_ostream : ostream := mkO bst bst_write.

(** [memstream<N>] (test/utils/constexpr_memstream.hpp:17-60): a fixed buffer of
    [N] bytes, a read index, a write index, a flag. *)
Record mst := mkMst { m_buf : list Z; m_rd : nat; m_wr : nat; m_bad : bool }.

(** [read] (29-40): byte by byte, so a read that runs out has advanced to the
    end.  [max_read_idx] is [buffer.size() - 1], a [size_t]: for an empty buffer
    the first access is out of bounds ([junk]). *)
Fixpoint mst_loop (szw : nat) (junk : Z) (buf : list Z) (rd n : nat)
  : option (list Z) * nat :=
  match n with
  | O => (Some [], rd)
  | S n' =>
      if (Z.of_nat (length buf) - 1) mod pow256 szw <? Z.of_nat rd then (None, rd)
      else match mst_loop szw junk buf (S rd) n' with
           | (Some bs, rd') => (Some (nth rd buf junk :: bs), rd')
           | (None, rd') => (None, rd')
           end
  end.

Definition mst_read (szw : nat) (junk : Z) (s : mst) (n : Z) : option (list Z) * mst :=
  match mst_loop szw junk (m_buf s) (m_rd s) (Z.to_nat n) with
  | (Some bs, rd) =>
      (if m_bad s then None else Some bs, mkMst (m_buf s) rd (m_wr s) (m_bad s))
  | (None, rd) => (None, mkMst (m_buf s) rd (m_wr s) true)
  end.

Definition memstream (szw : nat) (junk : Z) : istream := mkI mst (mst_read szw junk).

(** [write] (42-53): byte by byte, overwriting the buffer from the write index. *)
Fixpoint mst_store (buf : list Z) (wr : nat) (bs : list Z) : bool * (list Z * nat) :=
  match bs with
  | [] => (true, (buf, wr))
  | b :: bs' =>
      if Nat.ltb wr (length buf)
      then mst_store (firstn wr buf ++ b :: skipn (S wr) buf) (S wr) bs'
      else (false, (buf, wr))
  end.

Definition mst_write (s : mst) (bs : list Z) : bool * mst :=
  match mst_store (m_buf s) (m_wr s) bs with
  | (true, (buf, wr)) => (negb (m_bad s), mkMst buf (m_rd s) wr (m_bad s))
  | (false, (buf, wr)) => (false, mkMst buf (m_rd s) wr true)
  end.

Definition mem_ostream : ostream := mkO mst mst_write.

(** The other [memstream<N>] (docs/compile-time.md, "Parsing at compile time";
    test/doc_examples/guide_constexpr_example.cpp:17-40): read only; the index is
    compared with the size itself. *)
Record dst := mkDst { d_buf : list Z; d_rd : nat; d_ok : bool }.

Fixpoint dst_loop (junk : Z) (buf : list Z) (rd n : nat) : option (list Z) * nat :=
  match n with
  | O => (Some [], rd)
  | S n' =>
      if Nat.leb (length buf) rd then (None, rd)
      else match dst_loop junk buf (S rd) n' with
           | (Some bs, rd') => (Some (nth rd buf junk :: bs), rd')
           | (None, rd') => (None, rd')
           end
  end.

Definition dst_read (junk : Z) (s : dst) (n : Z) : option (list Z) * dst :=
  match dst_loop junk (d_buf s) (d_rd s) (Z.to_nat n) with
  | (Some bs, rd) => (if d_ok s then Some bs else None, mkDst (d_buf s) rd (d_ok s))
  | (None, rd) => (None, mkDst (d_buf s) rd false)
  end.

Definition doc_memstream (junk : Z) : istream := mkI dst (dst_read junk).

(** [std::stringstream], the stream of the write-side tests (test/**/*_write*.cpp),
    accepted through [std_read_trait] and [std_write_trait]
    (include/stream/stream_traits.hpp:17-25).  The standard's [basic_istream::read]
    and [basic_ostream::write] over a [basic_stringbuf] opened for both: a buffer,
    a get position, a put position, one state.  [good()] and [!fail()] are not told
    apart: with these two operations the end-of-file bit comes with the fail bit. *)
Record sst := mkSst { ss_buf : list Z; ss_get : nat; ss_put : nat; ss_fail : bool }.

(** [read]: nothing when the state is bad; otherwise what there is, up to [n]
    characters; fewer than [n] set the fail bit. *)
Definition sst_read (s : sst) (n : Z) : option (list Z) * sst :=
  if ss_fail s then (None, s)
  else
    let left := skipn (ss_get s) (ss_buf s) in
    if n <=? Z.of_nat (length left)
    then (Some (firstn (Z.to_nat n) left),
          mkSst (ss_buf s) (ss_get s + Z.to_nat n) (ss_put s) false)
    else (None, mkSst (ss_buf s) (ss_get s + length left) (ss_put s) true).

Definition string_stream : istream := mkI sst sst_read.

(** [write]: nothing when the state is bad; otherwise overwrites from the put
    position and extends the buffer. *)
Definition sst_write (s : sst) (bs : list Z) : bool * sst :=
  if ss_fail s then (false, s)
  else (true, mkSst (firstn (ss_put s) (ss_buf s) ++ bs ++ skipn (ss_put s + length bs) (ss_buf s))
                    (ss_get s) (ss_put s + length bs) false).

Definition string_ostream : ostream := mkO sst sst_write.
