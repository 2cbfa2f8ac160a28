(** * Casts as programs over a stream

    The library interacts with its environment through exactly three
    operations: [s.read(p, n)] followed by a test of the stream's health
    (include/field_read/read_impl.hpp:39,57), [s.write(p, n)] likewise
    (include/field_write/write_impl.hpp:18,26), and [obj.resize(n)]
    (read_impl.hpp:81, field_reader.hpp:161).  A cast is a tree of such requests;
    what follows a request may depend on the bytes it delivered. *)
From Verif Require Export Bytes.

(** include/error/cast_error.hpp:9-23 [error_reason]. *)
Inductive reason :=
| BufferExhaustion
| ValidationFailure
| TypeDeductionFailure
| FoundContradictingLength
| ExcessiveLength.

(** [RRead n e k]: ask the stream for [n] bytes; if it goes bad, fail with [e];
    otherwise continue with the bytes.  [RAlloc n k]: a resize requesting [n]
    bytes.  [RUB]: undefined behaviour.  [RStuck]: a situation the C++ type system
    rules out (the schema would not compile).
    In the code: for include/field_read/read_impl.hpp, include/field_read/field_reader.hpp, include/cast/struct_cast_impl.hpp. *)
Inductive rprog (E A : Type) : Type :=
| RRet (a : A)
| RErr (e : E)
| RUB
| RStuck
| RRead (n : Z) (e : E) (k : list Z -> rprog E A)
| RAlloc (n : Z) (k : rprog E A).
Arguments RRet {E A}. Arguments RErr {E A}. Arguments RUB {E A}.
Arguments RStuck {E A}. Arguments RRead {E A}. Arguments RAlloc {E A}.

(** Sequencing of [std::expected]-returning steps: the first error wins
    ([operator|], include/error/cast_error.hpp:39-47). *)
Fixpoint rbind {E A B} (p : rprog E A) (f : A -> rprog E B) : rprog E B :=
  match p with
  | RRet a => f a
  | RErr e => RErr e
  | RUB => RUB
  | RStuck => RStuck
  | RRead n e k => RRead n e (fun bs => rbind (k bs) f)
  | RAlloc n k => RAlloc n (rbind k f)
  end.

(** Rewrapping an error ([std::unexpected(...)] with more or less detail).
    In the code: include/cast/struct_cast_impl.hpp:16-51, include/error/cast_error.hpp:39-47. *)
Fixpoint rmaperr {E E' A} (g : E -> E') (p : rprog E A) : rprog E' A :=
  match p with
  | RRet a => RRet a
  | RErr e => RErr (g e)
  | RUB => RUB
  | RStuck => RStuck
  | RRead n e k => RRead n (g e) (fun bs => rmaperr g (k bs))
  | RAlloc n k => RAlloc n (rmaperr g k)
  end.

(** A counted loop collecting its results.
    In the code: include/field_read/field_reader.hpp:93-114. *)
Fixpoint rrep {E A} (n : nat) (p : rprog E A) : rprog E (list A) :=
  match n with
  | O => RRet []
  | S n' => rbind p (fun a => rbind (rrep n' p) (fun l => RRet (a :: l)))
  end.

(** How a cast can end.  [Throw]: the allocator threw.
    In the code: include/api/struct_cast.hpp, stream_cast.hpp. *)
Inductive outcome (E A : Type) : Type :=
| Ok (a : A)
| Err (e : E)
| UB
| Stuck
| Throw.
Arguments Ok {E A}. Arguments Err {E A}. Arguments UB {E A}.
Arguments Stuck {E A}. Arguments Throw {E A}.

(** An input stream (docs/streams.md, include/stream/stream_traits.hpp): a state
    and what one [read] of [n] bytes does - deliver bytes or go bad. *)
Record istream := mkI {
  i_st : Type;
  i_read : i_st -> Z -> option (list Z) * i_st
}.

(** The calls of include/field_read/read_impl.hpp:36-141 to the environment. *)
Inductive event :=
| EvRead (n : Z) (delivered : option (list Z))
| EvAlloc (n : Z).

(** Running a cast on a stream with an allocator that grants or refuses
    requests; the events are what the environment observed, in order.
    In the code: include/api/struct_cast.hpp. *)
Fixpoint rrun (S : istream) (alloc : Z -> bool) {E A} (p : rprog E A) (s : i_st S)
  : outcome E A * i_st S * list event :=
  match p with
  | RRet a => (Ok a, s, [])
  | RErr e => (Err e, s, [])
  | RUB => (UB, s, [])
  | RStuck => (Stuck, s, [])
  | RRead n e k =>
      match i_read S s n with
      | (Some bs, s') =>
          match rrun S alloc (k bs) s' with
          | (o, s'', ev) => (o, s'', EvRead n (Some bs) :: ev)
          end
      | (None, s') => (Err e, s', [EvRead n None])
      end
  | RAlloc n k =>
      if alloc n then
        match rrun S alloc k s with
        | (o, s', ev) => (o, s', EvAlloc n :: ev)
        end
      else (Throw, s, [EvAlloc n])
  end.

(** The plain byte-sequence semantics: the stream is the list of bytes not read
    yet, a read that asks for more than there is fails, every allocation is
    granted.
    In the code: include/api/struct_cast.hpp. *)
Fixpoint rmem {E A} (p : rprog E A) (bs : list Z) : outcome E A * list Z :=
  match p with
  | RRet a => (Ok a, bs)
  | RErr e => (Err e, bs)
  | RUB => (UB, bs)
  | RStuck => (Stuck, bs)
  | RRead n e k =>
      if n <=? Z.of_nat (length bs)
      then rmem (k (firstn (Z.to_nat n) bs)) (skipn (Z.to_nat n) bs)
      else (Err e, bs)
  | RAlloc n k => rmem k bs
  end.

(** In its [good] states the stream holds the byte sequence [view s]: a read of
    [n] bytes, [n] at most [lim], delivers the next [n] if there are that many and
    leaves the stream good; otherwise it fails.  This is what docs/streams.md asks
    of an input stream. *)
Definition conforms (S : istream) (good : i_st S -> Prop) (view : i_st S -> list Z)
  (lim : Z) : Prop :=
  forall s n, good s -> 0 <= n <= lim ->
    if n <=? Z.of_nat (length (view s)) then
      exists s', i_read S s n = (Some (firstn (Z.to_nat n) (view s)), s') /\
                 good s' /\ view s' = skipn (Z.to_nat n) (view s)
    else exists s', i_read S s n = (None, s').

(** ** Writing.
    In the code: include/field_write/write_impl.hpp, include/field_write/field_writer.hpp, include/cast/stream_cast_impl.hpp. *)

Inductive wprog (E A : Type) : Type :=
| WRet (a : A)
| WErr (e : E)
| WUB
| WStuck
| WWrite (bs : list Z) (e : E) (k : wprog E A).
Arguments WRet {E A}. Arguments WErr {E A}. Arguments WUB {E A}.
Arguments WStuck {E A}. Arguments WWrite {E A}.

(** include/error/cast_error.hpp:39-47. *)
Fixpoint wbind {E A B} (p : wprog E A) (f : A -> wprog E B) : wprog E B :=
  match p with
  | WRet a => f a
  | WErr e => WErr e
  | WUB => WUB
  | WStuck => WStuck
  | WWrite bs e k => WWrite bs e (wbind k f)
  end.

(** include/cast/stream_cast_impl.hpp:16-50. *)
Fixpoint wmaperr {E E' A} (g : E -> E') (p : wprog E A) : wprog E' A :=
  match p with
  | WRet a => WRet a
  | WErr e => WErr (g e)
  | WUB => WUB
  | WStuck => WStuck
  | WWrite bs e k => WWrite bs (g e) (wmaperr g k)
  end.

(** A loop over the elements of a container.
    In the code: include/field_write/field_writer.hpp:20-285. *)
Fixpoint wfor {E A} (l : list A) (f : A -> wprog E unit) : wprog E unit :=
  match l with
  | [] => WRet tt
  | a :: l' => wbind (f a) (fun _ => wfor l' f)
  end.

(** An output stream: a state and what one [write] does; [false]: it went bad.
    In the code: include/stream/stream_traits.hpp:22-44,63-64. *)
Record ostream := mkO {
  o_st : Type;
  o_write : o_st -> list Z -> bool * o_st
}.

(** Running a write; the chunks are the arguments of the calls to [write], with
    their success.
    In the code: include/api/stream_cast.hpp. *)
Fixpoint wrun (S : ostream) {E A} (p : wprog E A) (s : o_st S)
  : outcome E A * o_st S * list (list Z * bool) :=
  match p with
  | WRet a => (Ok a, s, [])
  | WErr e => (Err e, s, [])
  | WUB => (UB, s, [])
  | WStuck => (Stuck, s, [])
  | WWrite bs e k =>
      match o_write S s bs with
      | (true, s') =>
          match wrun S k s' with (o, s'', ch) => (o, s'', (bs, true) :: ch) end
      | (false, s') => (Err e, s', [(bs, false)])
      end
  end.

(** A stream that never refuses: what is emitted, in order.
    In the code: include/api/stream_cast.hpp. *)
Fixpoint wmem {E A} (p : wprog E A) : outcome E A * list Z :=
  match p with
  | WRet a => (Ok a, [])
  | WErr e => (Err e, [])
  | WUB => (UB, [])
  | WStuck => (Stuck, [])
  | WWrite bs e k => match wmem k with (o, out) => (o, bs ++ out) end
  end.
