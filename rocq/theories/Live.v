(** * The reader with its copies and what it gives back

    Copies.v counts what the reader asks for.  Here the memory that is given back counts
    too: the struct a cast was filling dies after the copy into the result, the result of
    a nested cast after the copy into the field, the base of a [maybe] after the copy
    into the optional.
    Simplifications: as in Copies.v.  After an error or [bad_alloc] everything is given
    back by destructors; nothing is asked for any more, so this is left out. *)
From Verif Require Export Copies.

(** Programs that may give memory back.  (The requests of
    include/field_read/read_impl.hpp:57,81 and field_reader.hpp:161, and destructors.) *)
Inductive mprog (E A : Type) :=
| MRet (a : A)
| MErr (e : E)
| MUB
| MStuck
| MRead (n : Z) (e : E) (k : list Z -> mprog E A)
| MAlloc (n : Z) (k : mprog E A)
| MFree (n : Z) (k : mprog E A).
Arguments MRet {E A}. Arguments MErr {E A}. Arguments MUB {E A}. Arguments MStuck {E A}.
Arguments MRead {E A}. Arguments MAlloc {E A}. Arguments MFree {E A}.

(** One statement after another (include/cast/struct_cast_impl.hpp:24-48). *)
Fixpoint mbind {E A B} (p : mprog E A) (f : A -> mprog E B) : mprog E B :=
  match p with
  | MRet a => f a
  | MErr e => MErr e
  | MUB => MUB
  | MStuck => MStuck
  | MRead n e k => MRead n e (fun bs => mbind (k bs) f)
  | MAlloc n k => MAlloc n (mbind k f)
  | MFree n k => MFree n (mbind k f)
  end.

(** Errors renamed (include/cast/struct_cast_impl.hpp:31-36, field_reader.hpp:184-187). *)
Fixpoint mmaperr {E E' A} (g : E -> E') (p : mprog E A) : mprog E' A :=
  match p with
  | MRet a => MRet a
  | MErr e => MErr (g e)
  | MUB => MUB
  | MStuck => MStuck
  | MRead n e k => MRead n (g e) (fun bs => mmaperr g (k bs))
  | MAlloc n k => MAlloc n (mmaperr g k)
  | MFree n k => MFree n (mmaperr g k)
  end.

(** A loop (include/field_read/field_reader.hpp:104-111). *)
Fixpoint mrep {E A} (n : nat) (p : mprog E A) : mprog E (list A) :=
  match n with
  | O => MRet []
  | S n' => mbind p (fun a => mbind (mrep n' p) (fun l => MRet (a :: l)))
  end.

(** A part that gives nothing back (include/field_read/read_impl.hpp:36-141). *)
Fixpoint lift {E A} (p : rprog E A) : mprog E A :=
  match p with
  | RRet a => MRet a
  | RErr e => MErr e
  | RUB => MUB
  | RStuck => MStuck
  | RRead n e k => MRead n e (fun bs => lift (k bs))
  | RAlloc n k => MAlloc n (lift k)
  end.

(** A copy of a value that owns the blocks [l] (include/cast/struct_cast_impl.hpp:49,
    field_reader.hpp:188,215), and its end. *)
Definition mcopy {E A} (l : list Z) (p : mprog E A) : mprog E A := fold_right (fun n q => MAlloc n q) p l.
Definition mdrop {E A} (l : list Z) (p : mprog E A) : mprog E A := fold_right (fun n q => MFree n q) p l.

(** A copy that outlives its original. *)
Definition mreplace {E A} (l : list Z) (p : mprog E A) : mprog E A := mcopy l (mdrop l p).

(** A nested cast and the assignment of its result: [field_list] of
    struct_cast_impl.hpp:22 dies at line 50, [res] of field_reader.hpp:183 at line 190. *)
Definition m_record (fs : fields) (p : mprog (reason * ident) (list val)) : mprog reason val :=
  mbind (mmaperr fst (mbind p (fun vs => mreplace (heap_fields fs vs) (MRet vs))))
        (fun vs => mreplace (heap_fields fs vs) (MRet (VRec vs))).

(** [read_field<T, F>::read], include/field_read/field_reader.hpp:21-316, as in Read.v and
    Copies.v; [base_field] of field_reader.hpp:210 dies at line 217. *)
Fixpoint m_read_ty (c : cfg) (e : env) (t : fty) {struct t} : mprog reason val :=
  match t with
  | FFixed t' n => lift (read_fixed c t' n)
  | FVar elt l b =>
      match deduce_len c e l with
      | Some len => lift (read_var c elt len b)
      | None => MStuck
      end
  | FStruct fs => m_record fs (m_read_fields c (mk_env fs (default_fields fs)) fs)
  | FArrRec n fs =>
      mbind (mrep n (m_record fs (m_read_fields c (mk_env fs (default_fields fs)) fs)))
            (fun l => MRet (VSeq l))
  | FVecRec fs recsz l b =>
      match deduce_len c e l with
      | Some len =>
          if len_allowed (ceiling c b) recsz len then
            MAlloc (len * recsz)
              (mbind (mrep (Z.to_nat len)
                        (m_record fs (m_read_fields c (mk_env fs (default_fields fs)) fs)))
                     (fun l => MRet (VSeq l)))
          else MErr ExcessiveLength
      | None => MStuck
      end
  | FMaybe b p ids =>
      match lookups e ids with
      | Some vs =>
          if p vs
          then mbind (m_read_ty c e b) (fun v => mreplace (heap_ty b v) (MRet (VSome v)))
          else MRet VNone
      | None => MStuck
      end
  | FUnion g al =>
      match deduce_type e g with
      | Some (Some i) => mbind (m_read_alts c e al i) (fun v => MRet (VAlt i v))
      | Some None => MErr TypeDeductionFailure
      | None => MStuck
      end
  end
with m_read_fields (c : cfg) (e : env) (fs : fields) {struct fs}
  : mprog (reason * ident) (list val) :=
  match fs with
  | FNil => MRet []
  | FCons id t k fs' =>
      mbind (mmaperr (fun r => (r, id)) (mbind (m_read_ty c e t) (fun v => lift (rcheck k v))))
            (fun v => mbind (m_read_fields c (update e id v) fs')
                            (fun vs => MRet (v :: vs)))
  end
with m_read_alts (c : cfg) (e : env) (al : alts) (i : nat) {struct al}
  : mprog reason val :=
  match al with
  | ANil => MStuck
  | ACons t k al' =>
      match i with
      | O => mbind (m_read_ty c e t) (fun v => lift (rcheck k v))
      | S i' => m_read_alts c e al' i'
      end
  end.

(** include/api/struct_cast.hpp:14-23, include/cast/struct_cast_impl.hpp:21-50. *)
Definition m_struct_cast (c : cfg) (fs : fields) : mprog (reason * ident) (list val) :=
  mbind (m_read_fields c (mk_env fs (default_fields fs)) fs)
        (fun vs => mreplace (heap_fields fs vs) (MRet vs)).

(** What the environment observes (as [event] of Prog.v, for
    include/api/struct_cast.hpp:14-23). *)
Inductive mevent :=
| MvRead (n : Z) (delivered : option (list Z))
| MvAlloc (n : Z)
| MvFree (n : Z).

(** An allocator that takes memory back (the allocators of [std::vector] and
    [std::string], include/field_read/read_impl.hpp:81, field_reader.hpp:161). *)
Record pool := { p_st : Type; p_get : p_st -> Z -> option p_st; p_put : p_st -> Z -> p_st }.

(** A cast on a stream, with such an allocator (include/api/struct_cast.hpp:14-23). *)
Fixpoint mrun (S : istream) (L : pool) {E A} (p : mprog E A) (s : i_st S) (a : p_st L)
  : outcome E A * i_st S * list mevent :=
  match p with
  | MRet v => (Ok v, s, [])
  | MErr e => (Err e, s, [])
  | MUB => (UB, s, [])
  | MStuck => (Stuck, s, [])
  | MRead n e k =>
      match i_read S s n with
      | (Some bs, s') =>
          match mrun S L (k bs) s' a with
          | (o, s'', ev) => (o, s'', MvRead n (Some bs) :: ev)
          end
      | (None, s') => (Err e, s', [MvRead n None])
      end
  | MAlloc n k =>
      match p_get L a n with
      | Some a' =>
          match mrun S L k s a' with
          | (o, s', ev) => (o, s', MvAlloc n :: ev)
          end
      | None => (Throw, s, [MvAlloc n])
      end
  | MFree n k =>
      match mrun S L k s (p_put L a n) with
      | (o, s', ev) => (o, s', MvFree n :: ev)
      end
  end.

(** A pool of fixed size; the state is what is left.  (What
    include/api/struct_cast.hpp:14-23 may run on.) *)
Definition room : pool :=
  {| p_st := Z; p_get := fun left n => if n <=? left then Some (left - n) else None;
     p_put := fun left n => left + n |}.

(** A pool that never refuses (include/api/struct_cast.hpp:14-23). *)
Definition plenty : pool := {| p_st := unit; p_get := fun _ _ => Some tt; p_put := fun _ _ => tt |}.

(** ** What is seen of a run (of include/api/struct_cast.hpp:14-23) *)

(** The accounts: memory taken counts positive, memory given back negative. *)
Fixpoint accounts (ev : list mevent) : list Z :=
  match ev with
  | [] => []
  | MvRead _ _ :: ev' => accounts ev'
  | MvAlloc n :: ev' => n :: accounts ev'
  | MvFree n :: ev' => - n :: accounts ev'
  end.

(** The blocks taken, in order. *)
Fixpoint taken (ev : list mevent) : list Z :=
  match ev with
  | [] => []
  | MvAlloc n :: ev' => n :: taken ev'
  | _ :: ev' => taken ev'
  end.

(** The requests made of the stream. *)
Fixpoint asked (ev : list mevent) : list event :=
  match ev with
  | [] => []
  | MvRead n d :: ev' => EvRead n d :: asked ev'
  | _ :: ev' => asked ev'
  end.
