(** * The reader with the copies it makes

    The reader of Read.v asks the allocator when a container is resized.  The code also
    copies what it has read: a struct into the result of its cast, the result of a nested
    cast into the field, the base of a [maybe] into the optional.  Copying a container
    that is not empty asks the allocator for as many bytes as the container has.
    Elements of arrays and vectors of records (field_reader.hpp:110) and alternatives
    (field_reader.hpp:251) are moved, which asks for nothing.
    Simplifications: like a resize in Read.v, a request of no bytes stands for none, and
    a [std::string] has no buffer of its own for short contents. *)
From Verif Require Export Read.

(** The memory a value owns, container by container in the order in which its copy
    constructor ([struct_field_list_impl] and [field] have the implicit ones:
    include/field_list/field_list.hpp:56-59, include/field/field.hpp:20-30) asks for it. *)
Fixpoint heap_ty (t : fty) (v : val) {struct t} : list Z :=
  match t, v with
  | FVar elt _ _, VSeq xs => [Z.of_nat (length xs) * Z.of_nat (csize elt)]
  | FStruct fs, VRec vs => heap_fields fs vs
  | FArrRec _ fs, VSeq xs =>
      flat_map (fun x => match x with VRec vs => heap_fields fs vs | _ => [] end) xs
  | FVecRec fs recsz _ _, VSeq xs =>
      (Z.of_nat (length xs) * recsz) ::
      flat_map (fun x => match x with VRec vs => heap_fields fs vs | _ => [] end) xs
  | FMaybe b _ _, VSome w => heap_ty b w
  | FUnion _ al, VAlt i w => heap_alts al i w
  | _, _ => []
  end
with heap_fields (fs : fields) (vs : list val) {struct fs} : list Z :=
  match fs, vs with
  | FCons _ t _ fs', v :: vs' => heap_ty t v ++ heap_fields fs' vs'
  | _, _ => []
  end
with heap_alts (al : alts) (i : nat) (v : val) {struct al} : list Z :=
  match al, i with
  | ACons t _ _, O => heap_ty t v
  | ACons _ _ al', S i' => heap_alts al' i' v
  | ANil, _ => []
  end.

(** One copy: the requests in turn.  (include/cast/struct_cast_impl.hpp:49,
    include/field_read/field_reader.hpp:188,215.) *)
Definition copying {E A} (l : list Z) (p : rprog E A) : rprog E A := fold_right (fun n q => RAlloc n q) p l.

(** A nested cast and the assignment of its result: struct_cast_impl.hpp:49
    [R(field_list)], field_reader.hpp:188 [field.value = *res]. *)
Definition cp_record (fs : fields) (p : rprog (reason * ident) (list val)) : rprog reason val :=
  rbind (rmaperr fst (rbind p (fun vs => copying (heap_fields fs vs) (RRet vs))))
        (fun vs => copying (heap_fields fs vs) (RRet (VRec vs))).

(** [read_field<T, F>::read], include/field_read/field_reader.hpp:21-316, as in Read.v,
    and include/cast/struct_cast_impl.hpp:21-50. *)
Fixpoint cp_read_ty (c : cfg) (e : env) (t : fty) {struct t} : rprog reason val :=
  match t with
  | FFixed t' n => read_fixed c t' n
  | FVar elt l b =>
      match deduce_len c e l with
      | Some len => read_var c elt len b
      | None => RStuck
      end
  | FStruct fs => cp_record fs (cp_read_fields c (mk_env fs (default_fields fs)) fs)
  | FArrRec n fs =>
      rbind (rrep n (cp_record fs (cp_read_fields c (mk_env fs (default_fields fs)) fs)))
            (fun l => RRet (VSeq l))
  | FVecRec fs recsz l b =>
      match deduce_len c e l with
      | Some len =>
          if len_allowed (ceiling c b) recsz len then
            RAlloc (len * recsz)
              (rbind (rrep (Z.to_nat len)
                        (cp_record fs (cp_read_fields c (mk_env fs (default_fields fs)) fs)))
                     (fun l => RRet (VSeq l)))
          else RErr ExcessiveLength
      | None => RStuck
      end
  | FMaybe b p ids =>
      match lookups e ids with
      | Some vs =>
          if p vs
          then rbind (cp_read_ty c e b) (fun v => copying (heap_ty b v) (RRet (VSome v)))
          else RRet VNone
      | None => RStuck
      end
  | FUnion g al =>
      match deduce_type e g with
      | Some (Some i) => rbind (cp_read_alts c e al i) (fun v => RRet (VAlt i v))
      | Some None => RErr TypeDeductionFailure
      | None => RStuck
      end
  end
with cp_read_fields (c : cfg) (e : env) (fs : fields) {struct fs}
  : rprog (reason * ident) (list val) :=
  match fs with
  | FNil => RRet []
  | FCons id t k fs' =>
      rbind (rmaperr (fun r => (r, id)) (rbind (cp_read_ty c e t) (rcheck k)))
            (fun v => rbind (cp_read_fields c (update e id v) fs')
                            (fun vs => RRet (v :: vs)))
  end
with cp_read_alts (c : cfg) (e : env) (al : alts) (i : nat) {struct al}
  : rprog reason val :=
  match al with
  | ANil => RStuck
  | ACons t k al' =>
      match i with
      | O => rbind (cp_read_ty c e t) (rcheck k)
      | S i' => cp_read_alts c e al' i'
      end
  end.

(** include/api/struct_cast.hpp:14-23, include/cast/struct_cast_impl.hpp:21-50. *)
Definition cp_struct_cast (c : cfg) (fs : fields) : rprog (reason * ident) (list val) :=
  rbind (cp_read_fields c (mk_env fs (default_fields fs)) fs)
        (fun vs => copying (heap_fields fs vs) (RRet vs)).

(** ** Running with an allocator that keeps accounts

    The allocator of Prog.v decides by the size alone.  This one has a state: whether it
    grants may depend on what was asked for before.  [None]: [std::bad_alloc].
    In the code: the allocators of [std::vector] and [std::string]
    (include/field_read/read_impl.hpp:81, field_reader.hpp:161). *)
Record allocator := { a_st : Type; a_get : a_st -> Z -> option a_st }.

(** A cast on a stream, with such an allocator (include/api/struct_cast.hpp:14-23). *)
Fixpoint arun (S : istream) (L : allocator) {E A} (p : rprog E A) (s : i_st S) (a : a_st L)
  : outcome E A * i_st S * list event :=
  match p with
  | RRet v => (Ok v, s, [])
  | RErr e => (Err e, s, [])
  | RUB => (UB, s, [])
  | RStuck => (Stuck, s, [])
  | RRead n e k =>
      match i_read S s n with
      | (Some bs, s') =>
          match arun S L (k bs) s' a with
          | (o, s'', ev) => (o, s'', EvRead n (Some bs) :: ev)
          end
      | (None, s') => (Err e, s', [EvRead n None])
      end
  | RAlloc n k =>
      match a_get L a n with
      | Some a' =>
          match arun S L k s a' with
          | (o, s', ev) => (o, s', EvAlloc n :: ev)
          end
      | None => (Throw, s, [EvAlloc n])
      end
  end.

(** An allocator with a fixed supply that takes nothing back, such as a monotonic
    buffer: the state is what is left.  (No counterpart in the code: what
    include/api/struct_cast.hpp:14-23 may run on.) *)
Definition supply : allocator :=
  {| a_st := Z; a_get := fun left n => if n <=? left then Some (left - n) else None |}.

(** The allocator of Prog.v (include/api/struct_cast.hpp:14-23). *)
Definition stateless (alloc : Z -> bool) : allocator :=
  {| a_st := unit; a_get := fun _ n => if alloc n then Some tt else None |}.
