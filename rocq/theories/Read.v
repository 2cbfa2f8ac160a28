(** * Reading: struct_cast_le / struct_cast_be *)
From Verif Require Export Constraint Prog.

(** ** Object representations of constant-size types *)

(** [l] cut into [n] pieces of [w] bytes.
    In the code: include/field_read/read_impl.hpp:63-120. *)
Fixpoint chunks (w n : nat) (l : list Z) : list (list Z) :=
  match n with
  | O => []
  | S n' => firstn w l :: chunks w n' (skipn w l)
  end.

(** An object is a value if all its elements are (include/field_read/read_impl.hpp:63-120). *)
Fixpoint sequence {A} (l : list (option A)) : option (list A) :=
  match l with
  | [] => Some []
  | Some a :: l' => match sequence l' with Some r => Some (a :: r) | None => None end
  | None :: _ => None
  end.

(** Bits of one scalar after the bytes landed in memory: loaded in host order,
    swapped if the wire order is foreign and it has more than one byte
    (include/field_read/read_impl.hpp:96-105, include/stream/byte_order.hpp:14-25;
    swapping one byte is the identity, so the scalar and the element rule agree). *)
Definition load_bits (c : cfg) (w : nat) (mem : list Z) : Z :=
  let bits := mem_dec (c_host c) mem in
  if is_host_order c then bits
  else if Nat.ltb 1 w then byteswap w bits else bits.

(** The value held by an object of type [t] after its memory was filled with
    [mem] and [byteswap_elements] was applied when the order is foreign
    (read_impl.hpp:63-120, byte_order.hpp:14-25).  [None]: some [bool] was given a
    pattern other than 0 and 1. *)
Fixpoint load (c : cfg) (t : ctype) (mem : list Z) : option val :=
  match t with
  | TScalar s =>
      match sc_of_bits s (load_bits c (ssize s) mem) with
      | Some z => Some (VZ z)
      | None => None
      end
  | TArr n t' =>
      match sequence (map (load c t') (chunks (csize t') n mem)) with
      | Some vs => Some (VSeq vs)
      | None => None
      end
  | TFixStr n => Some (VSeq (map VZ mem))
  | TFloat w => Some (VF w (load_bits c w mem))
  end.

(** A value-initialised object of [w] bytes whose first bytes are overwritten
    with [bs] (field.hpp:29 initialises to zero, read_impl.hpp:57 fills in). *)
Definition overlay (w : nat) (bs : list Z) : list Z :=
  bs ++ repeat 0 (w - length bs).

(** read_field<fixed_sized_field_like> and the constant-size path of read_impl
    (include/field_read/field_reader.hpp:21-35, read_impl.hpp:36-66,96-120,125-141):
    read the declared number of bytes to the start of the object.  More bytes
    than the object has overrun it. *)
Definition read_fixed (c : cfg) (t : ctype) (n : nat) : rprog reason val :=
  if Nat.ltb (csize t) n then RUB
  else RRead (Z.of_nat n) BufferExhaustion (fun bs =>
         match load c t (overlay (csize t) bs) with
         | Some v => RRet v
         | None => RUB
         end).

(** ** Lengths *)

(** include/field_size/field_size.hpp:35-39,124-135 [bound_in_bytes]: a
    [std::size_t]. *)
Definition ceiling (c : cfg) (b : option Z) : Z :=
  to_size c match b with Some n => n | None => c_dmax c end.

(** include/field_size/field_size_deduce.hpp:17-38: the element count as a
    [size_t], from one field or computed from several
    (include/field_compute/computation_from_fields_impl.hpp:52-63).
    [None]: does not compile. *)
Definition deduce_len (c : cfg) (e : env) (l : lenspec) : option Z :=
  match l with
  | LenField id =>
      match lookup e id with Some (VZ z) => Some (to_size c z) | _ => None end
  | LenComp f ids =>
      match lookups e ids with Some vs => Some (to_size c (f vs)) | None => None end
  end.

(** include/field_read/read_impl.hpp:29-34 [checked_byte_count]: false is
    [excessive_length]. *)
Definition len_allowed (ceil esz len : Z) : bool := negb (ceil / esz <? len).

(** Filling a resized container (read_impl.hpp:82-93): element by element on a
    constexpr stream, in one request otherwise; the bytes of the container.  The
    byte count is a product of [size_t]s (read_impl.hpp:33). *)
Definition read_raw (c : cfg) (esz len : Z) : rprog reason (list Z) :=
  if c_cx c then
    rbind (rrep (Z.to_nat len) (RRead esz BufferExhaustion (fun bs => RRet bs)))
          (fun chunks => RRet (concat chunks))
  else RRead (to_size c (len * esz)) BufferExhaustion (fun bs => RRet bs).

(** read_field<variable_sized_field_like> (field_reader.hpp:38-52,
    read_impl.hpp:68-94,107-120). *)
Definition read_var (c : cfg) (elt : ctype) (len : Z) (b : option Z)
  : rprog reason val :=
  let esz := Z.of_nat (csize elt) in
  if len_allowed (ceiling c b) esz len then
    RAlloc (len * esz)
      (rbind (read_raw c esz len) (fun mem =>
         match sequence (map (load c elt) (chunks (csize elt) (Z.to_nat len) mem)) with
         | Some vs => RRet (VSeq vs)
         | None => RUB
         end))
  else RErr ExcessiveLength.

(** ** Type deduction *)

(** Index of the first [true] ([operator|] on [type_deduction_idx],
    include/type_deduction/utils/helper.hpp:16-18). *)
Fixpoint first_true (l : list bool) : option nat :=
  match l with
  | [] => None
  | b :: l' => if b then Some O else option_map S (first_true l')
  end.

(** include/type_deduction/switch/switch_impl.hpp:12-52: [s] is the type of the
    scrutinee. *)
Definition eval_switch (s : sty) (z : Z) (cases : list (sty * Z)) : option nat :=
  first_true (map (fun cv => cxx_eq s z (fst cv) (snd cv)) cases).

(** include/type_deduction/if_else_ladder/ladder_impl.hpp:19-63: branches are
    evaluated in order, up to the first that holds. *)
Fixpoint eval_ladder (e : env) (brs : list ((list val -> bool) * list ident))
  : option (option nat) :=
  match brs with
  | [] => Some None
  | (p, ids) :: brs' =>
      match lookups e ids with
      | None => None
      | Some vs =>
          if p vs then Some (Some O)
          else match eval_ladder e brs' with
               | None => None
               | Some r => Some (option_map S r)
               end
      end
  end.

(** include/type_deduction/type/type_impl.hpp:19-46 [deduce_type].
    [Some None] is [type_deduction_failure]; [None]: does not compile. *)
Definition deduce_type (e : env) (g : guide) : option (option nat) :=
  match g with
  | GField id s cases =>
      match lookup e id with
      | Some (VZ z) => Some (eval_switch s z cases)
      | _ => None
      end
  | GComp f r ids cases =>
      match lookups e ids with
      | Some vs => Some (eval_switch r (conv r (f vs)) cases)
      | None => None
      end
  | GLadder brs => eval_ladder e brs
  end.

(** ** Fields *)

(** Running a constraint on the read path
    (include/cast/struct_cast_impl.hpp:38-44, field_reader.hpp:249-250). *)
Definition rcheck (k : constr) (v : val) : rprog reason val :=
  match check k v with
  | CTrue => RRet v
  | CFalse => RErr ValidationFailure
  | CUndef => RUB
  | CStuck => RStuck
  end.

(** [read_field<T, F>::read] for every kind of field
    (include/field_read/field_reader.hpp), [struct_cast_impl]
    (include/cast/struct_cast_impl.hpp:21-50) and [read_variant_helper]
    (field_reader.hpp:222-280).  [e] is the struct being filled in.
    - fixed 21-35, variable 38-52
    - struct 172-191: a cast of its own; the inner field name is dropped
    - array of records 93-135, vector of records 138-166: one nested cast per
      element, the vector after the footprint check and the resize
    - maybe 195-218; variance 283-316
    [read_alts]: alternative [i] is read, then its own constraint is run (249).
    An index outside the alternatives cannot occur: switch, ladder and variant
    are built from the same pack. *)
Fixpoint read_ty (c : cfg) (e : env) (t : fty) {struct t} : rprog reason val :=
  match t with
  | FFixed t' n => read_fixed c t' n
  | FVar elt l b =>
      match deduce_len c e l with
      | Some len => read_var c elt len b
      | None => RStuck
      end
  | FStruct fs =>
      rbind (rmaperr fst (read_fields c (mk_env fs (default_fields fs)) fs))
            (fun vs => RRet (VRec vs))
  | FArrRec n fs =>
      rbind (rrep n (rbind (rmaperr fst (read_fields c (mk_env fs (default_fields fs)) fs))
                           (fun vs => RRet (VRec vs))))
            (fun l => RRet (VSeq l))
  | FVecRec fs recsz l b =>
      match deduce_len c e l with
      | Some len =>
          if len_allowed (ceiling c b) recsz len then
            RAlloc (len * recsz)
              (rbind (rrep (Z.to_nat len)
                        (rbind (rmaperr fst (read_fields c (mk_env fs (default_fields fs)) fs))
                               (fun vs => RRet (VRec vs))))
                     (fun l => RRet (VSeq l)))
          else RErr ExcessiveLength
      | None => RStuck
      end
  | FMaybe b p ids =>
      match lookups e ids with
      | Some vs =>
          if p vs then rbind (read_ty c e b) (fun v => RRet (VSome v))
          else RRet VNone
      | None => RStuck
      end
  | FUnion g al =>
      match deduce_type e g with
      | Some (Some i) => rbind (read_alts c e al i) (fun v => RRet (VAlt i v))
      | Some None => RErr TypeDeductionFailure
      | None => RStuck
      end
  end
with read_fields (c : cfg) (e : env) (fs : fields) {struct fs}
  : rprog (reason * ident) (list val) :=
  match fs with
  | FNil => RRet []
  | FCons id t k fs' =>
      rbind (rmaperr (fun r => (r, id)) (rbind (read_ty c e t) (rcheck k)))
            (fun v => rbind (read_fields c (update e id v) fs')
                            (fun vs => RRet (v :: vs)))
  end
with read_alts (c : cfg) (e : env) (al : alts) (i : nat) {struct al}
  : rprog reason val :=
  match al with
  | ANil => RStuck
  | ACons t k al' =>
      match i with
      | O => rbind (read_ty c e t) (rcheck k)
      | S i' => read_alts c e al' i'
      end
  end.

(** include/api/struct_cast.hpp:14-23 [struct_cast_le], [struct_cast_be]
    (cast/struct_cast_impl.hpp:21-50): the struct is default constructed, then its
    fields are read and checked in declaration order. *)
Definition struct_cast (c : cfg) (fs : fields) : rprog (reason * ident) (list val) :=
  read_fields c (mk_env fs (default_fields fs)) fs.
