(** * Writing: stream_cast_le / stream_cast_be *)
From Verif Require Export Read.

(** ** Object representations *)

(** Memory of one scalar, in host order.
    In the code: include/lib/memory/address_manip.hpp:37-68. *)
Definition store_scalar (h : endian) (s : sty) (z : Z) : list Z :=
  mem_enc h (ssize s) (sc_bits s z).

(** Memory of an object of type [t], in host order
    (include/lib/memory/address_manip.hpp:37-68).  [None]: [v] is not a value of
    [t]. *)
Fixpoint store (h : endian) (t : ctype) (v : val) : option (list Z) :=
  match t with
  | TScalar s => match v with VZ z => Some (store_scalar h s z) | _ => None end
  | TArr n t' =>
      match v with
      | VSeq l =>
          if Nat.eqb (length l) n then
            match sequence (map (store h t') l) with
            | Some bss => Some (concat bss)
            | None => None
            end
          else None
      | _ => None
      end
  | TFixStr n =>
      match v with
      | VSeq l =>
          if Nat.eqb (length l) (S n) then
            match chars_of l with
            | Some zs => Some (map (fun z => z mod 256) zs)
            | None => None
            end
          else None
      | _ => None
      end
  | TFloat w =>
      match v with
      | VF u z => if Nat.eqb u w then Some (store_scalar h (SInt w false) z) else None
      | _ => None
      end
  end.

(** The bytes of one scalar in foreign order: swapped into a temporary whose
    memory is then written (include/field_write/write_impl.hpp:53-59). *)
Definition store_swapped (h : endian) (s : sty) (z : Z) : list Z :=
  mem_enc h (ssize s) (byteswap (ssize s) (sc_bits s z)).

(** write_foreign_buffer (write_impl.hpp:65-85): the arguments of the calls to
    [write], one per scalar; single bytes are not swapped. *)
Fixpoint foreign_chunks (h : endian) (t : ctype) (v : val) : option (list (list Z)) :=
  match t with
  | TScalar s =>
      match v with
      | VZ z => Some [if Nat.ltb 1 (ssize s) then store_swapped h s z else store_scalar h s z]
      | _ => None
      end
  | TArr n t' =>
      match v with
      | VSeq l =>
          if Nat.eqb (length l) n then
            match sequence (map (foreign_chunks h t') l) with
            | Some chs => Some (concat chs)
            | None => None
            end
          else None
      | _ => None
      end
  | TFixStr n =>
      match store h (TFixStr n) v with Some bs => Some [bs] | None => None end
  | TFloat w =>
      match v with
      | VF u z =>
          if Nat.eqb u w then
            Some [if Nat.ltb 1 w then store_swapped h (SInt w false) z
                  else store_scalar h (SInt w false) z]
          else None
      | _ => None
      end
  end.

(** One call to [s.write] (write_impl.hpp:14-30). *)
Definition put (bs : list Z) : wprog reason unit := WWrite bs BufferExhaustion (WRet tt).

(** [size] bytes from the start of an object whose memory is [bs]; more than it
    has reads past its end.
    In the code: include/field_write/write_impl.hpp:15-51. *)
Definition put_prefix (bs : list Z) (n : nat) : wprog reason unit :=
  if Nat.ltb (length bs) n then WUB else put (firstn n bs).

(** write_impl on a constant-size object (write_impl.hpp:32-35,53-99).  A foreign
    array is written whole, element by element, whatever the declared size. *)
Definition write_const (c : cfg) (t : ctype) (n : nat) (v : val) : wprog reason unit :=
  if is_host_order c then
    match store (c_host c) t v with
    | Some bs => put_prefix bs n
    | None => WStuck
    end
  else
    match t with
    | TScalar s =>
        match v with
        | VZ z => put_prefix (store_swapped (c_host c) s z) n
        | _ => WStuck
        end
    | TArr _ _ =>
        match foreign_chunks (c_host c) t v with
        | Some chs => wfor chs put
        | None => WStuck
        end
    | TFixStr _ =>
        match store (c_host c) t v with
        | Some bs => put_prefix bs n
        | None => WStuck
        end
    | TFloat w =>
        match v with
        | VF u z =>
            if Nat.eqb u w then put_prefix (store_swapped (c_host c) (SInt w false) z) n
            else WStuck
        | _ => WStuck
        end
    end.

(** write_impl on a variable-size container (write_impl.hpp:37-51,65-99): host
    order in one call (per element on a constexpr stream), foreign order per
    scalar. *)
Definition write_var (c : cfg) (elt : ctype) (l : list val) : wprog reason unit :=
  if is_host_order c then
    match sequence (map (store (c_host c) elt) l) with
    | Some bss => if c_cx c then wfor bss put else put (concat bss)
    | None => WStuck
    end
  else
    match sequence (map (foreign_chunks (c_host c) elt) l) with
    | Some chs => wfor (concat chs) put
    | None => WStuck
    end.

(** ** Derived, frozen and verified slots *)

(** [len_obligation] / [obligates] (include/field_write/derived_value.hpp:20-38):
    the field a length-prefixed container takes its length from. *)
Definition len_target (t : fty) : option ident :=
  match t with
  | FVar _ (LenField id) _ => Some id
  | FVecRec _ _ (LenField id) _ => Some id
  | _ => None
  end.

(** [discriminant_obligation::target] (derived_value.hpp:44-69). *)
Definition disc_target (t : fty) : option ident :=
  match t with FUnion (GField id _ _) _ => Some id | _ => None end.

(** include/field_write/derived_value.hpp:32-40,71-80: the target is this field. *)
Definition ident_is (o : option ident) (id : ident) : bool :=
  match o with Some i => String.eqb i id | None => false end.

(** include/field_list/field_list_metadata.hpp:234-249,310-313,334-341. *)
Fixpoint is_length_derived (fs : fields) (id : ident) : bool :=
  match fs with
  | FNil => false
  | FCons _ t _ fs' => ident_is (len_target t) id || is_length_derived fs' id
  end.

(** field_list_metadata.hpp:255-270,315-318,343-350. *)
Fixpoint is_disc_derived (fs : fields) (id : ident) : bool :=
  match fs with
  | FNil => false
  | FCons _ t _ fs' => ident_is (disc_target t) id || is_disc_derived fs' id
  end.

(** field_list_metadata.hpp:355-359 [is_derived_field]. *)
Definition is_derived (fs : fields) (id : ident) : bool :=
  is_length_derived fs id || is_disc_derived fs id.

(** include/field/field_traits.hpp:43-55 [frozen_field_like], [frozen_value_of]:
    a fixed-size field constrained by [eq], and the value the constraint holds
    converted to the field's type.  Simplification: [eq] over a C array, which
    cannot be converted back, is not distinguished from [eq] over [std::array]. *)
Definition frozen_value (t : fty) (k : constr) : option val :=
  match t, k with
  | FFixed (TScalar s) _, CCmp OEq _ lit => Some (VZ (conv s lit))
  | FFixed (TFloat w) _, CCmp OEq _ lit => Some (VF w (fenc w (units lit)))
  | FFixed (TArr _ _) _, CArr false lit => Some lit
  | FFixed (TFixStr _) _, CStr false lit => Some (VSeq (map VZ lit))
  | _, _ => None
  end.

(** include/field_write/derived_value.hpp:236-248. *)
Definition is_frozen (t : fty) (k : constr) : bool :=
  match frozen_value t k with Some _ => true | None => false end.

(** [value.size()].  The size of an existing container fits in [size_t], so no
    conversion is written here.
    In the code: include/field_write/derived_value.hpp:262-296. *)
Definition val_size (v : val) : option Z :=
  match v with VSeq l => Some (Z.of_nat (length l)) | _ => None end.

(** [discriminant_obligation::value_at] (derived_value.hpp:65-68): the match value
    of the held alternative, cast to size_t. *)
Definition value_at (c : cfg) (cases : list (sty * Z)) (i : nat) : option Z :=
  match nth_error cases i with
  | Some (_, z) => Some (to_size c z)
  | None => None
  end.

(** What one producer implies about target [id] (derived_value.hpp:276-282):
    [Some None]: nothing. *)
Definition implied (c : cfg) (id : ident) (t : fty) (v : val) : option (option Z) :=
  if ident_is (len_target t) id then option_map Some (val_size v)
  else if ident_is (disc_target t) id then
    match t, v with
    | FUnion (GField _ _ cases) _, VAlt i _ => option_map Some (value_at c cases i)
    | _, _ => None
    end
  else Some None.

(** The state of the fold in derive_value (derived_value.hpp:265-282): the value
    recorded last, whether one was seen, and whether all agreed. *)
Record dstate := mkD { d_val : Z; d_seen : bool; d_agreed : bool }.

(** include/field_write/derived_value.hpp:262-296, one producer. *)
Definition record (d : dstate) (z : Z) : dstate :=
  mkD z true (if d_seen d && negb (z =? d_val d) then false else d_agreed d).

(** include/field_write/derived_value.hpp:262-296, the fold. *)
Fixpoint derive_fold (c : cfg) (id : ident) (fs : fields) (vs : list val) (d : dstate)
  : option dstate :=
  match fs, vs with
  | FNil, [] => Some d
  | FCons _ t _ fs', v :: vs' =>
      match implied c id t v with
      | Some (Some z) => derive_fold c id fs' vs' (record d z)
      | Some None => derive_fold c id fs' vs' d
      | None => None
      end
  | _, _ => None
  end.

(** derived_value.hpp:299-305 [fits_declared_width]. *)
Definition fits_declared_width (c : cfg) (s : sty) (n : nat) (v : Z) : bool :=
  (if Nat.ltb n (c_szw c) then Z.shiftr v (8 * Z.of_nat n) =? 0 else true) &&
  (to_size c (conv s v) =? v).

(** The result of include/field_write/derived_value.hpp:258-307. *)
Inductive dres := DOk (v : val) | DErr (r : reason) | DStuck.

(** derived_value.hpp:251-306 [derive_value], for target [id] of type [t] declared
    [n] bytes wide, in the struct [fs], [vs]. *)
Definition derive_value (c : cfg) (fs : fields) (vs : list val) (id : ident)
  (t : ctype) (n : nat) : dres :=
  match t with
  | TScalar s =>
      match derive_fold c id fs vs (mkD 0 false true) with
      | Some d =>
          if negb (d_agreed d) then DErr FoundContradictingLength
          else if negb (fits_declared_width c s n (d_val d)) then DErr ValidationFailure
          else DOk (VZ (conv s (d_val d)))
      | None => DStuck
      end
  | _ => DStuck
  end.

(** [conditional_len_obligation] (derived_value.hpp:83-109): a container inside a
    maybe. *)
Definition cond_target (t : fty) : option ident :=
  match t with FMaybe b _ _ => len_target b | _ => None end.

(** [union_len_obligation::present] (derived_value.hpp:114-150). *)
Fixpoint alts_target (al : alts) (id : ident) : bool :=
  match al with
  | ANil => false
  | ACons t _ al' => ident_is (len_target t) id || alts_target al' id
  end.

(** include/field_write/derived_value.hpp:153-167. *)
Definition has_cond_obligation_of (t : fty) (id : ident) : bool :=
  ident_is (cond_target t) id ||
  match t with FUnion _ al => alts_target al id | _ => false end.

(** derived_value.hpp:153-167. *)
Fixpoint has_cond_obligation (fs : fields) (id : ident) : bool :=
  match fs with
  | FNil => false
  | FCons _ t _ fs' => has_cond_obligation_of t id || has_cond_obligation fs' id
  end.

(** One producer's verdict on the value [w] about to be written for target [id]
    (derived_value.hpp:186-199, [agrees] 123-133).  A maybe counts when it is
    engaged and its predicate holds; a union when the held alternative is
    length-prefixed by the target. *)
Definition cond_agrees (e : env) (id : ident) (w : Z) (t : fty) (v : val) : option bool :=
  if ident_is (cond_target t) id then
    match t, v with
    | FMaybe _ p ids, VSome v' =>
        match lookups e ids with
        | Some vs =>
            if p vs then option_map (fun n => n =? w) (val_size v') else Some true
        | None => None
        end
    | FMaybe _ _ _, VNone => Some true
    | _, _ => None
    end
  else match t with
       | FUnion _ al =>
           match v with
           | VAlt i v' =>
               match a_nth i al with
               | Some (t', _) =>
                   if ident_is (len_target t') id
                   then option_map (fun n => n =? w) (val_size v') else Some true
               | None => None
               end
           | _ => None
           end
       | _ => Some true
       end.

(** derived_value.hpp:170-205 [verify_conditional_len]. *)
Fixpoint verify_cond (e : env) (id : ident) (w : Z) (fs : fields) (vs : list val)
  : option bool :=
  match fs, vs with
  | FNil, [] => Some true
  | FCons _ t _ fs', v :: vs' =>
      match cond_agrees e id w t v, verify_cond e id w fs' vs' with
      | Some a, Some b => Some (a && b)
      | _, _ => None
      end
  | _, _ => None
  end.

(** include/field_write/field_writer.hpp:62-72 [verify_then_write]. *)
Definition verify_then_write (c : cfg) (fs : fields) (vs : list val) (id : ident)
  (t : ctype) (n : nat) (v : val) : wprog reason unit :=
  if has_cond_obligation fs id then
    match v with
    | VZ z =>
        match verify_cond (mk_env fs vs) id (to_size c z) fs vs with
        | Some true => write_const c t n v
        | Some false => WErr FoundContradictingLength
        | None => WStuck
        end
    | _ => WStuck
    end
  else write_const c t n v.

(** include/cast/stream_cast_impl.hpp:34-39, field_writer.hpp:62-72. *)
Definition wcheck (k : constr) (v : val) : wprog reason unit :=
  match check k v with
  | CTrue => WRet tt
  | CFalse => WErr ValidationFailure
  | CUndef => WUB
  | CStuck => WStuck
  end.

(** field_writer.hpp:23-56 [write_field<fixed_sized_field_like>].  [mem]: the field
    is a member of the list, not the base of a maybe or an alternative of a
    variance ([is_frozen_target], derived_value.hpp:237-248). *)
Definition write_fixed (c : cfg) (fs : fields) (vs : list val) (id : ident)
  (mem : bool) (k : constr) (t : ctype) (n : nat) (v : val) : wprog reason unit :=
  if is_derived fs id then
    match derive_value c fs vs id t n with
    | DOk d => wbind (wcheck k d) (fun _ => verify_then_write c fs vs id t n d)
    | DErr r => WErr r
    | DStuck => WStuck
    end
  else if mem && is_frozen (FFixed t n) k then
    match frozen_value (FFixed t n) k with
    | Some z => verify_then_write c fs vs id t n z
    | None => WStuck
    end
  else verify_then_write c fs vs id t n v.

(** The length check of a container whose length is computed
    (field_writer.hpp:86-92,167-170); no check when it comes from one field. *)
Definition verify_len (c : cfg) (e : env) (l : lenspec) (size : Z) : wprog reason unit :=
  match l with
  | LenField _ => WRet tt
  | LenComp _ _ =>
      match deduce_len c e l with
      | Some n => if n =? size then WRet tt else WErr FoundContradictingLength
      | None => WStuck
      end
  end.

(** [write_field<T, F>::write] for every kind of field
    (include/field_write/field_writer.hpp), [stream_cast_impl]
    (include/cast/stream_cast_impl.hpp:20-49) and [write_variant_helper]
    (field_writer.hpp:211-251).  [fs], [vs]: the struct the field belongs to.
    - fixed 23-73, variable 75-97, struct 107-128, array of records 130-151,
      vector of records 153-178
    - maybe 180-208: presence is decided by the predicate on the stored values
    - variance 253-285: the alternative is checked against the deduction unless
      the discriminant is a field; then its constraint, then its bytes. *)
Fixpoint write_ty (c : cfg) (fs : fields) (vs : list val) (id : ident) (mem : bool)
  (k : constr) (t : fty) (v : val) {struct t} : wprog reason unit :=
  match t with
  | FFixed t' n => write_fixed c fs vs id mem k t' n v
  | FVar elt l _ =>
      match v with
      | VSeq xs =>
          wbind (verify_len c (mk_env fs vs) l (Z.of_nat (length xs)))
                (fun _ => write_var c elt xs)
      | _ => WStuck
      end
  | FStruct gs =>
      match v with
      | VRec ws => wmaperr fst (write_fields c gs ws gs ws)
      | _ => WStuck
      end
  | FArrRec n gs =>
      match v with
      | VSeq xs =>
          if Nat.eqb (length xs) n then
            wfor xs (fun x => match x with
                              | VRec ws => wmaperr fst (write_fields c gs ws gs ws)
                              | _ => WStuck
                              end)
          else WStuck
      | _ => WStuck
      end
  | FVecRec gs _ l _ =>
      match v with
      | VSeq xs =>
          wbind (verify_len c (mk_env fs vs) l (Z.of_nat (length xs)))
                (fun _ => wfor xs (fun x => match x with
                                            | VRec ws => wmaperr fst (write_fields c gs ws gs ws)
                                            | _ => WStuck
                                            end))
      | _ => WStuck
      end
  | FMaybe b p ids =>
      match lookups (mk_env fs vs) ids with
      | Some args =>
          match p args, v with
          | true, VSome v' => write_ty c fs vs id false CNone b v'
          | false, VNone => WRet tt
          | true, VNone | false, VSome _ => WErr ValidationFailure
          | _, _ => WStuck
          end
      | None => WStuck
      end
  | FUnion g al =>
      match v with
      | VAlt i v' =>
          match g with
          | GField _ _ _ => write_alts c fs vs id al i v'
          | _ =>
              match deduce_type (mk_env fs vs) g with
              | Some (Some j) =>
                  if Nat.eqb j i then write_alts c fs vs id al i v'
                  else WErr ValidationFailure
              | Some None => WErr TypeDeductionFailure
              | None => WStuck
              end
          end
      | _ => WStuck
      end
  end
with write_fields (c : cfg) (fs : fields) (vs : list val) (gs : fields) (ws : list val)
  {struct gs} : wprog (reason * ident) unit :=
  match gs, ws with
  | FNil, [] => WRet tt
  | FCons id t k gs', w :: ws' =>
      wbind
        (wmaperr (fun r => (r, id))
           (wbind (if is_derived fs id || is_frozen t k then WRet tt else wcheck k w)
                  (fun _ => write_ty c fs vs id true k t w)))
        (fun _ => write_fields c fs vs gs' ws')
  | _, _ => WStuck
  end
with write_alts (c : cfg) (fs : fields) (vs : list val) (id : ident) (al : alts)
  (i : nat) (v : val) {struct al} : wprog reason unit :=
  match al with
  | ANil => WStuck
  | ACons t k al' =>
      match i with
      | O => wbind (wcheck k v) (fun _ => write_ty c fs vs id false k t v)
      | S i' => write_alts c fs vs id al' i' v
      end
  end.

(** include/api/stream_cast.hpp:11-20 [stream_cast_le], [stream_cast_be]. *)
Definition stream_cast (c : cfg) (fs : fields) (vs : list val) : wprog (reason * ident) unit :=
  write_fields c fs vs fs vs.
