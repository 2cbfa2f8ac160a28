(** * C++ types, the descriptors' results, and the selection of specialisations *)
From Coq Require Import String.
From Verif Require Export Static.
Local Open Scope list_scope.

(** ** Types that can stand in a field
    Simplification: a record is identified with its list of fields; types the
    library knows nothing about are told apart by a number.
    In the code: include/lib/s2s_traits/type_traits.hpp:15-192. *)
Inductive cxx :=
| XInt (s : sty)                   (* integral types, bool included *)
| XFloat (w : nat)                 (* floating-point types, by size *)
| XArray (t : cxx) (n : nat)       (* std::array<t, n> *)
| XCArray (t : cxx) (n : nat)      (* t[n] *)
| XFixStr (n : nat)                (* fixed_string<n> *)
| XVector (t : cxx)                (* std::vector<t> *)
| XString                          (* std::string *)
| XRecord (fs : fields)            (* struct_field_list<...> *)
| XOther (tag : nat).              (* everything else *)

(** include/lib/s2s_traits/type_traits.hpp:15-25 [arithmetic], [integral],
    [floating_point], [trivial]. *)
Definition x_integral (t : cxx) : bool := match t with XInt _ => true | _ => false end.
(** include/lib/s2s_traits/type_traits.hpp:21-22. *)
Definition x_floating (t : cxx) : bool := match t with XFloat _ => true | _ => false end.
(** include/lib/s2s_traits/type_traits.hpp:15-16. *)
Definition x_arithmetic (t : cxx) : bool := x_integral t || x_floating t.
(** include/lib/s2s_traits/type_traits.hpp:24-25. *)
Definition x_trivial (t : cxx) : bool := x_floating t || x_integral t.

(** type_traits.hpp:30-47 [fixed_string_like]. *)
Definition x_fixed_string (t : cxx) : bool := match t with XFixStr _ => true | _ => false end.

(** type_traits.hpp:49-67 [is_fixed_array], 69-84 [is_c_array]. *)
Fixpoint x_fixed_array (t : cxx) : bool :=
  match t with XArray e _ => x_arithmetic e || x_fixed_array e | _ => false end.

(** include/lib/s2s_traits/type_traits.hpp:69-84. *)
Fixpoint x_c_array (t : cxx) : bool :=
  match t with XCArray e _ => x_arithmetic e || x_c_array e | _ => false end.

(** type_traits.hpp:88-92 [fixed_buffer_like], 191-192 [field_containable]. *)
Definition x_fixed_buffer (t : cxx) : bool :=
  x_fixed_array t || x_c_array t || x_fixed_string t.
(** include/lib/s2s_traits/type_traits.hpp:191-192. *)
Definition x_containable (t : cxx) : bool := x_fixed_buffer t || x_arithmetic t.

(** type_traits.hpp:151-170 [vector_like], 172-189 [string_like], 261-268
    [variable_sized_buffer_like], [constant_sized_like], [buffer_like]. *)
Definition x_vector (t : cxx) : bool :=
  match t with XVector e => x_arithmetic e || x_fixed_array e | _ => false end.
(** include/lib/s2s_traits/type_traits.hpp:172-189. *)
Definition x_string (t : cxx) : bool := match t with XString => true | _ => false end.
(** include/lib/s2s_traits/type_traits.hpp:261-262. *)
Definition x_variable_buffer (t : cxx) : bool := x_vector t || x_string t.
(** include/lib/s2s_traits/type_traits.hpp:264-265. *)
Definition x_constant_sized (t : cxx) : bool := x_fixed_buffer t || x_trivial t.
(** include/lib/s2s_traits/type_traits.hpp:267-268. *)
Definition x_buffer (t : cxx) : bool := x_fixed_buffer t || x_variable_buffer t.

(** include/field_list/field_list_base.hpp:9-10 [field_list_like]. *)
Definition x_record (t : cxx) : bool := match t with XRecord _ => true | _ => false end.

(** [sizeof]; [other] for the types whose size is up to the implementation.
    In the code: used at include/field/field_options.hpp:28,92. *)
Fixpoint x_size (other : cxx -> nat) (t : cxx) : nat :=
  match t with
  | XInt s => ssize s
  | XFloat w => w
  | XArray e n | XCArray e n => n * x_size other e
  | XFixStr n => S n
  | _ => other t
  end.

(** ** Sizes
    include/field_size/field_size.hpp:137-231. *)
Definition sz_fixed (s : size_opt) : bool := match s with SzBytes _ => true | _ => false end.
(** include/field_size/field_size.hpp:151-167. *)
Definition sz_variable (s : size_opt) : bool := match s with SzLen _ => true | _ => false end.
(** include/field_size/field_size.hpp:172-183. *)
Definition sz_computed (s : size_opt) : bool :=
  match s with SzLen (LenComp _ _) => true | _ => false end.
(** include/field_size/field_size.hpp:217-231. *)
Definition sz_dont_care (s : size_opt) : bool := match s with SzDontCare => true | _ => false end.

(** ** Field classes
    include/field/field.hpp:15-30 [field], 68-76 [maybe_field], 104-121
    [union_field].  A choice of a union is a [field] with the union's id
    (field.hpp:90-98), so its id is not repeated. *)
Record plain := mkPlain { p_type : cxx; p_size : size_opt; p_constr : constr; p_bound : option Z }.

(** include/field/field.hpp:19-30 [field], 70-78 [maybe_field], 106-121 [union_field]. *)
Inductive cfield :=
| CField (id : ident) (p : plain)
| CMaybe (base : cfield) (pred : list val -> bool) (ids : list ident)
| CUnion (id : ident) (g : guide) (choices : list plain) (k : constr).

(** The concepts that [read_field] and [write_field] are specialised on
    (include/field/field_traits.hpp:10-191, field_reader.hpp:21,38,116,138,172,195,
    283, field_writer.hpp:23,75,115,130,153,180,253).  Each matches the class
    template itself, so a [maybe_field] is not the [field] it derives from. *)
Inductive kind :=
| KFixed | KVariable | KArrayOfRecords | KVectorOfRecords | KStruct | KOptional | KUnion.

(** One per concept of include/field/field_traits.hpp:10-191 that the readers and writers use. *)
Definition all_kinds : list kind :=
  [KFixed; KVariable; KArrayOfRecords; KVectorOfRecords; KStruct; KOptional; KUnion].

(** include/field/field_traits.hpp:10-191, for a [field]. *)
Definition plain_kind (k : kind) (p : plain) : bool :=
  match k with
  | KFixed => x_containable (p_type p) && sz_fixed (p_size p)
  | KVariable => x_variable_buffer (p_type p) && sz_variable (p_size p)
  | KArrayOfRecords => match p_type p with XArray e _ => x_record e | _ => false end
  | KVectorOfRecords => match p_type p with XVector e => x_record e | _ => false end
  | KStruct => x_record (p_type p)
  | KOptional | KUnion => false
  end.

(** include/field/field_traits.hpp:10-191, for any field class. *)
Definition is_kind (k : kind) (f : cfield) : bool :=
  match f with
  | CField _ p => plain_kind k p
  | CMaybe (CField _ _) _ _ => match k with KOptional => true | _ => false end
  | CMaybe _ _ _ => false
  | CUnion _ _ _ _ => match k with KUnion => true | _ => false end
  end.

(** The specialisations whose constraints are met.  With none the primary
    template is incomplete, with two the choice is ambiguous: either way the
    program is ill formed.
    In the code: include/field_read/field_reader.hpp:20-316, include/field_write/field_writer.hpp:20-285. *)
Definition specialisations (f : cfield) : list kind := filter (fun k => is_kind k f) all_kinds.

(** field_traits.hpp:193-200 [field_like]. *)
Definition field_like (f : cfield) : bool := existsb (fun k => is_kind k f) all_kinds.

(** The specialisations of [deduce_field_size]
    (comptime_field_size_deduce.hpp:16-22, field_size_deduce.hpp:17-38) and of
    [extract_length_dependencies] for a [field]
    (field_list_metadata.hpp:41-76), in this order: fixed, don't care, one field,
    computed. *)
Inductive size_form := SFFixed | SFDontCare | SFField | SFComputed.

(** The template arguments of the specialisations at include/field_size/field_size_deduce.hpp:17-38 and include/field_list/field_list_metadata.hpp:41-76. *)
Definition size_matches (m : size_form) (s : size_opt) : bool :=
  match m with
  | SFFixed => sz_fixed s
  | SFDontCare => sz_dont_care s
  | SFField => sz_variable s && negb (sz_computed s)
  | SFComputed => sz_computed s
  end.

(** include/field_size/field_size_deduce.hpp:17-38. *)
Definition deduce_forms : list size_form := [SFFixed; SFField; SFComputed].
(** include/field_list/field_list_metadata.hpp:41-76. *)
Definition length_dep_forms : list size_form := [SFFixed; SFDontCare; SFField; SFComputed].

(** field_list_metadata.hpp:78-86,111-119: a [maybe_field] is matched with the
    default bound only; a union by its choices. *)
Definition has_length_deps (f : cfield) : bool :=
  let plain_ok (p : plain) := existsb (fun m => size_matches m (p_size p)) length_dep_forms in
  match f with
  | CField _ p => plain_ok p
  | CMaybe (CField _ p) _ _ =>
      match p_bound p with None => plain_ok p | Some _ => false end
  | CMaybe _ _ _ => false
  | CUnion _ _ ps _ => forallb plain_ok ps
  end.

(** ** Descriptors
    include/api/field_descriptors.hpp:27-103.  Literals are given as the [eq]
    they become. *)
Inductive desc :=
| BasicField (t : cxx)                   (* 27-29 *)
| FixedArrayField (t : cxx) (n : nat)    (* 31-34 *)
| ArrayOfRecords (t : cxx) (n : nat)     (* 36-39 *)
| FixedStringField (n : nat)             (* 41-43 *)
| CArrField (t : cxx) (n : nat)          (* 45-47 *)
| CStrField (n : nat)                    (* 49-51 *)
| MagicByteArray (n : nat) (lit : val)   (* 53-54 *)
| MagicString (lit : list Z)             (* 56-57 *)
| MagicNumber (t : cxx) (sz : size_opt) (s : sty) (lit : Z)  (* 59-61 *)
| VecField (t : cxx)                     (* 64-69 *)
| VectorOfRecords (t : cxx)              (* 71-76 *)
| StrField                               (* 79-84 *)
| StructField (t : cxx).                 (* 86-87 *)

(** include/api/field_descriptors.hpp:53-54. *)
Definition uchar : cxx := XInt (SInt 1 false).

(** [char]: signed or not, as the implementation says.
    In the code: include/api/field_descriptors.hpp:49-51. *)
Definition xchar (sgn : bool) : cxx := XInt (SInt 1 sgn).

(** The [field] a descriptor with options [opts] stands for; [None]: a constraint
    of the alias is not met.
    In the code: include/api/field_descriptors.hpp:21-107. *)
Definition resolve (sgn : bool) (other : cxx -> nat) (d : desc) (opts : list opt)
  : option plain :=
  if negb (pack_ok opts) then None else
  let k := constr_in_pack opts in
  let constr_only := only is_constr opts in
  let boundable := only (fun o => is_size o || is_constr o || is_bound o) opts in
  let no_opts := match opts with [] => true | _ => false end in
  let given (b : bool) (p : plain) := if b then Some p else None in
  match d with
  | BasicField t =>
      match size_in_pack (x_size other t) opts with
      | SzBytes n =>
          given (x_integral t && only (fun o => is_size o || is_constr o) opts &&
                 Nat.leb n (x_size other t))
                (mkPlain t (SzBytes n) k None)
      | _ => None
      end
  | FixedArrayField t n =>
      given (x_containable t && constr_only)
            (mkPlain (XArray t n) (SzBytes (n * x_size other t)) k None)
  | ArrayOfRecords t n =>
      given (x_record t && constr_only) (mkPlain (XArray t n) SzDontCare k None)
  | FixedStringField n => given constr_only (mkPlain (XFixStr n) (SzBytes (n + 1)) k None)
  | CArrField t n =>
      given (x_containable t && constr_only)
            (mkPlain (XCArray t n) (SzBytes (n * x_size other t)) k None)
  | CStrField n =>
      given constr_only (mkPlain (XCArray (xchar sgn) (n + 1)) (SzBytes (n * 1 + 1)) k None)
  | MagicByteArray n lit =>
      given no_opts (mkPlain (XArray uchar n) (SzBytes n) (CArr false lit) None)
  | MagicString lit =>
      given no_opts (mkPlain (XFixStr (length lit - 1)) (SzBytes (length lit - 1 + 1))
                             (CStr false lit) None)
  | MagicNumber t sz s lit =>
      given (x_integral t && sz_fixed sz && no_opts) (mkPlain t sz (CCmp OEq s lit) None)
  | VecField t =>
      given (boundable && sz_variable (size_in_pack (other (XVector t)) opts))
            (mkPlain (XVector t) (size_in_pack (other (XVector t)) opts) k (bound_in_pack opts))
  | VectorOfRecords t =>
      given (x_record t && boundable && sz_variable (size_in_pack (other (XVector t)) opts))
            (mkPlain (XVector t) (size_in_pack (other (XVector t)) opts) k (bound_in_pack opts))
  | StrField =>
      given (boundable && sz_variable (size_in_pack (other XString) opts))
            (mkPlain XString (size_in_pack (other XString) opts) k (bound_in_pack opts))
  | StructField t => given (x_record t && constr_only) (mkPlain t SzDontCare k None)
  end.

(** include/type_deduction/utils/type_tags.hpp:45-117, the tags of alternatives. *)
Inductive tag :=
| AsTrivial (t : cxx)                    (* 45-53 *)
| AsStruct (t : cxx)                     (* 55-61 *)
| AsFixedArr (t : cxx) (n : nat)         (* 64-71 *)
| AsFixedString (n : nat)                (* 73-79 *)
| AsVec (t : cxx)                        (* 83-90 *)
| AsString                               (* 92-99 *)
| AsArrOfRecords (t : cxx) (n : nat)     (* 101-108 *)
| AsVecOfRecords (t : cxx).              (* 110-117 *)

(** include/type_deduction/utils/type_tags.hpp:40-117. *)
Definition resolve_tag (other : cxx -> nat) (d : tag) (opts : list opt) : option plain :=
  if negb (pack_ok opts) then None else
  let k := constr_in_pack opts in
  let constr_only := only is_constr opts in
  let boundable := only (fun o => is_size o || is_constr o || is_bound o) opts in
  let given (b : bool) (p : plain) := if b then Some p else None in
  match d with
  | AsTrivial t =>
      match size_in_pack (x_size other t) opts with
      | SzBytes n =>
          given (x_trivial t && only (fun o => is_size o || is_constr o) opts &&
                 Nat.leb n (x_size other t))
                (mkPlain t (SzBytes n) k None)
      | _ => None
      end
  | AsStruct t => given (x_record t && constr_only) (mkPlain t SzDontCare k None)
  | AsFixedArr t n =>
      given (x_trivial t && constr_only)
            (mkPlain (XArray t n) (SzBytes (n * x_size other t)) k None)
  | AsFixedString n => given constr_only (mkPlain (XFixStr n) (SzBytes (n + 1)) k None)
  | AsVec t =>
      given (x_trivial t && boundable && sz_variable (size_in_pack (other (XVector t)) opts))
            (mkPlain (XVector t) (size_in_pack (other (XVector t)) opts) k (bound_in_pack opts))
  | AsString =>
      given (boundable && sz_variable (size_in_pack (other XString) opts))
            (mkPlain XString (size_in_pack (other XString) opts) k (bound_in_pack opts))
  | AsArrOfRecords t n =>
      given (x_record t && constr_only) (mkPlain (XArray t n) SzDontCare k None)
  | AsVecOfRecords t =>
      given (x_record t && boundable && sz_variable (size_in_pack (other (XVector t)) opts))
            (mkPlain (XVector t) (size_in_pack (other (XVector t)) opts) k (bound_in_pack opts))
  end.

(** include/field/field.hpp:35-76, field_descriptors.hpp:89-91 [maybe].  There is no
    [std::optional] of a C array. *)
Definition resolve_maybe (base : cfield) (pred : list val -> bool) (ids : list ident)
  : option cfield :=
  match base with
  | CField _ p =>
      match p_constr p, p_type p with
      | CNone, XCArray _ _ => None
      | CNone, _ => Some (CMaybe base pred ids)
      | _, _ => None
      end
  | _ => None
  end.

(** include/type_deduction/type/type_deduction_metafunctions.hpp:14-76: the
    alternatives of a variance are accepted when their types' ids are distinct. *)
Definition choices_unique (tid : cxx -> Z) (choices : list plain) : bool :=
  match are_unique Z.eqb (map (fun p => tid (p_type p)) choices) with
  | Some b => b
  | None => false
  end.

(** include/api/field_descriptors.hpp:94-103 [variance]: constraints are the only options,
    the alternatives' types and the match values are distinct. *)
Definition resolve_variance (szw : nat) (tid : cxx -> Z) (id : ident) (g : guide)
  (choices : list plain) (opts : list opt) : option cfield :=
  if pack_ok opts && only is_constr opts && choices_unique tid choices && values_unique szw g
  then Some (CUnion id g choices (constr_in_pack opts)) else None.

(** [variant = std::move(field.value)] (field_reader.hpp:251): the alternative of
    exactly that type; [None]: no such alternative. *)
Definition variant_assign (tid : cxx -> Z) (choices : list plain) (t : cxx) : option nat :=
  let i := find_index Z.eqb (map (fun p => tid (p_type p)) choices) (tid t) in
  if Nat.ltb i (length choices) then Some i else None.

(** ** Which casts of a fixed or variable-size field compile
    [cx]: the stream is a constexpr stream; [foreign]: the byte order is not the
    host's. *)

(** include/stream/byte_order.hpp:14-25 [byteswap_elements],
    include/field_write/write_impl.hpp:65-85: [std::byteswap] takes integral types
    only. *)
Fixpoint swap_compiles (other : cxx -> nat) (t : cxx) : bool :=
  match t with
  | XArray e _ | XCArray e _ | XVector e =>
      if x_buffer e then swap_compiles other e
      else if Nat.ltb 1 (x_size other e) then x_integral e else true
  | _ => true
  end.

(** [std::vector<bool>] has no [data()] of bytes (include/lib/memory/address_manip.hpp:27-30). *)
Definition vector_of_bool (t : cxx) : bool :=
  match t with XVector (XInt SBool) => true | _ => false end.

(** include/field_read/read_impl.hpp:36-141.  [std::vector<bool>] has neither
    [data()] nor elements to refer to; assigning the elements of a C array one by one
    (43-49) needs them not to be arrays. *)
Definition read_compiles (other : cxx -> nat) (cx foreign : bool) (t : cxx) : bool :=
  negb (vector_of_bool t) &&
  (if foreign then
     if x_trivial t then x_integral t else x_buffer t && swap_compiles other t
   else x_constant_sized t || x_variable_buffer t) &&
  (if cx then match t with XCArray (XCArray _ _) _ => false | _ => true end else true).

(** include/field_write/write_impl.hpp:14-99. *)
Definition write_compiles (other : cxx -> nat) (cx foreign : bool) (t : cxx) : bool :=
  if foreign then
    if x_trivial t then x_integral t else x_buffer t && swap_compiles other t
  else (x_constant_sized t || x_variable_buffer t) && (cx || negb (vector_of_bool t)).

(** ** Streams
    include/stream/stream_traits.hpp:11-64: what a stream type offers. *)
Record stream_type := mkST {
  st_constexpr : bool;     (* derives from constexpr_stream *)
  st_std_read : bool; st_read : bool;
  st_std_write : bool; st_write : bool;
  st_bool : bool           (* convertible_to_bool *)
}.

(** include/stream/stream_traits.hpp:56-57. *)
Definition st_readable (s : stream_type) : bool := st_std_read s || st_read s.
(** include/stream/stream_traits.hpp:53-54. *)
Definition st_writeable (s : stream_type) : bool := st_std_write s || st_write s.
(** include/stream/stream_traits.hpp:60-61. *)
Definition input_stream_like (s : stream_type) : bool :=
  (st_constexpr s || st_readable s) && st_bool s.
(** include/stream/stream_traits.hpp:63-64. *)
Definition output_stream_like (s : stream_type) : bool :=
  (st_constexpr s || st_writeable s) && st_bool s.

(** The overloads of [read_native_impl] (read_impl.hpp:36-61) and
    [write_native_impl] (write_impl.hpp:13-30) that are viable: that for constexpr
    streams ([true]) and that for the others.  Their constraints are unrelated, so two
    viable overloads are ambiguous. *)
Definition read_overloads (s : stream_type) : list bool :=
  (if st_constexpr s then [true] else []) ++ (if st_readable s then [false] else []).
(** include/field_write/write_impl.hpp:13-30. *)
Definition write_overloads (s : stream_type) : list bool :=
  (if st_constexpr s then [true] else []) ++ (if st_writeable s then [false] else []).

(** ** What a switch reads
    include/type_deduction/type/type_impl.hpp:29-36: the discriminant of a
    [match_field] is read with the const [operator[]]. *)
Definition switch_reads (fs : fields) : bool :=
  forallb (fun id => match op_index true fs id with ConstRef | MutableRef => true | _ => false end)
          (flat_map discriminants_of (f_types fs)).

(** ** From a field class to the field of the model.
    In the code: the types of include/lib/s2s_traits/type_traits.hpp:15-92 as those of Schema.v. *)

Fixpoint to_ctype (t : cxx) : option ctype :=
  match t with
  | XInt s => Some (TScalar s)
  | XArray e n | XCArray e n =>
      match to_ctype e with Some c => Some (TArr n c) | None => None end
  | XFixStr n => Some (TFixStr n)
  | XFloat w => Some (TFloat w)
  | _ => None
  end.

(** A [field] (include/field/field.hpp:19-30) as a field of Schema.v. *)
Definition to_plain (sgn : bool) (recsz : fields -> Z) (p : plain) : option fty :=
  match p_type p with
  | XRecord fs => Some (FStruct fs)
  | XArray (XRecord fs) n => Some (FArrRec n fs)
  | XVector (XRecord fs) =>
      match p_size p with SzLen l => Some (FVecRec fs (recsz fs) l (p_bound p)) | _ => None end
  | XVector e =>
      match p_size p, to_ctype e with
      | SzLen l, Some c => Some (FVar c l (p_bound p))
      | _, _ => None
      end
  | XString =>
      match p_size p with
      | SzLen l => Some (FVar (TScalar (SInt 1 sgn)) l (p_bound p))
      | _ => None
      end
  | t =>
      match to_ctype t, p_size p with
      | Some c, SzBytes n => Some (FFixed c n)
      | _, _ => None
      end
  end.

(** The choices of a union (include/field/field.hpp:80-104) as alternatives of Schema.v. *)
Fixpoint to_alts (sgn : bool) (recsz : fields -> Z) (ps : list plain) : option alts :=
  match ps with
  | [] => Some ANil
  | p :: ps' =>
      match to_plain sgn recsz p, to_alts sgn recsz ps' with
      | Some t, Some al => Some (ACons t (p_constr p) al)
      | _, _ => None
      end
  end.

(** The field of a schema ([Schema.v]) a class stands for.
    In the code: include/field/field.hpp:19-121. *)
Definition to_field (sgn : bool) (recsz : fields -> Z) (f : cfield) : option (fty * constr) :=
  match f with
  | CField _ p =>
      match to_plain sgn recsz p with Some t => Some (t, p_constr p) | None => None end
  | CMaybe (CField _ p) pred ids =>
      match to_plain sgn recsz p with
      | Some t => Some (FMaybe t pred ids, CNone)
      | None => None
      end
  | CMaybe _ _ _ => None
  | CUnion _ g ps k =>
      match to_alts sgn recsz ps with Some al => Some (FUnion g al, k) | None => None end
  end.
