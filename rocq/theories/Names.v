(** * Names as they are written (C109)

    A name is a [fixed_string], all the characters of a literal; in the other files a
    name is a string and nothing more.  Here is how the library gets from one to the
    other. *)
From Coq Require Import String Ascii.
From Verif Require Export Read Write Static EquivSpec.
Local Open Scope list_scope.

(** include/api/struct_field_list.hpp:23-26 [as_sv]: a [string_view] made from a pointer
    ends at the first NUL.  The literal's own terminator is not part of [s]. *)
Fixpoint as_sv (s : string) : string :=
  match s with
  | EmptyString => EmptyString
  | String c s' => if Ascii.eqb c zero then EmptyString else String c (as_sv s')
  end.

(** A schema with every name, declared or referred to, replaced.  The library looks at
    a name only through [as_sv]: the check of the ids (struct_field_list.hpp:29), the
    tables (include/field_list/field_list_metadata.hpp:34, 66, 143, 168, 181, 195, 245, 266,
    278-302), [operator[]] (include/field_list/field_list.hpp:18-114), the obligations of
    the writer (include/field_write/derived_value.hpp:29-35, 63-74, 100-106, 217), and through
    [string_view{field_id.data()}], which is the same, in an error
    (include/cast/struct_cast_impl.hpp:33, 40, include/cast/stream_cast_impl.hpp:36, 43). *)
Fixpoint map_ty (r : ident -> ident) (t : fty) {struct t} : fty :=
  match t with
  | FFixed t' n => FFixed t' n
  | FVar e l b => FVar e (ren_len r l) b
  | FStruct fs => FStruct (map_fields r fs)
  | FArrRec n fs => FArrRec n (map_fields r fs)
  | FVecRec fs sz l b => FVecRec (map_fields r fs) sz (ren_len r l) b
  | FMaybe b p ids => FMaybe (map_ty r b) p (map r ids)
  | FUnion g al => FUnion (ren_guide r g) (map_alts r al)
  end
with map_fields (r : ident -> ident) (fs : fields) {struct fs} : fields :=
  match fs with
  | FNil => FNil
  | FCons id t k fs' => FCons (r id) (map_ty r t) k (map_fields r fs')
  end
with map_alts (r : ident -> ident) (al : alts) {struct al} : alts :=
  match al with
  | ANil => ANil
  | ACons t k al' => ACons (map_ty r t) k (map_alts r al')
  end.

(** The schema the library sees where [fs] is written.
    In the code: include/field/field_metafunctions.hpp, include/field_list/field_list_metadata.hpp:30-34. *)
Definition seen_as (fs : fields) : fields := map_fields as_sv fs.

(** include/api/struct_field_list.hpp:28-61. *)
Definition written_accepted (szw : nat) (fs : fields) : bool := accepted szw (seen_as fs).
(** include/cast/struct_cast_impl.hpp:16-51. *)
Definition written_read (c : cfg) (fs : fields) : rprog (reason * ident) (list val) :=
  struct_cast c (seen_as fs).
(** include/cast/stream_cast_impl.hpp:16-50. *)
Definition written_write (c : cfg) (fs : fields) (vs : list val) : wprog (reason * ident) unit :=
  stream_cast c (seen_as fs) vs.
(** field_list.hpp:14-105 with the name in the brackets as written. *)
Definition written_index (const_obj : bool) (fs : fields) (name : ident) : access :=
  op_index const_obj (seen_as fs) (as_sv name).
