(** * Floating-point numbers as lengths

    Nothing asks that the field named by [len_from_field] be an integer
    (include/api/field_descriptors.hpp:64-87): the value of a [float] or [double] field is
    converted to [std::size_t] where the length is needed.  Read.v and Write.v have such
    schemas stuck; here they are read and written.  Everything else is as there, once more.
    What [verify_len] does with a computed length is unchanged; a callable is handed the
    floating-point value and answers what it likes. *)
From Verif Require Export Read Write.
Local Open Scope Z_scope.

(** ** Reading *)

(** [LUndef]: the conversion is undefined.
    In the code: include/field_size/field_size_deduce.hpp:17-38. *)
Inductive flen := LVal (n : Z) | LUndef | LNone.

(** [static_cast<std::size_t>] of a floating-point number, also implicitly.
    In the code: include/field_size/field_size_deduce.hpp:17-38. *)
Definition float_to_size (c : cfg) (x : fval) : option Z := ftoi (SInt (c_szw c) false) x.

(** include/field_size/field_size_deduce.hpp:17-38: [return field_value_of<...>(...)] in a
    function that returns [std::size_t]. *)
Definition fl_deduce_len (c : cfg) (e : env) (l : lenspec) : flen :=
  match l with
  | LenField id =>
      match lookup e id with
      | Some (VZ z) => LVal (to_size c z)
      | Some (VF w z) =>
          match float_to_size c (fdec w z) with Some n => LVal n | None => LUndef end
      | _ => LNone
      end
  | LenComp f ids =>
      match lookups e ids with Some vs => LVal (to_size c (f vs)) | None => LNone end
  end.

(** include/field_read/field_reader.hpp, include/cast/struct_cast_impl.hpp:21-50: [read_ty],
    [read_fields] and [read_alts] of Read.v, with these lengths. *)
Fixpoint fl_read_ty (c : cfg) (e : env) (t : fty) {struct t} : rprog reason val :=
  match t with
  | FFixed t' n => read_fixed c t' n
  | FVar elt l b =>
      match fl_deduce_len c e l with
      | LVal len => read_var c elt len b
      | LUndef => RUB
      | LNone => RStuck
      end
  | FStruct fs =>
      rbind (rmaperr fst (fl_read_fields c (mk_env fs (default_fields fs)) fs))
            (fun vs => RRet (VRec vs))
  | FArrRec n fs =>
      rbind (rrep n (rbind (rmaperr fst (fl_read_fields c (mk_env fs (default_fields fs)) fs))
                           (fun vs => RRet (VRec vs))))
            (fun l => RRet (VSeq l))
  | FVecRec fs recsz l b =>
      match fl_deduce_len c e l with
      | LVal len =>
          if len_allowed (ceiling c b) recsz len then
            RAlloc (len * recsz)
              (rbind (rrep (Z.to_nat len)
                        (rbind (rmaperr fst (fl_read_fields c (mk_env fs (default_fields fs)) fs))
                               (fun vs => RRet (VRec vs))))
                     (fun l => RRet (VSeq l)))
          else RErr ExcessiveLength
      | LUndef => RUB
      | LNone => RStuck
      end
  | FMaybe b p ids =>
      match lookups e ids with
      | Some vs =>
          if p vs then rbind (fl_read_ty c e b) (fun v => RRet (VSome v))
          else RRet VNone
      | None => RStuck
      end
  | FUnion g al =>
      match deduce_type e g with
      | Some (Some i) => rbind (fl_read_alts c e al i) (fun v => RRet (VAlt i v))
      | Some None => RErr TypeDeductionFailure
      | None => RStuck
      end
  end
with fl_read_fields (c : cfg) (e : env) (fs : fields) {struct fs}
  : rprog (reason * ident) (list val) :=
  match fs with
  | FNil => RRet []
  | FCons id t k fs' =>
      rbind (rmaperr (fun r => (r, id)) (rbind (fl_read_ty c e t) (rcheck k)))
            (fun v => rbind (fl_read_fields c (update e id v) fs')
                            (fun vs => RRet (v :: vs)))
  end
with fl_read_alts (c : cfg) (e : env) (al : alts) (i : nat) {struct al}
  : rprog reason val :=
  match al with
  | ANil => RStuck
  | ACons t k al' =>
      match i with
      | O => rbind (fl_read_ty c e t) (rcheck k)
      | S i' => fl_read_alts c e al' i'
      end
  end.

(** include/api/struct_cast.hpp:14-23. *)
Definition fl_struct_cast (c : cfg) (fs : fields) : rprog (reason * ident) (list val) :=
  fl_read_fields c (mk_env fs (default_fields fs)) fs.

(** ** Writing *)

(** include/field_write/derived_value.hpp:299-305 [fits_declared_width] for a [field_type]
    of [w] bytes, declared [n] bytes wide; [None]: converting back is undefined. *)
Definition fl_fits (c : cfg) (w n : nat) (v : Z) : option bool :=
  if Nat.ltb n (c_szw c) && negb (Z.shiftr v (8 * Z.of_nat n) =? 0) then Some false
  else match float_to_size c (fround w (FFin (units v))) with
       | Some v' => Some (v' =? v)
       | None => None
       end.

(** The result of include/field_write/derived_value.hpp:258-307. *)
Inductive fl_dres := FOk (v : val) | FErr (r : reason) | FUndef | FStuck.

(** derived_value.hpp:251-306 [derive_value]. *)
Definition fl_derive_value (c : cfg) (fs : fields) (vs : list val) (id : ident)
  (t : ctype) (n : nat) : fl_dres :=
  match t with
  | TFloat w =>
      match derive_fold c id fs vs (mkD 0 false true) with
      | Some d =>
          if negb (d_agreed d) then FErr FoundContradictingLength
          else match fl_fits c w n (d_val d) with
               | Some true => FOk (VF w (fenc w (units (d_val d))))
               | Some false => FErr ValidationFailure
               | None => FUndef
               end
      | None => FStuck
      end
  | _ =>
      match derive_value c fs vs id t n with
      | DOk v => FOk v
      | DErr r => FErr r
      | DStuck => FStuck
      end
  end.

(** field_writer.hpp:62-72 [verify_then_write]: the value about to be written, as a
    [std::size_t], against the containers that are there only at times. *)
Definition fl_verify_then_write (c : cfg) (fs : fields) (vs : list val) (id : ident)
  (t : ctype) (n : nat) (v : val) : wprog reason unit :=
  match v with
  | VF w z =>
      if has_cond_obligation fs id then
        match float_to_size c (fdec w z) with
        | None => WUB
        | Some m =>
            match verify_cond (mk_env fs vs) id m fs vs with
            | Some true => write_const c t n v
            | Some false => WErr FoundContradictingLength
            | None => WStuck
            end
        end
      else write_const c t n v
  | _ => verify_then_write c fs vs id t n v
  end.

(** field_writer.hpp:23-56 [write_field<fixed_sized_field_like>]. *)
Definition fl_write_fixed (c : cfg) (fs : fields) (vs : list val) (id : ident)
  (mem : bool) (k : constr) (t : ctype) (n : nat) (v : val) : wprog reason unit :=
  if is_derived fs id then
    match fl_derive_value c fs vs id t n with
    | FOk d => wbind (wcheck k d) (fun _ => fl_verify_then_write c fs vs id t n d)
    | FErr r => WErr r
    | FUndef => WUB
    | FStuck => WStuck
    end
  else if mem && is_frozen (FFixed t n) k then
    match frozen_value (FFixed t n) k with
    | Some z => fl_verify_then_write c fs vs id t n z
    | None => WStuck
    end
  else fl_verify_then_write c fs vs id t n v.

(** include/field_write/field_writer.hpp, include/cast/stream_cast_impl.hpp:20-49:
    [write_ty], [write_fields] and [write_alts] of Write.v, with these fields. *)
Fixpoint fl_write_ty (c : cfg) (fs : fields) (vs : list val) (id : ident) (mem : bool)
  (k : constr) (t : fty) (v : val) {struct t} : wprog reason unit :=
  match t with
  | FFixed t' n => fl_write_fixed c fs vs id mem k t' n v
  | FVar elt l _ =>
      match v with
      | VSeq xs =>
          wbind (verify_len c (mk_env fs vs) l (Z.of_nat (length xs)))
                (fun _ => write_var c elt xs)
      | _ => WStuck
      end
  | FStruct gs =>
      match v with
      | VRec ws => wmaperr fst (fl_write_fields c gs ws gs ws)
      | _ => WStuck
      end
  | FArrRec n gs =>
      match v with
      | VSeq xs =>
          if Nat.eqb (length xs) n then
            wfor xs (fun x => match x with
                              | VRec ws => wmaperr fst (fl_write_fields c gs ws gs ws)
                              | _ => WStuck
                              end)
          else WStuck
      | _ => WStuck
      end
  | FVecRec gs _ l _ =>
      match v with
      | VSeq xs =>
          wbind (verify_len c (mk_env fs vs) l (Z.of_nat (length xs)))
                (fun _ => wfor xs (fun x => match x with
                                            | VRec ws => wmaperr fst (fl_write_fields c gs ws gs ws)
                                            | _ => WStuck
                                            end))
      | _ => WStuck
      end
  | FMaybe b p ids =>
      match lookups (mk_env fs vs) ids with
      | Some args =>
          match p args, v with
          | true, VSome v' => fl_write_ty c fs vs id false CNone b v'
          | false, VNone => WRet tt
          | true, VNone | false, VSome _ => WErr ValidationFailure
          | _, _ => WStuck
          end
      | None => WStuck
      end
  | FUnion g al =>
      match v with
      | VAlt i v' =>
          match g with
          | GField _ _ _ => fl_write_alts c fs vs id al i v'
          | _ =>
              match deduce_type (mk_env fs vs) g with
              | Some (Some j) =>
                  if Nat.eqb j i then fl_write_alts c fs vs id al i v'
                  else WErr ValidationFailure
              | Some None => WErr TypeDeductionFailure
              | None => WStuck
              end
          end
      | _ => WStuck
      end
  end
with fl_write_fields (c : cfg) (fs : fields) (vs : list val) (gs : fields) (ws : list val)
  {struct gs} : wprog (reason * ident) unit :=
  match gs, ws with
  | FNil, [] => WRet tt
  | FCons id t k gs', w :: ws' =>
      wbind
        (wmaperr (fun r => (r, id))
           (wbind (if is_derived fs id || is_frozen t k then WRet tt else wcheck k w)
                  (fun _ => fl_write_ty c fs vs id true k t w)))
        (fun _ => fl_write_fields c fs vs gs' ws')
  | _, _ => WStuck
  end
with fl_write_alts (c : cfg) (fs : fields) (vs : list val) (id : ident) (al : alts)
  (i : nat) (v : val) {struct al} : wprog reason unit :=
  match al with
  | ANil => WStuck
  | ACons t k al' =>
      match i with
      | O => wbind (wcheck k v) (fun _ => fl_write_ty c fs vs id false k t v)
      | S i' => fl_write_alts c fs vs id al' i' v
      end
  end.

(** include/api/stream_cast.hpp:11-20. *)
Definition fl_stream_cast (c : cfg) (fs : fields) (vs : list val) : wprog (reason * ident) unit :=
  fl_write_fields c fs vs fs vs.
