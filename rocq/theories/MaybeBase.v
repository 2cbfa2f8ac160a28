(** * Optional fields over a base with a constraint

    The [maybe] alias admits only bases without a constraint; [maybe_field]
    (include/field/field.hpp:68-76) admits any.  In a schema of this file the constraint
    beside an [FMaybe] is that of the base, [base_field::constraint_checker].  The optional
    itself has none (field.hpp:35-38, [to_optional_field]).  Everything else is as in Read.v
    and Write.v, once more. *)
From Verif Require Export Read Write.
Local Open Scope Z_scope.

(** field.hpp:35-38: [T::constraint_checker], for the field as the struct has it. *)
Definition own_constr (t : fty) (k : constr) : constr :=
  match t with FMaybe _ _ _ => CNone | _ => k end.

(** include/field_read/field_reader.hpp: [read_ty], [read_fields] and [read_alts] of Read.v;
    optional fields 195-219, the check after each field
    include/cast/struct_cast_impl.hpp:21-50. *)
Fixpoint mb_read_ty (c : cfg) (e : env) (t : fty) {struct t} : rprog reason val :=
  match t with
  | FFixed t' n => read_fixed c t' n
  | FVar elt l b =>
      match deduce_len c e l with
      | Some len => read_var c elt len b
      | None => RStuck
      end
  | FStruct fs =>
      rbind (rmaperr fst (mb_read_fields c (mk_env fs (default_fields fs)) fs))
            (fun vs => RRet (VRec vs))
  | FArrRec n fs =>
      rbind (rrep n (rbind (rmaperr fst (mb_read_fields c (mk_env fs (default_fields fs)) fs))
                           (fun vs => RRet (VRec vs))))
            (fun l => RRet (VSeq l))
  | FVecRec fs recsz l b =>
      match deduce_len c e l with
      | Some len =>
          if len_allowed (ceiling c b) recsz len then
            RAlloc (len * recsz)
              (rbind (rrep (Z.to_nat len)
                        (rbind (rmaperr fst (mb_read_fields c (mk_env fs (default_fields fs)) fs))
                               (fun vs => RRet (VRec vs))))
                     (fun l => RRet (VSeq l)))
          else RErr ExcessiveLength
      | None => RStuck
      end
  | FMaybe b p ids =>
      match lookups e ids with
      | Some vs =>
          if p vs then rbind (mb_read_ty c e b) (fun v => RRet (VSome v))
          else RRet VNone
      | None => RStuck
      end
  | FUnion g al =>
      match deduce_type e g with
      | Some (Some i) => rbind (mb_read_alts c e al i) (fun v => RRet (VAlt i v))
      | Some None => RErr TypeDeductionFailure
      | None => RStuck
      end
  end
with mb_read_fields (c : cfg) (e : env) (fs : fields) {struct fs}
  : rprog (reason * ident) (list val) :=
  match fs with
  | FNil => RRet []
  | FCons id t k fs' =>
      rbind (rmaperr (fun r => (r, id)) (rbind (mb_read_ty c e t) (rcheck (own_constr t k))))
            (fun v => rbind (mb_read_fields c (update e id v) fs')
                            (fun vs => RRet (v :: vs)))
  end
with mb_read_alts (c : cfg) (e : env) (al : alts) (i : nat) {struct al}
  : rprog reason val :=
  match al with
  | ANil => RStuck
  | ACons t k al' =>
      match i with
      | O => rbind (mb_read_ty c e t) (rcheck k)
      | S i' => mb_read_alts c e al' i'
      end
  end.

(** include/api/struct_cast.hpp:14-23. *)
Definition mb_struct_cast (c : cfg) (fs : fields) : rprog (reason * ident) (list val) :=
  mb_read_fields c (mk_env fs (default_fields fs)) fs.

(** include/field_write/field_writer.hpp, include/cast/stream_cast_impl.hpp:20-49:
    [write_ty], [write_fields] and [write_alts] of Write.v; optional fields 180-206: the
    payload goes through the base's constraint, then out as a field that is no member of
    the struct ([mem] false). *)
Fixpoint mb_write_ty (c : cfg) (fs : fields) (vs : list val) (id : ident) (mem : bool)
  (k : constr) (t : fty) (v : val) {struct t} : wprog reason unit :=
  match t with
  | FFixed t' n => write_fixed c fs vs id mem k t' n v
  | FVar elt l _ =>
      match v with
      | VSeq xs =>
          wbind (verify_len c (mk_env fs vs) l (Z.of_nat (length xs)))
                (fun _ => write_var c elt xs)
      | _ => WStuck
      end
  | FStruct gs =>
      match v with
      | VRec ws => wmaperr fst (mb_write_fields c gs ws gs ws)
      | _ => WStuck
      end
  | FArrRec n gs =>
      match v with
      | VSeq xs =>
          if Nat.eqb (length xs) n then
            wfor xs (fun x => match x with
                              | VRec ws => wmaperr fst (mb_write_fields c gs ws gs ws)
                              | _ => WStuck
                              end)
          else WStuck
      | _ => WStuck
      end
  | FVecRec gs _ l _ =>
      match v with
      | VSeq xs =>
          wbind (verify_len c (mk_env fs vs) l (Z.of_nat (length xs)))
                (fun _ => wfor xs (fun x => match x with
                                            | VRec ws => wmaperr fst (mb_write_fields c gs ws gs ws)
                                            | _ => WStuck
                                            end))
      | _ => WStuck
      end
  | FMaybe b p ids =>
      match lookups (mk_env fs vs) ids with
      | Some args =>
          match p args, v with
          | true, VSome v' =>
              wbind (wcheck k v') (fun _ => mb_write_ty c fs vs id false k b v')
          | false, VNone => WRet tt
          | true, VNone | false, VSome _ => WErr ValidationFailure
          | _, _ => WStuck
          end
      | None => WStuck
      end
  | FUnion g al =>
      match v with
      | VAlt i v' =>
          match g with
          | GField _ _ _ => mb_write_alts c fs vs id al i v'
          | _ =>
              match deduce_type (mk_env fs vs) g with
              | Some (Some j) =>
                  if Nat.eqb j i then mb_write_alts c fs vs id al i v'
                  else WErr ValidationFailure
              | Some None => WErr TypeDeductionFailure
              | None => WStuck
              end
          end
      | _ => WStuck
      end
  end
with mb_write_fields (c : cfg) (fs : fields) (vs : list val) (gs : fields) (ws : list val)
  {struct gs} : wprog (reason * ident) unit :=
  match gs, ws with
  | FNil, [] => WRet tt
  | FCons id t k gs', w :: ws' =>
      wbind
        (wmaperr (fun r => (r, id))
           (wbind (if is_derived fs id || is_frozen t (own_constr t k) then WRet tt
                   else wcheck (own_constr t k) w)
                  (fun _ => mb_write_ty c fs vs id true k t w)))
        (fun _ => mb_write_fields c fs vs gs' ws')
  | _, _ => WStuck
  end
with mb_write_alts (c : cfg) (fs : fields) (vs : list val) (id : ident) (al : alts)
  (i : nat) (v : val) {struct al} : wprog reason unit :=
  match al with
  | ANil => WStuck
  | ACons t k al' =>
      match i with
      | O => wbind (wcheck k v) (fun _ => mb_write_ty c fs vs id false k t v)
      | S i' => mb_write_alts c fs vs id al' i' v
      end
  end.

(** include/api/stream_cast.hpp:11-20. *)
Definition mb_stream_cast (c : cfg) (fs : fields) (vs : list val) : wprog (reason * ident) unit :=
  mb_write_fields c fs vs fs vs.
