(** * Structs as a program makes them: value initialisation and [operator[]] *)
From Coq Require String.
From Verif Require Export PropDefs StaticSpec Static.
Import ListNotations.

(** [s[id] = v]. *)
Fixpoint assign (fs : fields) (vs : list val) (id : ident) (v : val) : list val :=
  match fs, vs with
  | FCons i _ _ fs', w :: vs' =>
      if String.eqb i id then v :: vs' else w :: assign fs' vs' id v
  | _, _ => vs
  end.

(** What can be made of the structs [start] offers by assigning fields through
    [operator[]] (include/field_list/field_list.hpp:14-105), where it hands out a mutable
    reference; records within structs are made the same way. *)
Inductive made (start : fields -> list val -> Prop) : fields -> list val -> Prop :=
| made_start fs vs : start fs vs -> made start fs vs
| made_assign fs vs id t k v : made start fs vs ->
    op_index false fs id = MutableRef -> field_of fs id = Some (t, k) ->
    made_ty start t v -> made start fs (assign fs vs id v)
with made_ty (start : fields -> list val -> Prop) : fty -> val -> Prop :=
| made_fixed t n v : ct_ok t v -> made_ty start (FFixed t n) v
| made_var elt l b xs : Forall (ct_ok elt) xs -> made_ty start (FVar elt l b) (VSeq xs)
| made_struct fs vs : made start fs vs -> made_ty start (FStruct fs) (VRec vs)
| made_arr n fs xs : length xs = n -> made_each start fs xs -> made_ty start (FArrRec n fs) (VSeq xs)
| made_vec fs sz l b xs : made_each start fs xs -> made_ty start (FVecRec fs sz l b) (VSeq xs)
| made_none b p ids : made_ty start (FMaybe b p ids) VNone
| made_some b p ids v : made_ty start b v -> made_ty start (FMaybe b p ids) (VSome v)
| made_alt g al i t k v : a_nth i al = Some (t, k) -> made_ty start t v ->
    made_ty start (FUnion g al) (VAlt i v)
with made_each (start : fields -> list val -> Prop) : fields -> list val -> Prop :=
| each_nil fs : made_each start fs []
| each_cons fs vs l : made start fs vs -> made_each start fs l -> made_each start fs (VRec vs :: l).

(** [S s{};] *)
Definition fresh (fs : fields) (vs : list val) : Prop := vs = default_fields fs.

(** A fresh struct, or one that a read returned. *)
Definition fresh_or_read (c : cfg) (fs : fields) (vs : list val) : Prop :=
  vs = default_fields fs \/
  wf fs = true /\ exists bs rest, Forall byte_ok bs /\ rmem (struct_cast c fs) bs = (Ok vs, rest).

(** Every variance has an alternative ([requires (sizeof...(cases) > 0)], switch.hpp:10-11,
    ladder.hpp:11-12), at any depth. *)
Fixpoint inhabited_ty (t : fty) : bool :=
  match t with
  | FFixed _ _ | FVar _ _ _ => true
  | FStruct fs | FArrRec _ fs | FVecRec fs _ _ _ => inhabited_fields fs
  | FMaybe b _ _ => inhabited_ty b
  | FUnion _ al => match al with ANil => false | _ => inhabited_alts al end
  end
with inhabited_fields (fs : fields) : bool :=
  match fs with FNil => true | FCons _ t _ fs' => inhabited_ty t && inhabited_fields fs' end
with inhabited_alts (al : alts) : bool :=
  match al with ANil => true | ACons t _ al' => inhabited_ty t && inhabited_alts al' end.

(** The list, and every list of a record in it, is within the capacities of the tables
    and has no field without a name. *)
Definition within_tables (fs : fields) : Prop :=
  forall gs, In gs (lists fs) ->
    (f_len gs <= 256)%nat /\ (length (lengths gs) <= 64)%nat /\
    (length (discriminants gs) <= 64)%nat /\ ~ In String.EmptyString (f_ids gs).

(** Value initialisation ([field_type value{}], include/field/field.hpp:29): no bit is
    set, containers are empty, optionals disengaged, a variant holds its first
    alternative. *)
Definition all_zero (t : ctype) (v : val) : Prop :=
  ct_ok t v /\ Forall (eq 0) (enc_ct Little t v).

Fixpoint zero_ty (t : fty) (v : val) {struct t} : Prop :=
  match t with
  | FFixed t' _ => all_zero t' v
  | FVar _ _ _ | FVecRec _ _ _ _ => v = VSeq []
  | FStruct gs => exists ws, v = VRec ws /\ zero_fields gs ws
  | FArrRec n gs =>
      exists xs, v = VSeq xs /\ length xs = n /\
        Forall (fun x => exists ws, x = VRec ws /\ zero_fields gs ws) xs
  | FMaybe _ _ _ => v = VNone
  | FUnion _ (ACons t' _ _) => exists v', v = VAlt 0 v' /\ zero_ty t' v'
  | FUnion _ ANil => False
  end
with zero_fields (gs : fields) (ws : list val) {struct gs} : Prop :=
  match gs, ws with
  | FNil, [] => True
  | FCons _ t _ gs', w :: ws' => zero_ty t w /\ zero_fields gs' ws'
  | _, _ => False
  end.
