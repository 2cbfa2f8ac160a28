(** * What makes a write undefined

    Independent of the writer, in the form of WExact.v.  There is one source: a constraint
    evaluated on a value it cannot be evaluated on.  Derived and frozen slots, which are
    not taken from the struct, never are. *)
From Verif Require Export WExact RUndef.

Definition fixed_undef (c : cfg) (F : fields) (V : list val) (id : ident) (k : constr)
  (t : ctype) (v : val) : Prop :=
  claims c id F V = [] /\ pinned t k = None /\ senseless k v.

Fixpoint wundef_ty (c : cfg) (E : env) (t : fty) (v : val) {struct t} : Prop :=
  match t with
  | FFixed _ _ | FVar _ _ _ => False
  | FStruct gs => exists ws, v = VRec ws /\ wundef_fields c gs ws gs ws
  | FArrRec _ gs =>
      exists xs, v = VSeq xs /\
        first_fault (fun x => exists ws, x = VRec ws /\ ok_fields c gs ws gs ws)
                    (fun x => exists ws, x = VRec ws /\ wundef_fields c gs ws gs ws) xs
  | FVecRec gs _ l _ =>
      exists xs, v = VSeq xs /\ count_ok c E l (length xs) /\
        first_fault (fun x => exists ws, x = VRec ws /\ ok_fields c gs ws gs ws)
                    (fun x => exists ws, x = VRec ws /\ wundef_fields c gs ws gs ws) xs
  | FMaybe b p ids =>
      exists args v', lookups E ids = Some args /\ p args = true /\ v = VSome v' /\ wundef_ty c E b v'
  | FUnion g al => exists i v', v = VAlt i v' /\ guide_ok E g i /\ wundef_alts c E al i v'
  end
with wundef_fields (c : cfg) (F : fields) (V : list val) (gs : fields) (ws : list val)
  {struct gs} : Prop :=
  match gs, ws with
  | FCons id t k gs', w :: ws' =>
      match t with
      | FFixed t' _ => fixed_undef c F V id k t' w
      | _ => senseless k w \/ (holds k w /\ wundef_ty c (mk_env F V) t w)
      end \/
      (ok_field c F V id t k w /\ wundef_fields c F V gs' ws')
  | _, _ => False
  end
with wundef_alts (c : cfg) (E : env) (al : alts) (i : nat) (v : val) {struct al} : Prop :=
  match al, i with
  | ANil, _ => False
  | ACons t k _, O => senseless k v \/ (holds k v /\ wundef_ty c E t v)
  | ACons _ _ al', S i' => wundef_alts c E al' i' v
  end.

(** One field of the list. *)
Definition wundef_field (c : cfg) (F : fields) (V : list val) (id : ident) (t : fty) (k : constr)
  (w : val) : Prop :=
  match t with
  | FFixed t' _ => fixed_undef c F V id k t' w
  | _ => senseless k w \/ (holds k w /\ wundef_ty c (mk_env F V) t w)
  end.
