(** * Everything a write asks, in order

    Independent of the writer.  [F], [V]: the schema and the slots of the struct a field
    belongs to.  The constraint of a field comes before its bytes, and before the
    questions its own encoding raises. *)
From Verif Require Export UserSpec WExact.

(** The [size_t] in [w] is [n]. *)
Definition counts (c : cfg) (w : val) (n : nat) : Prop :=
  exists z, w = VZ z /\ Z.of_nat n = z mod 256 ^ Z.of_nat (c_szw c).

(** What one field is asked about [w], the value going out for [id].  The predicate of an
    optional container is asked only while the optional is engaged. *)
Definition told_size (c : cfg) (E : env) (id : ident) (w : val) (t : fty) (v : val)
  (log : list said) : Prop :=
  match t, v with
  | FMaybe b p ids, VSome v' =>
      match sized_by id b v' with
      | Some n =>
          exists args a, lookups E ids = Some args /\ log = [STest p args a] /\
                         (a = true -> counts c w n)
      | None => log = []
      end
  | FUnion _ al, VAlt i v' =>
      log = [] /\
      forall t' k n, a_nth i al = Some (t', k) -> sized_by id t' v' = Some n -> counts c w n
  | _, _ => log = []
  end.

Fixpoint told_sizes (c : cfg) (E : env) (id : ident) (w : val) (fs : fields) (vs : list val)
  (log : list said) : Prop :=
  match fs, vs with
  | FCons _ t _ fs', v :: vs' =>
      exists log1 log2, log = log1 ++ log2 /\ told_size c E id w t v log1 /\
                        told_sizes c E id w fs' vs' log2
  | _, _ => log = []
  end.

(** [w] goes out for the fixed-size field [id]. *)
Definition told_out (c : cfg) (F : fields) (V : list val) (id : ident) (t : ctype) (n : nat)
  (w : val) (log : list said) : Prop :=
  exists log1, told_sizes c (mk_env F V) id w F V log1 /\
               log = log1 ++ map SWrite (fixed_calls c t n w).

Definition told_fixed (c : cfg) (F : fields) (V : list val) (id : ident) (k : constr)
  (t : ctype) (n : nat) (v : val) (log : list said) : Prop :=
  match claims c id F V with
  | z :: l =>
      Forall (eq z) l /\
      exists s log1 log2, t = TScalar s /\ fits c s n z /\ log = log1 ++ log2 /\
        heard_check k (VZ (conv s z)) log1 /\ told_out c F V id t n (VZ (conv s z)) log2
  | [] =>
      match pinned t k with
      | Some w => told_out c F V id t n w log
      | None =>
          exists log1 log2, log = log1 ++ log2 /\ heard_check k v log1 /\
                            told_out c F V id t n v log2
      end
  end.

(** A length in a field raises no question. *)
Definition told_len (c : cfg) (E : env) (l : lenspec) (n : nat) (log : list said) : Prop :=
  match l with LenField _ => log = [] | _ => heard_len c E l n log end.

Definition told_guide (E : env) (g : guide) (i : nat) (log : list said) : Prop :=
  match g with GField _ _ _ => log = [] | _ => heard_guide E g i log end.

Fixpoint told_ty (c : cfg) (E : env) (t : fty) (v : val) (log : list said) {struct t} : Prop :=
  match t with
  | FFixed t' n => log = map SWrite (fixed_calls c t' n v)
  | FVar elt l _ =>
      exists xs log1, v = VSeq xs /\ told_len c E l (length xs) log1 /\
                      log = log1 ++ map SWrite (var_calls c elt xs)
  | FStruct gs => exists ws, v = VRec ws /\ told_fields c gs ws gs ws log
  | FArrRec _ gs =>
      exists xs, v = VSeq xs /\
        in_turn (fun x l => exists ws, x = VRec ws /\ told_fields c gs ws gs ws l) xs log
  | FVecRec gs _ l _ =>
      exists xs log1 log2, v = VSeq xs /\ told_len c E l (length xs) log1 /\ log = log1 ++ log2 /\
        in_turn (fun x l => exists ws, x = VRec ws /\ told_fields c gs ws gs ws l) xs log2
  | FMaybe b p ids =>
      exists args, lookups E ids = Some args /\
        ((v = VNone /\ log = [STest p args false]) \/
         (exists v' log', v = VSome v' /\ log = STest p args true :: log' /\ told_ty c E b v' log'))
  | FUnion g al =>
      exists i v' log1 log2, v = VAlt i v' /\ told_guide E g i log1 /\ told_alts c E al i v' log2 /\
        log = log1 ++ log2
  end
with told_fields (c : cfg) (F : fields) (V : list val) (gs : fields) (ws : list val)
  (log : list said) {struct gs} : Prop :=
  match gs, ws with
  | FNil, [] => log = []
  | FCons id t k gs', w :: ws' =>
      exists log1 log2, log = log1 ++ log2 /\
        match t with
        | FFixed t' n => told_fixed c F V id k t' n w log1
        | _ =>
            exists l1 l2, log1 = l1 ++ l2 /\ heard_check k w l1 /\ told_ty c (mk_env F V) t w l2
        end /\ told_fields c F V gs' ws' log2
  | _, _ => False
  end
with told_alts (c : cfg) (E : env) (al : alts) (i : nat) (v : val) (log : list said)
  {struct al} : Prop :=
  match al, i with
  | ANil, _ => False
  | ACons t k _, O =>
      exists log1 log2, log = log1 ++ log2 /\ heard_check k v log1 /\ told_ty c E t v log2
  | ACons _ _ al', S i' => told_alts c E al' i' v log
  end.

(** An environment that says what it is told to. *)
Definition by_script : host :=
  mkH (list said)
    (fun s n => (None, s))
    (fun s bs =>
       match s with
       | SWrite _ :: s' => (Some true, s')
       | SRefused _ :: s' => (Some false, s')
       | _ => (None, s)
       end)
    (fun s n => (None, s))
    (fun s f args => match s with SNum _ _ z :: s' => (Some z, s') | _ => (None, s) end)
    (fun s p args => match s with STest _ _ b :: s' => (Some b, s') | _ => (None, s) end)
    (fun s p v => match s with SCheck _ _ b :: s' => (Some b, s') | _ => (None, s) end).

(** ** Reading *)

(** Values that can come off the wire: of the declared types, and zero beyond the declared
    width. *)
Fixpoint carried_ty (c : cfg) (t : fty) (v : val) {struct t} : Prop :=
  match t with
  | FFixed t' n => ct_ok t' v /\ representable (c_wire c) t' n v
  | FVar elt _ _ => exists xs, v = VSeq xs /\ Forall (ct_ok elt) xs
  | FStruct gs => exists ws, v = VRec ws /\ carried_fields c gs ws
  | FArrRec _ gs | FVecRec gs _ _ _ =>
      exists xs, v = VSeq xs /\ Forall (fun x => exists ws, x = VRec ws /\ carried_fields c gs ws) xs
  | FMaybe b _ _ => v = VNone \/ exists v', v = VSome v' /\ carried_ty c b v'
  | FUnion _ al => exists i v', v = VAlt i v' /\ carried_alts c al i v'
  end
with carried_fields (c : cfg) (gs : fields) (ws : list val) {struct gs} : Prop :=
  match gs, ws with
  | FNil, [] => True
  | FCons _ t _ gs', w :: ws' => carried_ty c t w /\ carried_fields c gs' ws'
  | _, _ => False
  end
with carried_alts (c : cfg) (al : alts) (i : nat) (v : val) {struct al} : Prop :=
  match al, i with
  | ANil, _ => False
  | ACons t _ _, O => carried_ty c t v
  | ACons _ _ al', S i' => carried_alts c al' i' v
  end.

(** The bytes a stream handed over. *)
Definition given (x : uevent) : list Z :=
  match x with OnRead _ (Some (Some bs)) => bs | _ => [] end.

(** Hands over the bytes it has, and answers from a script. *)
Definition by_script_in : host :=
  mkH (list Z * list said)
    (fun s n =>
       match s with
       | (l, SRead _ :: s') =>
           if n <=? Z.of_nat (length l)
           then (Some (Some (map (fun b => b mod 256) (firstn (Z.to_nat n) l))), (skipn (Z.to_nat n) l, s'))
           else (Some None, s)
       | (l, SShort _ :: s') => (Some None, (l, s'))
       | _ => (None, s)
       end)
    (fun s bs =>
       match s with
       | (l, SWrite _ :: s') => (Some true, (l, s'))
       | (l, SRefused _ :: s') => (Some false, (l, s'))
       | _ => (None, s)
       end)
    (fun s n => match s with (l, SMem _ :: s') => (Some tt, (l, s')) | _ => (None, s) end)
    (fun s f args => match s with (l, SNum _ _ z :: s') => (Some z, (l, s')) | _ => (None, s) end)
    (fun s p args => match s with (l, STest _ _ b :: s') => (Some b, (l, s')) | _ => (None, s) end)
    (fun s p v => match s with (l, SCheck _ _ b :: s') => (Some b, (l, s')) | _ => (None, s) end).
