(** * What stops a write, whatever user code and stream answer

    As the faults of WExact.v, with everything that was asked and answered up to the
    failure.  [F], [V]: the schema and the slots of the struct a field belongs to. *)
From Verif Require Export UserFailSpec.

(** The stream took some of [calls] and refused the next one. *)
Definition cut (calls : list (list Z)) (log : list said) : Prop :=
  exists done bs rest, calls = done ++ bs :: rest /\ log = map SWrite done ++ [SRefused bs].

(** What is asked of the field of type [t] about its length in [id], and the lengths [ms]
    the answers demand there. *)
Definition asked_size (E : env) (id : ident) (t : fty) (v : val) (log : list said) (ms : list nat)
  : Prop :=
  match t, v with
  | FMaybe b p ids, VSome v' =>
      match sized_by id b v' with
      | Some n =>
          exists args a, lookups E ids = Some args /\ log = [STest p args a] /\
                         ms = if a then [n] else []
      | None => log = [] /\ ms = []
      end
  | FUnion _ al, VAlt i v' =>
      log = [] /\ exists t' k, a_nth i al = Some (t', k) /\
                  ms = match sized_by id t' v' with Some n => [n] | None => [] end
  | _, _ => log = [] /\ ms = []
  end.

(** All of them are asked, whatever the first ones demand. *)
Fixpoint asked_sizes (E : env) (id : ident) (fs : fields) (vs : list val)
  (log : list said) (ms : list nat) : Prop :=
  match fs, vs with
  | FCons _ t _ fs', v :: vs' =>
      exists log1 log2 ms1 ms2, log = log1 ++ log2 /\ ms = ms1 ++ ms2 /\
        asked_size E id t v log1 ms1 /\ asked_sizes E id fs' vs' log2 ms2
  | _, _ => log = [] /\ ms = []
  end.

(** [w] does not go out for [id]: some length contradicts it, or the stream refuses. *)
Definition halts_out (c : cfg) (F : fields) (V : list val) (id : ident) (t : ctype) (n : nat)
  (w : val) (r : reason) (log : list said) : Prop :=
  (r = FoundContradictingLength /\
   exists ms, asked_sizes (mk_env F V) id F V log ms /\ ~ Forall (counts c w) ms) \/
  (r = BufferExhaustion /\
   exists log1 log2, told_sizes c (mk_env F V) id w F V log1 /\ cut (fixed_calls c t n w) log2 /\
                     log = log1 ++ log2).

Definition halts_fixed (c : cfg) (F : fields) (V : list val) (id : ident) (k : constr)
  (t : ctype) (n : nat) (v : val) (r : reason) (log : list said) : Prop :=
  match claims c id F V with
  | z :: l =>
      (~ Forall (eq z) l /\ r = FoundContradictingLength /\ log = []) \/
      (Forall (eq z) l /\ exists s, t = TScalar s /\
        ((~ fits c s n z /\ r = ValidationFailure /\ log = []) \/
         (fits c s n z /\ refused k (VZ (conv s z)) log /\ r = ValidationFailure) \/
         (fits c s n z /\ exists log1 log2, log = log1 ++ log2 /\
            heard_check k (VZ (conv s z)) log1 /\ halts_out c F V id t n (VZ (conv s z)) r log2)))
  | [] =>
      match pinned t k with
      | Some w => halts_out c F V id t n w r log
      | None =>
          (refused k v log /\ r = ValidationFailure) \/
          (exists log1 log2, log = log1 ++ log2 /\ heard_check k v log1 /\
                             halts_out c F V id t n v r log2)
      end
  end.

(** A computed length that is not the size of the container. *)
Definition misjudged (c : cfg) (E : env) (l : lenspec) (n : nat) (log : list said) : Prop :=
  match l with
  | LenField _ => False
  | LenComp f ids =>
      exists args z, lookups E ids = Some args /\ log = [SNum f args z] /\
                     Z.of_nat n <> z mod 256 ^ Z.of_nat (c_szw c)
  end.

(** The first record that does not go out. *)
Definition halts_in (told halts : val -> list said -> Prop) (xs : list val) (log : list said) : Prop :=
  exists before x after log1 log2, xs = before ++ x :: after /\ in_turn told before log1 /\
    halts x log2 /\ log = log1 ++ log2.

Fixpoint halts_ty (c : cfg) (E : env) (t : fty) (v : val) (r : reason) (log : list said)
  {struct t} : Prop :=
  match t with
  | FFixed t' n => r = BufferExhaustion /\ cut (fixed_calls c t' n v) log
  | FVar elt l _ =>
      exists xs, v = VSeq xs /\
        ((r = FoundContradictingLength /\ misjudged c E l (length xs) log) \/
         (r = BufferExhaustion /\
          exists log1 log2, told_len c E l (length xs) log1 /\ cut (var_calls c elt xs) log2 /\
                            log = log1 ++ log2))
  | FStruct gs => exists ws id, v = VRec ws /\ halts_fields c gs ws gs ws r id log
  | FArrRec _ gs =>
      exists xs, v = VSeq xs /\
        halts_in (fun x l => exists ws, x = VRec ws /\ told_fields c gs ws gs ws l)
                 (fun x l => exists ws id, x = VRec ws /\ halts_fields c gs ws gs ws r id l) xs log
  | FVecRec gs _ l _ =>
      exists xs, v = VSeq xs /\
        ((r = FoundContradictingLength /\ misjudged c E l (length xs) log) \/
         (exists log1 log2, told_len c E l (length xs) log1 /\ log = log1 ++ log2 /\
            halts_in (fun x l => exists ws, x = VRec ws /\ told_fields c gs ws gs ws l)
                     (fun x l => exists ws id, x = VRec ws /\ halts_fields c gs ws gs ws r id l)
                     xs log2))
  | FMaybe b p ids =>
      exists args, lookups E ids = Some args /\
        ((v = VNone /\ log = [STest p args true] /\ r = ValidationFailure) \/
         (exists v', v = VSome v' /\ log = [STest p args false] /\ r = ValidationFailure) \/
         (exists v' log', v = VSome v' /\ log = STest p args true :: log' /\
                          halts_ty c E b v' r log'))
  | FUnion g al =>
      exists i v', v = VAlt i v' /\
        match g with
        | GField _ _ _ => halts_alts c E al i v' r log
        | _ =>
            (unguided E g log /\ r = TypeDeductionFailure) \/
            (exists j, j <> i /\ heard_guide E g j log /\ r = ValidationFailure) \/
            (exists log1 log2, heard_guide E g i log1 /\ halts_alts c E al i v' r log2 /\
                               log = log1 ++ log2)
        end
  end
(** Field [id] does not go out; those before it did. *)
with halts_fields (c : cfg) (F : fields) (V : list val) (gs : fields) (ws : list val)
  (r : reason) (id : ident) (log : list said) {struct gs} : Prop :=
  match gs, ws with
  | FCons id' t k gs', w :: ws' =>
      (id = id' /\
       match t with
       | FFixed t' n => halts_fixed c F V id' k t' n w r log
       | _ =>
           (refused k w log /\ r = ValidationFailure) \/
           (exists l1 l2, log = l1 ++ l2 /\ heard_check k w l1 /\ halts_ty c (mk_env F V) t w r l2)
       end) \/
      (exists log1 log2, log = log1 ++ log2 /\
         match t with
         | FFixed t' n => told_fixed c F V id' k t' n w log1
         | _ =>
             exists l1 l2, log1 = l1 ++ l2 /\ heard_check k w l1 /\ told_ty c (mk_env F V) t w l2
         end /\ halts_fields c F V gs' ws' r id log2)
  | _, _ => False
  end
with halts_alts (c : cfg) (E : env) (al : alts) (i : nat) (v : val) (r : reason) (log : list said)
  {struct al} : Prop :=
  match al, i with
  | ANil, _ => False
  | ACons t k _, O =>
      (refused k v log /\ r = ValidationFailure) \/
      (exists log1 log2, log = log1 ++ log2 /\ heard_check k v log1 /\ halts_ty c E t v r log2)
  | ACons _ _ al', S i' => halts_alts c E al' i' v r log
  end.
