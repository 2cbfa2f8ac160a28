(** * What stops a read, whatever user code answers

    As RExact.v and RStop.v, with everything that was asked and answered up to the
    failure, and the bytes that were given.  [E]: the values of the fields before. *)
From Verif Require Export UserLogSpec RExact.

Fixpoint none_held (E : env) (brs : list ((list val -> bool) * list ident)) (log : list said) : Prop :=
  match brs with
  | [] => log = []
  | (p, ids) :: brs' =>
      exists args log', lookups E ids = Some args /\ log = STest p args false :: log' /\
                        none_held E brs' log'
  end.

(** No case matched, or no branch held. *)
Definition unguided (E : env) (g : guide) (log : list said) : Prop :=
  match g with
  | GField id s cases =>
      log = [] /\ exists z, lookup E id = Some (VZ z) /\ forall i, ~ first_case s z cases i
  | GComp f r ids cases =>
      exists args z, lookups E ids = Some args /\ log = [SNum f args z] /\
                     forall i, ~ first_case r (conv r z) cases i
  | GLadder brs => none_held E brs log
  end.

Definition refused (k : constr) (v : val) (log : list said) : Prop :=
  match k with
  | CFun f => log = [SCheck f v false]
  | _ => log = [] /\ violates k v
  end.

(** A container of [n] elements, of which the stream gave too little. *)
Definition short_of (c : cfg) (esz n : nat) (log : list said) (out : list Z) : Prop :=
  if c_cx c then
    exists k, (k < n)%nat /\ log = repeat (SRead (Z.of_nat esz)) k ++ [SShort (Z.of_nat esz)] /\
              length out = (k * esz)%nat /\ Forall byte_ok out
  else log = [SShort (Z.of_nat n * Z.of_nat esz)] /\ out = [].

Definition heard_records (c : cfg) (gs : fields) (xs : list val) (log : list said) : Prop :=
  Forall (fun x => exists ws, x = VRec ws /\ carried_fields c gs ws) xs /\
  in_turn (fun x l => exists vs, x = VRec vs /\ heard_fields c (mk_env gs vs) gs vs l) xs log.

(** The part of type [t] was not obtained, for reason [r]. *)
Fixpoint stops_ty (c : cfg) (E : env) (t : fty) (r : reason) (log : list said) (out : list Z)
  {struct t} : Prop :=
  match t with
  | FFixed _ n => r = BufferExhaustion /\ log = [SShort (Z.of_nat n)] /\ out = []
  | FVar elt l b =>
      exists n log1 log2, heard_len c E l n log1 /\ log = log1 ++ log2 /\
        ((~ within c b (Z.of_nat (csize elt)) n /\ r = ExcessiveLength /\ log2 = [] /\ out = []) \/
         (within c b (Z.of_nat (csize elt)) n /\ r = BufferExhaustion /\
          exists log3, log2 = SMem (Z.of_nat n * Z.of_nat (csize elt)) :: log3 /\
                       short_of c (csize elt) n log3 out))
  | FStruct gs => exists id, stops_fields c [] gs r id log out
  | FArrRec n gs =>
      exists xs log1 log2 out2 id, (length xs < n)%nat /\ heard_records c gs xs log1 /\
        stops_fields c [] gs r id log2 out2 /\
        log = log1 ++ log2 /\ out = enc_records (c_wire c) gs xs ++ out2
  | FVecRec gs recsz l b =>
      exists n log1 log2, heard_len c E l n log1 /\ log = log1 ++ log2 /\
        ((~ within c b recsz n /\ r = ExcessiveLength /\ log2 = [] /\ out = []) \/
         (within c b recsz n /\
          exists xs log3 log4 out2 id, (length xs < n)%nat /\ heard_records c gs xs log3 /\
            stops_fields c [] gs r id log4 out2 /\
            log2 = SMem (Z.of_nat n * recsz) :: log3 ++ log4 /\
            out = enc_records (c_wire c) gs xs ++ out2))
  | FMaybe b p ids =>
      exists args log', lookups E ids = Some args /\ log = STest p args true :: log' /\
                        stops_ty c E b r log' out
  | FUnion g al =>
      (unguided E g log /\ r = TypeDeductionFailure /\ out = []) \/
      (exists i log1 log2, heard_guide E g i log1 /\ stops_alts c E al i r log2 out /\ log = log1 ++ log2)
  end
(** Field [id] was not obtained, or its constraint refused it; those before it were. *)
with stops_fields (c : cfg) (E : env) (gs : fields) (r : reason) (id : ident) (log : list said)
  (out : list Z) {struct gs} : Prop :=
  match gs with
  | FNil => False
  | FCons id' t k gs' =>
      (id = id' /\ stops_ty c E t r log out) \/
      (exists v log1 log2, carried_ty c t v /\ heard_ty c E t v log1 /\ refused k v log2 /\
         id = id' /\ r = ValidationFailure /\ log = log1 ++ log2 /\ out = enc_ty (c_wire c) t v) \/
      (exists v log1 log2 log3 out3, carried_ty c t v /\ heard_ty c E t v log1 /\ heard_check k v log2 /\
         stops_fields c (E ++ [(id', v)]) gs' r id log3 out3 /\
         log = log1 ++ log2 ++ log3 /\ out = enc_ty (c_wire c) t v ++ out3)
  end
with stops_alts (c : cfg) (E : env) (al : alts) (i : nat) (r : reason) (log : list said)
  (out : list Z) {struct al} : Prop :=
  match al, i with
  | ANil, _ => False
  | ACons t k _, O =>
      stops_ty c E t r log out \/
      (exists v log1 log2, carried_ty c t v /\ heard_ty c E t v log1 /\ refused k v log2 /\
         r = ValidationFailure /\ log = log1 ++ log2 /\ out = enc_ty (c_wire c) t v)
  | ACons _ _ al', S i' => stops_alts c E al' i' r log out
  end.
