(** * Vocabulary of the property statements that mentions casts *)
From Verif Require Export Read Write Spec WSpec Typing.

(** Two builds that may differ in the host's byte order and in taking the
    constexpr or the run-time path. *)
Definition same_build (c c' : cfg) : Prop :=
  c_wire c = c_wire c' /\ c_szw c = c_szw c' /\ c_dmax c = c_dmax c'.

(** The last value of a successful result, changed. *)
Definition on_last {E} (f : val -> val) (o : outcome E (list val)) : outcome E (list val) :=
  match o with
  | Ok vs => Ok (removelast vs ++ [f (last vs VNone)])
  | o => o
  end.

(** [n] casts of the same schema, one after the other, until one fails. *)
Fixpoint cast_many (c : cfg) (fs : fields) (S : istream) (alloc : Z -> bool) (n : nat)
  (s : i_st S) : outcome (reason * ident) (list val) * i_st S * list event :=
  match n with
  | O => (Ok [], s, [])
  | Datatypes.S n' =>
      match rrun S alloc (struct_cast c fs) s with
      | (Ok vs, s1, ev1) =>
          match cast_many c fs S alloc n' s1 with
          | (Ok l, s2, ev2) => (Ok (VRec vs :: l), s2, ev1 ++ ev2)
          | (o, s2, ev2) => (o, s2, ev1 ++ ev2)
          end
      | (Err e, s1, ev1) => (Err e, s1, ev1)
      | (UB, s1, ev1) => (UB, s1, ev1)
      | (Stuck, s1, ev1) => (Stuck, s1, ev1)
      | (Throw, s1, ev1) => (Throw, s1, ev1)
      end
  end.

(** The outcome of a nested field: the inner name is dropped for the field's. *)
Definition nested (id : ident) (f : list val -> val) (vs : list val)
  (o : outcome (reason * ident) (list val)) : outcome (reason * ident) (list val) :=
  match o with
  | Ok l => Ok (vs ++ [f l])
  | Err e => Err (fst e, id)
  | UB => UB
  | Stuck => Stuck
  | Throw => Throw
  end.

(** ** Writing *)

(** The struct [vs] of schema [fs] has, after the fields [pre], the field [id] of
    type [t] with constraint [k], holding [v]. *)
Definition field_at (fs : fields) (vs : list val) (pre : fields) (id : ident) (t : fty)
  (k : constr) (v : val) : Prop :=
  exists post vpre vpost, fs = f_app pre (FCons id t k post) /\ vs = vpre ++ v :: vpost /\
    length vpre = f_len pre.

(** The bytes of the fields [pre] of a struct that starts with them. *)
Definition bytes_before (c : cfg) (pre : fields) (vs : list val) : list Z :=
  enc_fields (c_wire c) pre (firstn (f_len pre) vs).

(** Writing [vs] does not succeed: it fails before the field [id], which comes after
    the fields [pre], or at [id] with reason [r], when the stream holds the encodings
    of the fields [pre] followed by [part].  (Undefined behaviour is possible only
    before [id], in comparing a [fixed_string].) *)
Definition fails_with (c : cfg) (fs : fields) (vs : list val) (pre : fields) (id : ident)
  (r : reason) (part : list Z) : Prop :=
  match wmem (stream_cast c fs vs) with
  | (Err (r', id'), out) =>
      In id' (f_ids pre) \/
      (r' = r /\ id' = id /\ out = bytes_before c pre (emitted c fs vs) ++ part)
  | (UB, _) => plain_fields pre = false
  | _ => False
  end.

(** The records of a record field, an array of records or a vector of records. *)
Definition records_of (t : fty) (v : val) : option (fields * list (list val)) :=
  let recs l := sequence (map (fun x => match x with VRec ws => Some ws | _ => None end) l) in
  match t, v with
  | FStruct gs, VRec ws => Some (gs, [ws])
  | FArrRec _ gs, VSeq l | FVecRec gs _ _ _, VSeq l =>
      match recs l with Some wss => Some (gs, wss) | None => None end
  | _, _ => None
  end.

(** Structs of the same schema written one after the other, until one fails. *)
Fixpoint write_each (c : cfg) (gs : fields) (wss : list (list val))
  : outcome (reason * ident) unit * list Z :=
  match wss with
  | [] => (Ok tt, [])
  | ws :: wss' =>
      match wmem (stream_cast c gs ws) with
      | (Ok _, out) => match write_each c gs wss' with (o, out') => (o, out ++ out') end
      | r => r
      end
  end.

(** The callable and inputs of a computed length. *)
Definition computed_len (t : fty) : option ((list val -> Z) * list ident) :=
  match t with
  | FVar _ (LenComp f ids) _ | FVecRec _ _ (LenComp f ids) _ => Some (f, ids)
  | _ => None
  end.

(** A switch on a field, as opposed to a computed switch or a ladder. *)
Definition is_match_field (g : guide) : bool := match g with GField _ _ _ => true | _ => false end.

(** A vector of records with a computed length has that many records. *)
Definition counted (c : cfg) (E : env) (t : fty) (v : val) : Prop :=
  match t, v with
  | FVecRec _ _ (LenComp f ids) _, VSeq l =>
      exists args, lookups E ids = Some args /\ Z.of_nat (length l) = to_size c (f args)
  | _, _ => True
  end.

(** What a number of [n] bytes amounts to in a type of [w] bytes that it fills from
    the first byte on. *)
Definition scale (o : endian) (w n : nat) : Z :=
  match o with Little => 1 | Big => 256 ^ Z.of_nat (w - n) end.

(** What is left of a value after [n] of its bytes: little endian keeps the low-order
    ones (without the sign), big endian the high-order ones. *)
Definition cut (o : endian) (s : sty) (n : nat) (z : Z) : Z :=
  match o with
  | Little => if Nat.ltb n (ssize s) then z mod 256 ^ Z.of_nat n else z
  | Big => z - z mod 256 ^ Z.of_nat (ssize s - n)
  end.

(** The field type and value held inside an optional or a variant, at any depth. *)
Inductive inside : fty -> val -> fty -> val -> Prop :=
| in_self t v : inside t v t v
| in_maybe b p ids v t' v' : inside b v t' v' -> inside (FMaybe b p ids) (VSome v) t' v'
| in_alt g al i t k v t' v' : a_nth i al = Some (t, k) -> inside t v t' v' ->
    inside (FUnion g al) (VAlt i v) t' v'.

(** A container whose length prefix is the field [lid], with that declared bound. *)
Definition prefixed_by (lid : ident) (b : option Z) (t : fty) : Prop :=
  match t with
  | FVar _ (LenField i) b' | FVecRec _ _ (LenField i) b' => i = lid /\ b' = b
  | _ => False
  end.

(** include/api/field_descriptors.hpp:56-57 [magic_string]. *)
Definition magic_string (id : ident) (cs : list Z) (rest : fields) : fields :=
  FCons id (FFixed (TFixStr (length cs)) (S (length cs))) (CStr false (cs ++ [0])) rest.
