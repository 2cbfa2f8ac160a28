(** * What an exchange cut off by an exception looks like *)
From Verif Require Export UserHaltSpec.

(** What the cast asks of its environment. *)
Inductive question :=
| QRead (n : Z)
| QMem (n : Z)
| QWrite (bs : list Z)
| QNum (f : list val -> Z) (args : list val)
| QTest (p : list val -> bool) (args : list val)
| QCheck (p : val -> bool) (v : val).

Definition question_of (x : uevent) : question :=
  match x with
  | OnRead n _ => QRead n
  | OnWrite bs _ => QWrite bs
  | OnAlloc n _ => QMem n
  | OnNum f args _ => QNum f args
  | OnTest p args _ => QTest p args
  | OnCheck p v _ => QCheck p v
  end.

Definition about (q : said) : question :=
  match q with
  | SRead n | SShort n => QRead n
  | SMem n => QMem n
  | SWrite bs | SRefused bs => QWrite bs
  | SNum f args _ => QNum f args
  | STest p args _ => QTest p args
  | SCheck p v _ => QCheck p v
  end.

(** The whole exchange of a write that ends by itself. *)
Definition whole_write (c : cfg) (fs : fields) (vs : list val) (log : list said) : Prop :=
  told_fields c fs vs fs vs log \/ exists r id, halts_fields c fs vs fs vs r id log.

(** The whole exchange of a read that ends by itself, and the bytes given. *)
Definition whole_read (c : cfg) (fs : fields) (log : list said) (out : list Z) : Prop :=
  (exists vs, carried_fields c fs vs /\ heard_fields c (mk_env fs vs) fs vs log /\
              out = enc_fields (c_wire c) fs vs) \/
  (exists r id, stops_fields c [] fs r id log out).

(** What a read is given with the answer [q]. *)
Definition gives (q : said) (bs : list Z) : Prop :=
  match q with
  | SRead n => length bs = Z.to_nat n /\ Forall byte_ok bs
  | _ => bs = []
  end.
