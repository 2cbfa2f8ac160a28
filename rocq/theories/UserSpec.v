(** * Environments whose code throws, keeps state or changes its mind: what the
    statements of PropsUser.v say

    Independent of the reader and the writer: from UserCode.v only the environment and
    what it observes. *)
From Verif Require Export CallSpec UserCode.

(** ** Exceptions *)

Definition threw (x : uevent) : bool :=
  match x with
  | OnRead _ None | OnWrite _ None | OnAlloc _ None
  | OnNum _ _ None | OnTest _ _ None | OnCheck _ _ None => true
  | _ => false
  end.

(** ** User code that answers like a function, if it answers *)
Definition honest (H : host) : Prop :=
  (forall s f args z, fst (h_num H s f args) = Some z -> z = f args) /\
  (forall s p args b, fst (h_test H s p args) = Some b -> b = p args) /\
  (forall s p v b, fst (h_check H s p v) = Some b -> b = p v).

(** What the stream and the allocator saw. *)
Definition io_read (x : uevent) : list event :=
  match x with
  | OnRead n (Some r) => [EvRead n r]
  | OnAlloc n (Some _) => [EvAlloc n]
  | _ => []
  end.

Definition io_write (x : uevent) : list (list Z * bool) :=
  match x with OnWrite bs (Some b) => [(bs, b)] | _ => [] end.

(** What the stream answered. *)
Definition read_answer (x : uevent) : list (option (list Z)) :=
  match x with OnRead _ (Some r) => [r] | _ => [] end.

Definition write_answer (x : uevent) : list bool :=
  match x with OnWrite _ (Some b) => [b] | _ => [] end.

(** Streams that give the same answers again, and fail after the last. *)
Definition replay_read (s : list (option (list Z))) (n : Z) : option (list Z) * list (option (list Z)) :=
  match s with [] => (None, []) | r :: s' => (r, s') end.
Definition replay : istream := mkI _ replay_read.

Definition replay_write (s : list bool) (bs : list Z) : bool * list bool :=
  match s with [] => (false, []) | b :: s' => (b, s') end.
Definition replay_out : ostream := mkO _ replay_write.

Definition grants (n : Z) : bool := true.

(** A plain stream with functions for user code. *)
Definition pure_in (S : istream) : host :=
  mkH (i_st S)
    (fun s n => let '(r, s') := i_read S s n in (Some r, s'))
    (fun s bs => (Some false, s))
    (fun s n => (Some tt, s))
    (fun s f args => (Some (f args), s))
    (fun s p args => (Some (p args), s))
    (fun s p v => (Some (p v), s)).

Definition pure_out (S : ostream) : host :=
  mkH (o_st S)
    (fun s n => (Some None, s))
    (fun s bs => let '(b, s') := o_write S s bs in (Some b, s'))
    (fun s n => (Some tt, s))
    (fun s f args => (Some (f args), s))
    (fun s p args => (Some (p args), s))
    (fun s p v => (Some (p v), s)).

(** ** Reading with arbitrary user code *)

(** What happened, without the bytes delivered. *)
Inductive said :=
| SRead (n : Z)
| SShort (n : Z)
| SMem (n : Z)
| SWrite (bs : list Z)
| SRefused (bs : list Z)
| SNum (f : list val -> Z) (args : list val) (z : Z)
| STest (p : list val -> bool) (args : list val) (b : bool)
| SCheck (p : val -> bool) (v : val) (b : bool).

Definition said_of (x : uevent) : list said :=
  match x with
  | OnRead n (Some (Some _)) => [SRead n]
  | OnRead n (Some None) => [SShort n]
  | OnAlloc n (Some _) => [SMem n]
  | OnWrite bs (Some true) => [SWrite bs]
  | OnWrite bs (Some false) => [SRefused bs]
  | OnNum f args (Some z) => [SNum f args z]
  | OnTest p args (Some b) => [STest p args b]
  | OnCheck p v (Some b) => [SCheck p v b]
  | _ => []
  end.

(** The number of elements, from a field or from what the callable answered. *)
Definition heard_len (c : cfg) (E : env) (l : lenspec) (n : nat) (log : list said) : Prop :=
  match l with
  | LenField id =>
      log = [] /\ exists z, lookup E id = Some (VZ z) /\ Z.of_nat n = z mod 256 ^ Z.of_nat (c_szw c)
  | LenComp f ids =>
      exists args z, lookups E ids = Some args /\ log = [SNum f args z] /\
                     Z.of_nat n = z mod 256 ^ Z.of_nat (c_szw c)
  end.

(** No branch is asked after the first that holds. *)
Fixpoint heard_ladder (E : env) (brs : list ((list val -> bool) * list ident)) (i : nat)
  (log : list said) : Prop :=
  match brs, i with
  | (p, ids) :: _, O => exists args, lookups E ids = Some args /\ log = [STest p args true]
  | (p, ids) :: brs', S i' =>
      exists args log', lookups E ids = Some args /\ log = STest p args false :: log' /\
                        heard_ladder E brs' i' log'
  | [], _ => False
  end.

Definition heard_guide (E : env) (g : guide) (i : nat) (log : list said) : Prop :=
  match g with
  | GField id s cases => log = [] /\ exists z, lookup E id = Some (VZ z) /\ first_case s z cases i
  | GComp f r ids cases =>
      exists args z, lookups E ids = Some args /\ log = [SNum f args z] /\
                     first_case r (conv r z) cases i
  | GLadder brs => heard_ladder E brs i log
  end.

Definition heard_check (k : constr) (v : val) (log : list said) : Prop :=
  match k with
  | CFun f => log = [SCheck f v true]
  | _ => log = [] /\ holds k v
  end.

Definition quiet (a : ask) : said :=
  match a with AskRead n => SRead n | AskMem n => SMem n end.

(** Records one after the other. *)
Fixpoint in_turn (P : val -> list said -> Prop) (l : list val) (log : list said) : Prop :=
  match l with
  | [] => log = []
  | x :: l' => exists log1 log2, log = log1 ++ log2 /\ P x log1 /\ in_turn P l' log2
  end.

(** The value, and everything that was asked for it, in order. *)
Fixpoint heard_ty (c : cfg) (E : env) (t : fty) (v : val) (log : list said) {struct t} : Prop :=
  match t with
  | FFixed _ n => log = [SRead (Z.of_nat n)]
  | FVar elt l b =>
      exists xs log1, v = VSeq xs /\ heard_len c E l (length xs) log1 /\
        within c b (Z.of_nat (csize elt)) (length xs) /\ log = log1 ++ map quiet (var_asks c elt xs)
  | FStruct fs => exists vs, v = VRec vs /\ heard_fields c (mk_env fs vs) fs vs log
  | FArrRec n fs =>
      exists xs, v = VSeq xs /\ length xs = n /\
        in_turn (fun x l => exists vs, x = VRec vs /\ heard_fields c (mk_env fs vs) fs vs l) xs log
  | FVecRec fs recsz l b =>
      exists xs log1 log2, v = VSeq xs /\ heard_len c E l (length xs) log1 /\
        within c b recsz (length xs) /\
        log = log1 ++ SMem (Z.of_nat (length xs) * recsz) :: log2 /\
        in_turn (fun x l => exists vs, x = VRec vs /\ heard_fields c (mk_env fs vs) fs vs l) xs log2
  | FMaybe b p ids =>
      exists args, lookups E ids = Some args /\
        ((v = VNone /\ log = [STest p args false]) \/
         (exists v' log', v = VSome v' /\ log = STest p args true :: log' /\ heard_ty c E b v' log'))
  | FUnion g al =>
      exists i v' log1 log2, v = VAlt i v' /\ heard_guide E g i log1 /\ heard_alts c E al i v' log2 /\
        log = log1 ++ log2
  end
with heard_fields (c : cfg) (E : env) (fs : fields) (vs : list val) (log : list said)
  {struct fs} : Prop :=
  match fs, vs with
  | FNil, [] => log = []
  | FCons _ t k fs', v :: vs' =>
      exists log1 log2 log3, log = log1 ++ log2 ++ log3 /\
        heard_ty c E t v log1 /\ heard_check k v log2 /\ heard_fields c E fs' vs' log3
  | _, _ => False
  end
with heard_alts (c : cfg) (E : env) (al : alts) (i : nat) (v : val) (log : list said)
  {struct al} : Prop :=
  match al, i with
  | ANil, _ => False
  | ACons t k _, O =>
      exists log1 log2, log = log1 ++ log2 /\ heard_ty c E t v log1 /\ heard_check k v log2
  | ACons _ _ al', S i' => heard_alts c E al' i' v log
  end.

(** A stream that hands over as many bytes as it was asked for. *)
Definition hands_over (H : host) : Prop :=
  forall s n bs s', h_read H s n = (Some (Some bs), s') -> length bs = Z.to_nat n /\ Forall byte_ok bs.
