(** * What a cast asks of the stream and of the allocator

    Independent of the reader and the writer.  Documented in docs/streams.md as
    "binary reads/writes of [size] bytes", which leaves open how many there are. *)
From Verif Require Export WSpec Prog.

Definition same_order (c : cfg) : bool := endian_eqb (c_host c) (c_wire c).

(** ** The arguments of the calls to [write], in order *)

(** One call per scalar or string. *)
Fixpoint leaves (o : endian) (t : ctype) (v : val) : list (list Z) :=
  match t, v with
  | TArr _ t', VSeq l => flat_map (leaves o t') l
  | _, _ => [enc_ct o t v]
  end.

(** An array is written whole in host order, leaf by leaf otherwise. *)
Definition fixed_calls (c : cfg) (t : ctype) (n : nat) (v : val) : list (list Z) :=
  match t with
  | TArr _ _ => if same_order c then [enc_ct (c_wire c) t v] else leaves (c_wire c) t v
  | _ => [firstn n (enc_ct (c_wire c) t v)]
  end.

(** A container: whole in host order, even if empty, but element by element on a
    constexpr stream; leaf by leaf otherwise. *)
Definition var_calls (c : cfg) (elt : ctype) (l : list val) : list (list Z) :=
  if same_order c then
    if c_cx c then map (enc_ct (c_wire c) elt) l else [flat_map (enc_ct (c_wire c) elt) l]
  else flat_map (leaves (c_wire c) elt) l.

Fixpoint calls_ty (c : cfg) (t : fty) (v : val) {struct t} : list (list Z) :=
  match t, v with
  | FFixed t' n, _ => fixed_calls c t' n v
  | FVar elt _ _, VSeq l => var_calls c elt l
  | FStruct fs, VRec vs => calls_fields c fs vs
  | FArrRec _ fs, VSeq l | FVecRec fs _ _ _, VSeq l =>
      flat_map (fun x => match x with VRec vs => calls_fields c fs vs | _ => [] end) l
  | FMaybe b _ _, VSome v' => calls_ty c b v'
  | FUnion _ al, VAlt i v' => calls_alts c al i v'
  | _, _ => []
  end
with calls_fields (c : cfg) (fs : fields) (vs : list val) {struct fs} : list (list Z) :=
  match fs, vs with
  | FCons _ t _ fs', v :: vs' => calls_ty c t v ++ calls_fields c fs' vs'
  | _, _ => []
  end
with calls_alts (c : cfg) (al : alts) (i : nat) (v : val) {struct al} : list (list Z) :=
  match al, i with
  | ANil, _ => []
  | ACons t _ _, O => calls_ty c t v
  | ACons _ _ al', S i' => calls_alts c al' i' v
  end.

(** ** The requests of a read *)

Inductive ask := AskRead (n : Z) | AskMem (n : Z).

Definition asked (ev : event) : ask :=
  match ev with EvRead n _ => AskRead n | EvAlloc n => AskMem n end.

(** The container of [l] is resized once, then filled in one read; element by element
    on a constexpr stream. *)
Definition var_asks (c : cfg) (elt : ctype) (l : list val) : list ask :=
  let n := Z.of_nat (length l) in
  let w := Z.of_nat (csize elt) in
  AskMem (n * w) :: if c_cx c then map (fun _ => AskRead w) l else [AskRead (n * w)].

Fixpoint asks_ty (c : cfg) (t : fty) (v : val) {struct t} : list ask :=
  match t, v with
  | FFixed _ n, _ => [AskRead (Z.of_nat n)]
  | FVar elt _ _, VSeq l => var_asks c elt l
  | FStruct fs, VRec vs => asks_fields c fs vs
  | FArrRec _ fs, VSeq l =>
      flat_map (fun x => match x with VRec vs => asks_fields c fs vs | _ => [] end) l
  | FVecRec fs recsz _ _, VSeq l =>
      AskMem (Z.of_nat (length l) * recsz) ::
      flat_map (fun x => match x with VRec vs => asks_fields c fs vs | _ => [] end) l
  | FMaybe b _ _, VSome v' => asks_ty c b v'
  | FUnion _ al, VAlt i v' => asks_alts c al i v'
  | _, _ => []
  end
with asks_fields (c : cfg) (fs : fields) (vs : list val) {struct fs} : list ask :=
  match fs, vs with
  | FCons _ t _ fs', v :: vs' => asks_ty c t v ++ asks_fields c fs' vs'
  | _, _ => []
  end
with asks_alts (c : cfg) (al : alts) (i : nat) (v : val) {struct al} : list ask :=
  match al, i with
  | ANil, _ => []
  | ACons t _ _, O => asks_ty c t v
  | ACons _ _ al', S i' => asks_alts c al' i' v
  end.
