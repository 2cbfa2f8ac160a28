(** * What a read asks the allocator for, copies included

    Independent of the reader. *)
From Verif Require Export MoreSpec.

(** The bytes of a container with [n] elements. *)
Definition bytes_held (n : nat) (esz : Z) : Z := Z.of_nat n * esz.

(** [paid k t v]: the bytes asked for on behalf of the containers in the value [v] of a
    field [t], if [v] as a whole is copied [k] times.  A container is resized once and
    copied as often as the values it is in.  A record is copied twice more than what it
    is in, the value of an optional once more. *)
Fixpoint paid (k : Z) (t : fty) (v : val) {struct t} : Z :=
  match t, v with
  | FVar elt _ _, VSeq xs => (1 + k) * bytes_held (length xs) (Z.of_nat (csize elt))
  | FStruct fs, VRec vs => paid_fields (k + 2) fs vs
  | FArrRec _ fs, VSeq xs =>
      fold_right Z.add 0 (map (fun x => match x with VRec vs => paid_fields (k + 2) fs vs | _ => 0 end) xs)
  | FVecRec fs recsz _ _, VSeq xs =>
      (1 + k) * bytes_held (length xs) recsz +
      fold_right Z.add 0 (map (fun x => match x with VRec vs => paid_fields (k + 2) fs vs | _ => 0 end) xs)
  | FMaybe b _ _, VSome w => paid (k + 1) b w
  | FUnion _ al, VAlt i w => paid_alt k al i w
  | _, _ => 0
  end
with paid_fields (k : Z) (fs : fields) (vs : list val) {struct fs} : Z :=
  match fs, vs with
  | FCons _ t _ fs', v :: vs' => paid k t v + paid_fields k fs' vs'
  | _, _ => 0
  end
with paid_alt (k : Z) (al : alts) (i : nat) (v : val) {struct al} : Z :=
  match al, i with
  | ACons t _ _, O => paid k t v
  | ACons _ _ al', S i' => paid_alt k al' i' v
  | ANil, _ => 0
  end.

(** How often a container of the schema is asked for at most. *)
Fixpoint times (t : fty) : Z :=
  match t with
  | FFixed _ _ | FVar _ _ _ => 1
  | FStruct fs | FArrRec _ fs | FVecRec fs _ _ _ => 2 + times_fields fs
  | FMaybe b _ _ => 1 + times b
  | FUnion _ al => times_alts al
  end
with times_fields (fs : fields) : Z :=
  match fs with FNil => 1 | FCons _ t _ fs' => Z.max (times t) (times_fields fs') end
with times_alts (al : alts) : Z :=
  match al with ANil => 1 | ACons t _ al' => Z.max (times t) (times_alts al') end.

(** The requests made of the stream, and those made of the allocator. *)
Definition reads_of (ev : list event) : list event :=
  filter (fun e => match e with EvRead _ _ => true | EvAlloc _ => false end) ev.
Fixpoint blocks_of (ev : list event) : list Z :=
  match ev with
  | [] => []
  | EvAlloc n :: ev' => n :: blocks_of ev'
  | EvRead _ _ :: ev' => blocks_of ev'
  end.

Definition granting (n : Z) : bool := true.
