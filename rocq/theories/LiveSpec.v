(** * How much memory is in use

    Independent of the reader. *)
From Verif Require Export CopySpec.

(** The bytes owned by the containers of a value: each counted once. *)
Fixpoint owned (t : fty) (v : val) {struct t} : Z :=
  match t, v with
  | FVar elt _ _, VSeq xs => bytes_held (length xs) (Z.of_nat (csize elt))
  | FStruct fs, VRec vs => owned_fields fs vs
  | FArrRec _ fs, VSeq xs =>
      fold_right Z.add 0 (map (fun x => match x with VRec vs => owned_fields fs vs | _ => 0 end) xs)
  | FVecRec fs recsz _ _, VSeq xs =>
      bytes_held (length xs) recsz +
      fold_right Z.add 0 (map (fun x => match x with VRec vs => owned_fields fs vs | _ => 0 end) xs)
  | FMaybe b _ _, VSome w => owned b w
  | FUnion _ al, VAlt i w => owned_alt al i w
  | _, _ => 0
  end
with owned_fields (fs : fields) (vs : list val) {struct fs} : Z :=
  match fs, vs with
  | FCons _ t _ fs', v :: vs' => owned t v + owned_fields fs' vs'
  | _, _ => 0
  end
with owned_alt (al : alts) (i : nat) (v : val) {struct al} : Z :=
  match al, i with
  | ACons t _ _, O => owned t v
  | ACons _ _ al', S i' => owned_alt al' i' v
  | ANil, _ => 0
  end.

(** Accounts: an entry is positive for memory taken, negative for memory given back.
    What is in use after the last entry, and the most that was in use at any time. *)
Definition in_use (l : list Z) : Z := fold_right Z.add 0 l.
Fixpoint most (l : list Z) : Z :=
  match l with [] => 0 | n :: l' => Z.max 0 (n + most l') end.

(** The schema has no container: nothing read by it owns memory. *)
Fixpoint flat (t : fty) : bool :=
  match t with
  | FFixed _ _ => true
  | FVar _ _ _ | FVecRec _ _ _ _ => false
  | FStruct fs | FArrRec _ fs => flat_fields fs
  | FMaybe b _ _ => flat b
  | FUnion _ al => flat_alts al
  end
with flat_fields (fs : fields) : bool :=
  match fs with FNil => true | FCons _ t _ fs' => flat t && flat_fields fs' end
with flat_alts (al : alts) : bool :=
  match al with ANil => true | ACons t _ al' => flat t && flat_alts al' end.
