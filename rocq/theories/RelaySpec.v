(** * A message in the other byte order *)
From Verif Require Export Spec.

(** The numbers of a message, as the counts of their bytes, in order; a character counts
    as a number of one byte. *)
Fixpoint widths_ct (t : ctype) (v : val) {struct t} : list nat :=
  match t, v with
  | TScalar s, VZ _ => [ssize s]
  | TFloat w, VF _ _ => [w]
  | TArr _ t', VSeq l => flat_map (widths_ct t') l
  | TFixStr _, VSeq l => map (fun _ => 1%nat) l
  | _, _ => []
  end.

Fixpoint widths_ty (t : fty) (v : val) {struct t} : list nat :=
  match t, v with
  | FFixed t' _, _ => widths_ct t' v
  | FVar elt _ _, VSeq l => flat_map (widths_ct elt) l
  | FStruct fs, VRec vs => widths fs vs
  | FArrRec _ fs, VSeq l | FVecRec fs _ _ _, VSeq l =>
      flat_map (fun x => match x with VRec vs => widths fs vs | _ => [] end) l
  | FMaybe b _ _, VSome v' => widths_ty b v'
  | FUnion _ al, VAlt i v' => widths_alts al i v'
  | _, _ => []
  end
with widths (fs : fields) (vs : list val) {struct fs} : list nat :=
  match fs, vs with
  | FCons _ t _ fs', v :: vs' => widths_ty t v ++ widths fs' vs'
  | _, _ => []
  end
with widths_alts (al : alts) (i : nat) (v : val) {struct al} : list nat :=
  match al, i with
  | ANil, _ => []
  | ACons t _ _, O => widths_ty t v
  | ACons _ _ al', S i' => widths_alts al' i' v
  end.

(** Each number back to front. *)
Fixpoint turn (ws : list nat) (bs : list Z) : list Z :=
  match ws with
  | [] => []
  | w :: ws' => rev (firstn w bs) ++ turn ws' (skipn w bs)
  end.

(** No field is declared narrower than its type. *)
Fixpoint full_ty (t : fty) : bool :=
  match t with
  | FFixed t' n => Nat.leb (csize t') n
  | FVar _ _ _ => true
  | FStruct fs | FArrRec _ fs | FVecRec fs _ _ _ => full fs
  | FMaybe b _ _ => full_ty b
  | FUnion _ al => full_alts al
  end
with full (fs : fields) : bool :=
  match fs with FNil => true | FCons _ t _ fs' => full_ty t && full fs' end
with full_alts (al : alts) : bool :=
  match al with ANil => true | ACons t _ al' => full_ty t && full_alts al' end.
