(** * Resource bounds, message sequences: what the statements of PropsMore.v say

    Independent of the reader and the writer. *)
From Verif Require Export Spec Prog.
From Verif Require Import Ranges.

(** ** Totals over a schema

    [own t] is what the field [t] costs by itself.  Records cost what their fields
    cost; an array of [n] records [n] times that; a vector of records as many times
    as records fit under its ceiling; an optional at most its base; a variant at
    most its dearest alternative. *)
Fixpoint total (c : cfg) (own : fty -> Z) (t : fty) : Z :=
  match t with
  | FFixed _ _ | FVar _ _ _ => own t
  | FStruct fs => total_fields c own fs
  | FArrRec n fs => Z.of_nat n * total_fields c own fs
  | FVecRec fs recsz _ b => own t + ceiling_of c b / recsz * total_fields c own fs
  | FMaybe b _ _ => total c own b
  | FUnion _ al => total_alts c own al
  end
with total_fields (c : cfg) (own : fty -> Z) (fs : fields) : Z :=
  match fs with
  | FNil => 0
  | FCons _ t _ fs' => total c own t + total_fields c own fs'
  end
with total_alts (c : cfg) (own : fty -> Z) (al : alts) : Z :=
  match al with
  | ANil => 0
  | ACons t _ al' => Z.max (total c own t) (total_alts c own al')
  end.

(** Memory: a container costs its ceiling. *)
Definition own_memory (c : cfg) (t : fty) : Z :=
  match t with
  | FVar _ _ b | FVecRec _ _ _ b => ceiling_of c b
  | _ => 0
  end.

(** Requests to the stream: a fixed-size field makes one; a container one, or one
    per element on a constexpr stream. *)
Definition own_requests (c : cfg) (t : fty) : Z :=
  match t with
  | FFixed _ _ => 1
  | FVar elt _ b => if c_cx c then ceiling_of c b / Z.of_nat (csize elt) else 1
  | _ => 0
  end.

(** Bytes requested. *)
Definition own_bytes (c : cfg) (t : fty) : Z :=
  match t with
  | FFixed _ n => Z.of_nat n
  | FVar _ _ b => ceiling_of c b
  | _ => 0
  end.

(** What a run did. *)
Fixpoint allocated (ev : list event) : Z :=
  match ev with
  | [] => 0
  | EvAlloc n :: ev' => n + allocated ev'
  | EvRead _ _ :: ev' => allocated ev'
  end.

Fixpoint requests (ev : list event) : Z :=
  match ev with
  | [] => 0
  | EvRead _ _ :: ev' => 1 + requests ev'
  | EvAlloc _ :: ev' => requests ev'
  end.

Fixpoint requested (ev : list event) : Z :=
  match ev with
  | [] => 0
  | EvRead n _ :: ev' => n + requested ev'
  | EvAlloc _ :: ev' => requested ev'
  end.

(** ** Ranges: no two overlap, though one may end where the next begins. *)
Definition apart (r s : range) : Prop := r_b r <= r_a s \/ r_b s <= r_a r.

Definition all_apart (rs : list range) : Prop :=
  forall i j r s, i <> j -> nth_error rs i = Some r -> nth_error rs j = Some s -> apart r s.

(** ** Messages one after the other, each with its own schema *)
Fixpoint enc_msgs (o : endian) (msgs : list (fields * list val)) : list Z :=
  match msgs with
  | [] => []
  | (fs, vs) :: msgs' => enc_fields o fs vs ++ enc_msgs o msgs'
  end.

(** ** Containers *)

(** The elements of a list in order of first appearance, once each. *)
Fixpoint once {A} (eqb : A -> A -> bool) (l : list A) : list A :=
  match l with
  | [] => []
  | x :: l' => x :: filter (fun y => negb (eqb x y)) (once eqb l')
  end.

(** The last value given for a key. *)
Fixpoint last_value {V} (es : list (ident * V)) (key : ident) : option V :=
  match es with
  | [] => None
  | (k, v) :: es' =>
      match last_value es' key with
      | Some w => Some w
      | None => if String.eqb k key then Some v else None
      end
  end.

(** ** Fields a length or a discriminant is taken from, by fields that may or may not
    be written *)

Definition len_source (t : fty) : list ident :=
  match t with FVar _ (LenField id) _ | FVecRec _ _ (LenField id) _ => [id] | _ => [] end.

Fixpoint alts_len_sources (al : alts) : list ident :=
  match al with ANil => [] | ACons t _ al' => len_source t ++ alts_len_sources al' end.

Fixpoint all_sources (fs : fields) : list ident :=
  match fs with
  | FNil => []
  | FCons _ t _ fs' =>
      match t with
      | FMaybe b _ _ => len_source b
      | FUnion g al =>
          match g with GField id _ _ => [id] | _ => [] end ++ alts_len_sources al
      | _ => len_source t
      end ++ all_sources fs'
  end.
