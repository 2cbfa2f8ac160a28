(** * Fields put into a record of their own: what the statements of PropsGroup.v say

    Independent of the reader and the writer. *)
From Verif Require Export Spec Prog.

(** [b] of the values, from the [a]-th on, put into a record. *)
Definition grouped (a b : nat) (vs : list val) : list val :=
  firstn a vs ++ VRec (firstn b (skipn a vs)) :: skipn b (skipn a vs).

(** An error in one of the fields [ids] is reported for the record [id]. *)
Definition blamed (ids : list ident) (id i : ident) : ident := if memb i ids then id else i.

Definition grouped_outcome {A} (g : A -> A) (ids : list ident) (id : ident)
  (o : outcome (reason * ident) A) : outcome (reason * ident) A :=
  match o with
  | Ok a => Ok (g a)
  | Err (r, i) => Err (r, blamed ids id i)
  | _ => o
  end.
