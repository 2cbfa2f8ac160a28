(** * Casts one after the other on the same stream *)
From Verif Require Export PropDefs MoreSpec.

(** A program that reads a message of each schema in turn and stops at the first
    error. *)
Fixpoint read_msgs (c : cfg) (fss : list fields) : rprog (reason * ident) (list (list val)) :=
  match fss with
  | [] => RRet []
  | fs :: fss' =>
      rbind (struct_cast c fs) (fun vs =>
      rbind (read_msgs c fss') (fun vss => RRet (vs :: vss)))
  end.

(** The same for writing. *)
Fixpoint write_msgs (c : cfg) (msgs : list (fields * list val)) : wprog (reason * ident) unit :=
  match msgs with
  | [] => WRet tt
  | (fs, vs) :: msgs' => wbind (stream_cast c fs vs) (fun _ => write_msgs c msgs')
  end.
