(** * A struct as the list of its fields, each with what it holds *)
From Verif Require Export Schema.

(** Name, type, constraint and value. *)
Definition member : Type := ident * fty * constr * val.

Fixpoint declared (l : list member) : fields :=
  match l with
  | [] => FNil
  | (id, t, k, _) :: l' => FCons id t k (declared l')
  end.

Definition held (l : list member) : list val := map snd l.
