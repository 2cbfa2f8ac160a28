(** * A message carried in another *)
From Verif Require Export Spec.

(** The fields [pre], [id], [post]: [id] as bytes, their number given by [l] with the bound
    [b]; or as a struct. *)
Definition opaque (pre : fields) (id : ident) (l : lenspec) (b : option Z) (post : fields) : fields :=
  f_app pre (FCons id (FVar (TScalar (SInt 1 false)) l b) CNone post).

Definition embedded (pre : fields) (id : ident) (inner post : fields) : fields :=
  f_app pre (FCons id (FStruct inner) CNone post).
