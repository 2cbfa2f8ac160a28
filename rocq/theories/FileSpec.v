(** * Vocabulary for files *)
From Verif Require Export FileStream Read Write.
Local Open Scope Z_scope.

(** The bytes a cast got from its reads. *)
Fixpoint delivered (ev : list event) : list Z :=
  match ev with
  | [] => []
  | EvRead _ (Some bs) :: ev' => bs ++ delivered ev'
  | _ :: ev' => delivered ev'
  end.

(** Casts of structs [vss], one after the other; [None]: one of them failed. *)
Fixpoint write_all (uw : file -> list Z -> bool * file) (c : cfg) (fs : fields) (vss : list (list val)) (s : file)
  : option file :=
  match vss with
  | [] => Some s
  | vs :: vss' =>
      match wrun (file_ostream uw) (stream_cast c fs vs) s with
      | (Ok _, s', _) => write_all uw c fs vss' s'
      | _ => None
      end
  end.

Fixpoint read_all (ur : file -> Z -> option (list Z) * file) (alloc : Z -> bool) (c : cfg) (fs : fields) (n : nat)
  (s : file) : option (list (list val) * file) :=
  match n with
  | O => Some ([], s)
  | S n' =>
      match rrun (file_istream ur) alloc (struct_cast c fs) s with
      | (Ok vs, s', _) =>
          match read_all ur alloc c fs n' s' with
          | Some (vss, s'') => Some (vs :: vss, s'')
          | None => None
          end
      | _ => None
      end
  end.
