(** * Records at the end of a message *)
From Verif Require Export Spec.
Import ListNotations.

(** The record an array or a vector is made of. *)
Definition record_type (t : fty) : option fields :=
  match t with
  | FArrRec _ gs | FVecRec gs _ _ _ => Some gs
  | _ => None
  end.

(** It has [n] of them: the number declared, or the number the fields before it say, within its
    ceiling. *)
Definition count_is (c : cfg) (E : env) (t : fty) (n : nat) : Prop :=
  match t with
  | FArrRec m _ => n = m
  | FVecRec _ recsz l b => len_is c E l n /\ within c b recsz n
  | _ => False
  end.
