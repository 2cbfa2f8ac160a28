(** * Kinds of messages that begin alike *)
From Verif Require Export Spec Read Typing.
Import ListNotations.

(** A kind: how the field that tells it is called and constrained, and the fields after it. *)
Definition kind_of_msg : Type := (ident * constr * fields)%type.

Definition kind_fields (pre : fields) (t : fty) (kd : kind_of_msg) : fields :=
  let '(id, k, post) := kd in f_app pre (FCons id t k post).

(** No value meets both constraints. *)
Definition tells_apart (t : fty) (a b : kind_of_msg) : Prop :=
  forall v, has_ty t v ->
    (check (snd (fst a)) v = CTrue -> check (snd (fst b)) v = CFalse) /\
    (check (snd (fst b)) v = CTrue -> check (snd (fst a)) v = CFalse).

(** The numbers a constraint allows, when it lists them, and the type they are given in. *)
Definition allowed (k : constr) : option (sty * list Z) :=
  match k with
  | CCmp OEq s a => Some (s, [a])
  | CAny s l => Some (s, l)
  | _ => None
  end.

(** The kinds tried in turn on the same bytes, until one of them reads. *)
Fixpoint tried (c : cfg) (pre : fields) (t : fty) (ks : list kind_of_msg) (bs : list Z)
  : option (kind_of_msg * list val * list Z) :=
  match ks with
  | [] => None
  | kd :: ks' =>
      match rmem (struct_cast c (kind_fields pre t kd)) bs with
      | (Ok vs, rest) => Some (kd, vs, rest)
      | _ => tried c pre t ks' bs
      end
  end.
