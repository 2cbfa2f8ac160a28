(** * What the statements about type ids, meta::invoke and static_array say *)
From Verif Require Export Meta.

(** Types numbered in the order of their first mention. *)
Definition numbered (ts : list cxx) : registry := combine (map Z.of_nat (seq 0 (length ts))) ts.

Definition mention (ts : list cxx) (t : cxx) : list cxx :=
  if in_dec Nat.eq_dec t ts then ts else ts ++ [t].

(** The types a trait maps the types [ts] to. *)
Definition images (tr : cxx -> trait_of) (ts : list cxx) : list cxx :=
  flat_map (fun t => match tr t with HasType u => [u] | _ => [] end) ts.

Definition to_value (tr : cxx -> trait_of) (t : cxx) : Prop := exists v, tr t = HasValue v.
Definition to_type (tr : cxx -> trait_of) (t : cxx) : Prop := exists u, tr t = HasType u.
