(** * Order comparisons of arrays

    [arr_cmp op lit]: the constraint [lt{lit}], [gt{lit}] or [lte{lit}] on an array;
    [arr_any lits]: [any_of] (ArrCmp.v).  [numbers], [before], [same_numbers],
    [ordered]: ArrSpec.v. *)
From Verif Require Import Read Write WSpec PropDefs Typing Examples ArrCmp ArrSpec.
From Verif Require Import ArrFacts.
Local Open Scope list_scope.

(** ** C96: the first place where the numbers differ decides. *)
Theorem C96_order : forall t v lit, ct_ok t v -> ct_ok t lit ->
  (arr_cmp ALt lit v = true <-> before v lit) /\
  (arr_cmp AGt lit v = true <-> before lit v) /\
  (arr_cmp ALte lit v = true <-> before v lit \/ same_numbers v lit).
Proof. exact arr_spec. Qed.
Print Assumptions C96_order.

(** Without NaNs exactly one of the three cases holds... *)
Theorem C96_total : forall t a b, ct_ok t a -> ct_ok t b -> ordered a -> ordered b ->
  before a b \/ same_numbers a b \/ before b a.
Proof. exact before_or. Qed.
Print Assumptions C96_total.

Theorem C96_exclusive : forall t a b, ct_ok t a -> ct_ok t b -> before a b ->
  ~ before b a /\ ~ same_numbers a b.
Proof. exact before_irrefl. Qed.
Print Assumptions C96_exclusive.

(** ... with a NaN none may hold: [lte] is then not the opposite of [gt]. *)
Theorem C96_total_refuted : exists t a b, ct_ok t a /\ ct_ok t b /\
  arr_cmp ALte b a = false /\ arr_cmp AGt b a = false.
Proof.
  exists (TArr 2 (TFloat 4)), (VSeq [VF 4 0x7FC00000; VF 4 0]), (VSeq [VF 4 0; VF 4 0]).
  split; [split; [reflexivity|repeat constructor; discriminate]|].
  split; [split; [reflexivity|repeat constructor; discriminate]|]. vm_compute. auto.
Qed.
Print Assumptions C96_total_refuted.

(** Arrays of bytes are compared as the numbers they denote, most significant byte
    first, whatever the byte order of the message. *)
Theorem C96_bytes : forall v lit, Forall byte_ok v -> Forall byte_ok lit -> length v = length lit ->
  (arr_cmp ALt (VSeq (map VZ lit)) (VSeq (map VZ v)) = true <-> number Big v < number Big lit) /\
  (arr_cmp AGt (VSeq (map VZ lit)) (VSeq (map VZ v)) = true <-> number Big v > number Big lit) /\
  (arr_cmp ALte (VSeq (map VZ lit)) (VSeq (map VZ v)) = true <-> number Big v <= number Big lit).
Proof. exact arr_bytes. Qed.
Print Assumptions C96_bytes.

Theorem C96_any : forall lits v,
  arr_any lits v = true <-> exists lit, In lit lits /\ equal_values v lit.
Proof. exact arr_any_spec. Qed.
Print Assumptions C96_any.

(** An array read under such a constraint is on the right side of the literal. *)
Theorem C96_read : forall c fs bs vs rest pre id n t m op lit v, wf fs = true -> Forall byte_ok bs ->
  rmem (struct_cast c fs) bs = (Ok vs, rest) ->
  field_at fs vs pre id (FFixed (TArr n t) m) (CFun (arr_cmp op lit)) v -> ct_ok (TArr n t) lit ->
  match op with
  | ALt => before v lit
  | AGt => before lit v
  | ALte => before v lit \/ same_numbers v lit
  end.
Proof. exact read_arr. Qed.
Print Assumptions C96_read.

(** lt{std::array<u8, 2>{1, 5}}; nested; and signed bytes, which are not compared as the
    bytes on the wire. *)
Definition versioned (k : constr) : fields := FCons "v" (FFixed (TArr 2 (TScalar u8)) 2) k FNil.
Definition under : constr := CFun (arr_cmp ALt (VSeq [VZ 1; VZ 5])).

Example C96_case :
  wf (versioned under) = true /\
  rmem (struct_cast le64 (versioned under)) [1; 4; 9] = (Ok [VSeq [VZ 1; VZ 4]], [9]) /\
  fst (rmem (struct_cast le64 (versioned under)) [1; 5]) = Err (ValidationFailure, "v") /\
  rmem (struct_cast le64 (versioned under)) [0; 200] = (Ok [VSeq [VZ 0; VZ 200]], []) /\
  wmem (stream_cast le64 (versioned under) [VSeq [VZ 2; VZ 0]]) = (Err (ValidationFailure, "v"), []) /\
  arr_cmp AGt (VSeq [VSeq [VZ 1; VZ 2]; VSeq [VZ 3; VZ 4]]) (VSeq [VSeq [VZ 1; VZ 2]; VSeq [VZ 4; VZ 0]]) = true /\
  arr_cmp ALt (VSeq [VZ 0]) (VSeq [VZ (-1)]) = true /\
  arr_any [VSeq [VZ 7]; VSeq [VZ 8]] (VSeq [VZ 8]) = true.
Proof. vm_compute. repeat split. Qed.
