(** * Kinds of fields that can be replaced by simpler ones: what the statements of
    PropsDegen.v say

    Independent of the reader and the writer. *)
From Verif Require Export Spec Prog.

(** The value at position [n] replaced. *)
Fixpoint at_pos (n : nat) (f : val -> val) (vs : list val) : list val :=
  match vs, n with
  | [], _ => []
  | v :: vs', O => f v :: vs'
  | v :: vs', S n' => v :: at_pos n' f vs'
  end.

(** A value put in at position [n]. *)
Definition put_in (n : nat) (v : val) (vs : list val) : list val := firstn n vs ++ v :: skipn n vs.

Definition on_ok {E A B} (g : A -> B) (o : outcome E A) : outcome E B :=
  match o with
  | Ok a => Ok (g a)
  | Err e => Err e
  | UB => UB
  | Stuck => Stuck
  | Throw => Throw
  end.

Definition the_reads (ev : list event) : list event :=
  filter (fun e => match e with EvRead _ _ => true | EvAlloc _ => false end) ev.

(** A computed switch as a ladder of comparisons. *)
Definition as_ladder (f : list val -> Z) (r : sty) (ids : list ident) (cases : list (sty * Z))
  : list ((list val -> bool) * list ident) :=
  map (fun m => (fun vs => cxx_eq r (conv r (f vs)) (fst m) (snd m), ids)) cases.

(** The first field is another way to write the second.  The function makes a value
    of the first out of one of the second. *)
Inductive trivial (c : cfg) : fty -> constr -> (val -> val) -> fty -> constr -> Prop :=
| tv_maybe b p ids : (forall vs, p vs = true) ->
    trivial c (FMaybe b p ids) CNone VSome b CNone
| tv_ladder p ids brs t k al : (forall vs, p vs = true) ->
    trivial c (FUnion (GLadder ((p, ids) :: brs)) (ACons t k al)) CNone (VAlt 0) t k
| tv_switch f r ids s z cases t k al : (forall vs, cxx_eq r (conv r (f vs)) s z = true) ->
    trivial c (FUnion (GComp f r ids ((s, z) :: cases)) (ACons t k al)) CNone (VAlt 0) t k
| tv_as_ladder f r ids cases al :
    trivial c (FUnion (GComp f r ids cases) al) CNone (fun v => v) (FUnion (GLadder (as_ladder f r ids cases)) al) CNone
| tv_single gs : trivial c (FArrRec 1 gs) CNone (fun v => VSeq [v]) (FStruct gs) CNone.

(** A container whose length is always the same is an array.  Its ceiling admits it. *)
Inductive constant_length (c : cfg) (n : nat) : fty -> fty -> Z -> Prop :=
| cl_numbers elt f ids b : (forall vs, f vs = Z.of_nat n) ->
    Z.of_nat n < 256 ^ Z.of_nat (c_szw c) -> within c b (Z.of_nat (csize elt)) n ->
    constant_length c n (FVar elt (LenComp f ids) b) (FFixed (TArr n elt) (n * csize elt))
      (Z.of_nat n * Z.of_nat (csize elt))
| cl_records gs sz f ids b : (forall vs, f vs = Z.of_nat n) ->
    Z.of_nat n < 256 ^ Z.of_nat (c_szw c) -> within c b sz n ->
    constant_length c n (FVecRec gs sz (LenComp f ids) b) (FArrRec n gs) (Z.of_nat n * sz).
