(** * The reader statement by statement

    [Read.v] says what a cast does as a program that stops at the first error.  This file
    follows the text of include/cast and include/field_read instead: objects with bytes in
    them that are filled and swapped in place, results of type [std::expected] that are
    handed along a pipeline, counted loops that store into elements, a struct whose
    members are assigned one after the other.  C104 relates the two. *)
From Verif Require Export Read.
Local Open Scope Z_scope.

(** What a statement does when it does not return: undefined behaviour, does not compile,
    or an exception.
    In the code: for include/field_read/field_reader.hpp:20-316. *)
Inductive done (A : Type) := Did (a : A) | DoesUB | DoesNotCompile | Throws.
Arguments Did {A}. Arguments DoesUB {A}. Arguments DoesNotCompile {A}. Arguments Throws {A}.

(** [l\[i\] = a].
    In the code: used for include/field_read/field_reader.hpp:110. *)
Fixpoint set_nth {A} (i : nat) (a : A) (l : list A) : list A :=
  match i, l with
  | _, [] => []
  | O, _ :: l' => a :: l'
  | S i', x :: l' => x :: set_nth i' a l'
  end.

(** ** Objects in memory *)

(** include/stream/byte_order.hpp:14-25 [byteswap_elements]: nothing for a
    [fixed_string]; aggregates nest. *)
Fixpoint byteswap_elements (t : ctype) (mem : list Z) : list Z :=
  match t with
  | TArr n t' =>
      concat (map (fun elem =>
                     match t' with
                     | TScalar _ | TFloat _ => if Nat.ltb 1 (csize t') then rev elem else elem
                     | _ => byteswap_elements t' elem
                     end) (chunks (csize t') n mem))
  | _ => mem
  end.

(** What is done to an object in foreign order: include/field_read/read_impl.hpp:96-105
    [read_foreign_scalar], 107-120 [read_foreign_buffer].  [std::byteswap] reverses the
    bytes of the object. *)
Definition swapped (t : ctype) (mem : list Z) : list Z :=
  match t with
  | TScalar _ | TFloat _ => rev mem
  | _ => byteswap_elements t mem
  end.

(** The value of an object, on a machine with byte order [h]; [None]: not a value.
    In the code: include/field_read/read_impl.hpp:36-66. *)
Fixpoint object (h : endian) (t : ctype) (mem : list Z) : option val :=
  match t with
  | TScalar s =>
      match sc_of_bits s (mem_dec h mem) with Some z => Some (VZ z) | None => None end
  | TArr n t' =>
      match sequence (map (object h t') (chunks (csize t') n mem)) with
      | Some vs => Some (VSeq vs)
      | None => None
      end
  | TFixStr _ => Some (VSeq (map VZ mem))
  | TFloat w => Some (VF w (mem_dec h mem))
  end.

(** The other byte order.
    In the code: include/stream/byte_order.hpp:38-39. *)
Definition other (h : endian) : endian := match h with Little => Big | Big => Little end.

(** The first bytes of an object are overwritten.
    In the code: include/field_read/read_impl.hpp:36-66. *)
Definition poke (mem bs : list Z) : list Z := bs ++ skipn (length bs) mem.

(** read_impl.hpp:122-141 after the bytes have arrived. *)
Definition arrived (c : cfg) (t : ctype) (mem : list Z) : option val :=
  object (c_host c) t (if is_host_order c then mem else swapped t mem).

(** ** Statements *)

(** A statement changes the stream, which is in a state of [St], leaves a trace of what the
    environment saw, and returns or does not.
    In the code: for include/field_read/field_reader.hpp:20-316. *)
Definition act (St Ev A : Type) := St -> done A * St * list Ev.

Section Statements.
Context {St Ev : Type}.

(** A [return] (for include/field_read/field_reader.hpp:20-316). *)
Definition aret {A} (a : A) : act St Ev A := fun s => (Did a, s, []).
(** No return (for include/field_read/field_reader.hpp:20-316). *)
Definition astop {A} (d : done A) : act St Ev A := fun s => (d, s, []).
(** [;] (for include/field_read/field_reader.hpp:20-316). *)
Definition abind {A B} (a : act St Ev A) (f : A -> act St Ev B) : act St Ev B := fun s =>
  match a s with
  | (Did x, s1, ev1) => match f x s1 with (d, s2, ev2) => (d, s2, ev1 ++ ev2) end
  | (DoesUB, s1, ev1) => (DoesUB, s1, ev1)
  | (DoesNotCompile, s1, ev1) => (DoesNotCompile, s1, ev1)
  | (Throws, s1, ev1) => (Throws, s1, ev1)
  end.

(** [rw_result], [cast_result] (include/error/cast_error.hpp:32-33): [None] has a value,
    [Some e] is [std::unexpected(e)].  The second component is what the lambda captures by
    reference. *)
Definition result (E X : Type) := (option E * X)%type.

(** cast_error.hpp:39-47 [operator|]. *)
Definition pipe {E X} (res : result E X) (callable : X -> act St Ev (result E X)) : act St Ev (result E X) :=
  match res with
  | (None, x) => callable x
  | (Some e, x) => aret (Some e, x)
  end.

(** [for(count = 0; count < n; ++count)] with a [return] on error.
    In the code: include/field_read/field_reader.hpp:93-114. *)
Fixpoint for_loop {E X} (n count : nat) (body : nat -> X -> act St Ev (result E X)) (x : X)
  : act St Ev (result E X) :=
  match n with
  | O => aret (None, x)
  | Datatypes.S n' =>
      abind (body count x) (fun r =>
        match r with
        | (Some e, x') => aret (Some e, x')
        | (None, x') => for_loop n' (Datatypes.S count) body x'
        end)
  end.

(** [bool ok = T::constraint_checker(value)].
    In the code: include/cast/struct_cast_impl.hpp:38-44. *)
Definition checked {A} (k : constr) (v : val) (f : bool -> act St Ev A) : act St Ev A :=
  match check k v with
  | CTrue => f true
  | CFalse => f false
  | CUndef => astop DoesUB
  | CStuck => astop DoesNotCompile
  end.

End Statements.

Section Machine.
Variable S : istream.
Variable alloc : Z -> bool.

(** [s.read(p, n)] and what the stream then converts to: [None] is false.
    In the code: include/field_read/read_impl.hpp:36-66. *)
Definition aread (n : Z) : act (i_st S) event (option (list Z)) := fun s =>
  match i_read S s n with (r, s') => (Did r, s', [EvRead n r]) end.

(** [resize] to [n] bytes.
    In the code: include/field_read/read_impl.hpp:81. *)
Definition aalloc (n : Z) : act (i_st S) event unit := fun s =>
  if alloc n then (Did tt, s, [EvAlloc n]) else (Throws, s, [EvAlloc n]).

Variable c : cfg.

(** The object is used (for include/field_read/field_reader.hpp:20-316); [DoesUB]: its memory is not a value. *)
Definition as_object {E} (t : ctype) (mem : list Z) : act (i_st S) event (result E val) :=
  match arrived c t mem with
  | Some v => aret (None, v)
  | None => astop DoesUB
  end.

(** read_impl.hpp:36-66 [read_native_impl] on an object with bytes [mem]. *)
Definition read_native_impl (mem : list Z) (size_to_read : Z) : act (i_st S) event (result reason (list Z)) :=
  abind (aread size_to_read) (fun r =>
    match r with
    | None => aret (Some BufferExhaustion, mem)
    | Some bs => aret (None, poke mem bs)
    end).

(** include/field_read/field_reader.hpp:21-35.  [cur]: the slot of the field. *)
Definition l_fixed (t : ctype) (n : nat) (cur : val) : act (i_st S) event (result reason val) :=
  if Nat.ltb (csize t) n then astop DoesUB
  else abind (read_native_impl (repeat 0 (csize t)) (Z.of_nat n)) (fun r =>
         match r with
         | (Some e, _) => aret (Some e, cur)
         | (None, mem) => as_object t mem
         end).

(** read_impl.hpp:68-94 [read_native] for containers: the elements after [resize]. *)
Definition l_container (esz : nat) (len : Z) : act (i_st S) event (result reason (list (list Z))) :=
  let elems := repeat (repeat 0 esz) (Z.to_nat len) in
  if c_cx c then
    for_loop (Z.to_nat len) 0 (fun i obj =>
      abind (read_native_impl (nth i obj []) (Z.of_nat esz)) (fun r =>
        match r with
        | (Some e, _) => aret (Some e, obj)
        | (None, mem) => aret (None, set_nth i mem obj)
        end)) elems
  else
    abind (read_native_impl (concat elems) (to_size c (len * Z.of_nat esz))) (fun r =>
      match r with
      | (Some e, _) => aret (Some e, elems)
      | (None, mem) => aret (None, chunks esz (Z.to_nat len) mem)
      end).

(** field_reader.hpp:38-52 with read_impl.hpp:29-34,68-94,107-120. *)
Definition l_var (elt : ctype) (len : Z) (b : option Z) (cur : val) : act (i_st S) event (result reason val) :=
  let esz := Z.of_nat (csize elt) in
  if ceiling c b / esz <? len then aret (Some ExcessiveLength, cur)
  else abind (aalloc (len * esz)) (fun _ =>
         abind (l_container (csize elt) len) (fun r =>
           match r with
           | (Some e, _) => aret (Some e, cur)
           | (None, obj) =>
               let obj' := if is_host_order c then obj else
                             map (fun elem => match elt with
                                              | TScalar _ | TFloat _ =>
                                                  if Nat.ltb 1 (csize elt) then rev elem else elem
                                              | _ => byteswap_elements elt elem
                                              end) obj in
               match sequence (map (object (c_host c) elt) obj') with
               | Some vs => aret (None, VSeq vs)
               | None => astop DoesUB
               end
           end)).

(** field_reader.hpp:93-112 [read_buffer_of_records::read]: [elem] is what reading one
    record does, [value] the container. *)
Definition read_buffer_of_records (elem : act (i_st S) event (result reason val)) (n : nat) (value : list val)
  : act (i_st S) event (result reason (list val)) :=
  for_loop n 0 (fun count value =>
    abind elem (fun r =>
      match r with
      | (Some e, _) => aret (Some e, value)
      | (None, v) => aret (None, set_nth count v value)
      end)) value.

(** [read_field<T, F>::read] (field_reader.hpp), [struct_cast_impl::operator()]
    (include/cast/struct_cast_impl.hpp:21-50) and [read_variant_helper::read]
    (field_reader.hpp:222-280).  [cur]: the slot of the field; the result carries what is
    in the slot afterwards.
    - [l_fold all fs i st]: the pipeline of struct_cast_impl.hpp:24-48 from member [i] on,
      [fs] being the members from there and [all] the whole list; [st] is the result so
      far and the struct.  Every member has its turn; after an error it is passed over.
    - [l_alts idx_r al idx st]: the pipeline over the alternatives (field_reader.hpp:268-279,
      231-258). *)
Fixpoint l_ty (e : env) (t : fty) (cur : val) {struct t} : act (i_st S) event (result reason val) :=
  match t with
  | FFixed t' n => l_fixed t' n cur
  | FVar elt l b =>
      match deduce_len c e l with
      | Some len => l_var elt len b cur
      | None => astop DoesNotCompile
      end
  | FStruct fs =>
      abind (l_fold fs fs 0 (None, default_fields fs)) (fun res =>
        match res with
        | (Some err, _) => aret (Some (fst err), cur)
        | (None, field_list) => aret (None, VRec field_list)
        end)
  | FArrRec n fs =>
      let elem := abind (l_fold fs fs 0 (None, default_fields fs)) (fun res =>
                    match res with
                    | (Some err, _) => aret (Some (fst err), VRec (default_fields fs))
                    | (None, field_list) => aret (None, VRec field_list)
                    end) in
      abind (read_buffer_of_records elem n (repeat (VRec (default_fields fs)) n)) (fun r =>
        match r with (res, value) => aret (res, VSeq value) end)
  | FVecRec fs recsz l b =>
      match deduce_len c e l with
      | Some len =>
          if ceiling c b / recsz <? len then aret (Some ExcessiveLength, cur)
          else
            let elem := abind (l_fold fs fs 0 (None, default_fields fs)) (fun res =>
                          match res with
                          | (Some err, _) => aret (Some (fst err), VRec (default_fields fs))
                          | (None, field_list) => aret (None, VRec field_list)
                          end) in
            abind (aalloc (len * recsz)) (fun _ =>
              abind (read_buffer_of_records elem (Z.to_nat len)
                       (repeat (VRec (default_fields fs)) (Z.to_nat len))) (fun r =>
                match r with (res, value) => aret (res, VSeq value) end))
      | None => astop DoesNotCompile
      end
  | FMaybe b p ids =>
      match lookups e ids with
      | Some vs =>
          if negb (p vs) then aret (None, VNone)
          else abind (l_ty e b (default_ty b)) (fun r =>
                 match r with
                 | (Some err, _) => aret (Some err, cur)
                 | (None, v) => aret (None, VSome v)
                 end)
      | None => astop DoesNotCompile
      end
  | FUnion g al =>
      match deduce_type e g with
      | Some None => aret (Some TypeDeductionFailure, cur)
      | Some (Some idx_r) => l_alts e idx_r al 0 (None, cur)
      | None => astop DoesNotCompile
      end
  end
with l_fold (all fs : fields) (i : nat) (st : result (reason * ident) (list val)) {struct fs}
  : act (i_st S) event (result (reason * ident) (list val)) :=
  match fs with
  | FNil => aret st
  | FCons id t k fs' =>
      abind (pipe st (fun field_list =>
               abind (l_ty (mk_env all field_list) t (nth i field_list VNone)) (fun read_res =>
                 match read_res with
                 | (Some err, v) => aret (Some (err, id), set_nth i v field_list)
                 | (None, v) =>
                     checked k v (fun ok =>
                       if negb ok then aret (Some (ValidationFailure, id), set_nth i v field_list)
                       else aret (None, set_nth i v field_list))
                 end)))
            (fun st' => l_fold all fs' (Datatypes.S i) st')
  end
with l_alts (e : env) (idx_r : nat) (al : alts) (idx : nat) (st : result reason val) {struct al}
  : act (i_st S) event (result reason val) :=
  match al with
  | ANil => aret st
  | ACons t k al' =>
      abind (pipe st (fun variant =>
               if negb (Nat.eqb idx_r idx) then aret (None, variant)
               else abind (l_ty e t (default_ty t)) (fun r =>
                      match r with
                      | (Some err, _) => aret (Some err, variant)
                      | (None, v) =>
                          checked k v (fun ok =>
                            if negb ok then aret (Some ValidationFailure, variant)
                            else aret (None, VAlt idx v))
                      end)))
            (fun st' => l_alts e idx_r al' (Datatypes.S idx) st')
  end.

(** struct_cast_impl.hpp:21-50; include/api/struct_cast.hpp:14-23. *)
Definition l_cast (fs : fields) (s : i_st S)
  : outcome (reason * ident) (list val) * i_st S * list event :=
  match l_fold fs fs 0 (None, default_fields fs) s with
  | (Did (None, field_list), s', ev) => (Ok field_list, s', ev)
  | (Did (Some err, _), s', ev) => (Err err, s', ev)
  | (DoesUB, s', ev) => (UB, s', ev)
  | (DoesNotCompile, s', ev) => (Stuck, s', ev)
  | (Throws, s', ev) => (Throw, s', ev)
  end.
End Machine.
