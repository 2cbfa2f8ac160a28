(** * The writer statement by statement

    As [Pipeline.v], for include/field_write and include/cast/stream_cast_impl.hpp: objects
    with bytes in them, loops with a [return] on error, pipelines in which every member and
    every alternative has its turn.  C105 relates it to [Write.v]; what is derived, frozen
    and verified is taken from there. *)
From Verif Require Export Write Pipeline.
Local Open Scope Z_scope.

Section Machine.
Variable S : ostream.

Definition wact (A : Type) := act (o_st S) (list Z * bool) A.

(** [rw_result]; there is nothing a lambda changes but the stream.
    In the code: include/error/cast_error.hpp. *)
Definition wresult (E : Type) := result E unit.
(** include/error/cast_error.hpp, no error. *)
Definition res_ok {E} : wresult E := (None, tt).
(** include/error/cast_error.hpp, [std::unexpected]. *)
Definition res_err {E} (e : E) : wresult E := (Some e, tt).

(** include/field_write/write_impl.hpp:14-30 [write_native_impl] on an object with bytes
    [mem]; more than it has reads past its end. *)
Definition write_native_impl (mem : list Z) (size_to_write : nat) : wact (wresult reason) :=
  if Nat.ltb (length mem) size_to_write then astop DoesUB
  else fun s =>
    match o_write S s (firstn size_to_write mem) with
    | (true, s') => (Did res_ok, s', [(firstn size_to_write mem, true)])
    | (false, s') => (Did (res_err BufferExhaustion), s', [(firstn size_to_write mem, false)])
    end.

(** [for(const auto& elem: obj)] with a [return] on error.
    In the code: include/field_write/field_writer.hpp:20-285. *)
Fixpoint for_each {E A} (l : list A) (body : A -> wact (wresult E)) : wact (wresult E) :=
  match l with
  | [] => aret res_ok
  | a :: l' =>
      abind (body a) (fun r =>
        match r with
        | (Some e, _) => aret (res_err e)
        | (None, _) => for_each l' body
        end)
  end.

Variable c : cfg.

(** The bytes of an object of the caller (include/lib/memory/address_manip.hpp:37-68). *)
Definition with_bytes {A} (t : ctype) (v : val) (f : list Z -> wact A) : wact A :=
  match store (c_host c) t v with
  | Some mem => f mem
  | None => astop DoesNotCompile
  end.

(** write_impl.hpp:53-59 [write_foreign_scalar]: [std::byteswap] into a temporary. *)
Definition write_foreign_scalar (t : ctype) (v : val) (n : nat) : wact (wresult reason) :=
  with_bytes t v (fun mem => write_native_impl (rev mem) n).

(** write_impl.hpp:65-85: what is done for one element of a buffer. *)
Fixpoint write_foreign_elem (t : ctype) (v : val) : wact (wresult reason) :=
  match t with
  | TArr _ t' =>
      match v with
      | VSeq l => for_each l (write_foreign_elem t')
      | _ => astop DoesNotCompile
      end
  | TFixStr _ => with_bytes t v (fun mem => write_native_impl mem (csize t))
  | _ =>
      if Nat.ltb 1 (csize t) then write_foreign_scalar t v (csize t)
      else with_bytes t v (fun mem => write_native_impl mem (csize t))
  end.

(** write_impl.hpp:32-35,65-99 [write_impl] on an object of constant size. *)
Definition w_const (t : ctype) (n : nat) (v : val) : wact (wresult reason) :=
  if is_host_order c then with_bytes t v (fun mem => write_native_impl mem n)
  else match t with
       | TScalar _ | TFloat _ => write_foreign_scalar t v n
       | TFixStr _ => with_bytes t v (fun mem => write_native_impl mem n)
       | TArr _ _ => write_foreign_elem t v
       end.

(** write_impl.hpp:37-51,65-99 on a container. *)
Definition w_var (elt : ctype) (l : list val) : wact (wresult reason) :=
  if is_host_order c then
    if c_cx c then
      for_each l (fun v => with_bytes elt v (fun mem => write_native_impl mem (csize elt)))
    else
      match sequence (map (store (c_host c) elt) l) with
      | Some bss => write_native_impl (concat bss) (length l * csize elt)
      | None => astop DoesNotCompile
      end
  else for_each l (write_foreign_elem elt).

(** include/field_write/field_writer.hpp:62-72. *)
Definition w_verify (fs : fields) (vs : list val) (id : ident) (t : ctype) (n : nat) (v : val)
  : wact (wresult reason) :=
  abind (if has_cond_obligation fs id then
           match v with
           | VZ z =>
               match verify_cond (mk_env fs vs) id (to_size c z) fs vs with
               | Some true => aret res_ok
               | Some false => aret (res_err FoundContradictingLength)
               | None => astop DoesNotCompile
               end
           | _ => astop DoesNotCompile
           end
         else aret res_ok)
        (fun res => match res with
                    | (Some e, _) => aret (res_err e)
                    | (None, _) => w_const t n v
                    end).

(** field_writer.hpp:23-56. *)
Definition w_fixed (fs : fields) (vs : list val) (id : ident) (mem : bool) (k : constr)
  (t : ctype) (n : nat) (v : val) : wact (wresult reason) :=
  if is_derived fs id then
    match derive_value c fs vs id t n with
    | DErr r => aret (res_err r)
    | DOk derived =>
        checked k derived (fun ok =>
          if negb ok then aret (res_err ValidationFailure)
          else w_verify fs vs id t n derived)
    | DStuck => astop DoesNotCompile
    end
  else if mem then
    match frozen_value (FFixed t n) k with
    | Some z => w_verify fs vs id t n z
    | None => w_verify fs vs id t n v
    end
  else w_verify fs vs id t n v.

(** field_writer.hpp:86-92,167-170. *)
Definition w_len (e : env) (l : lenspec) (size : Z) (f : wact (wresult reason))
  : wact (wresult reason) :=
  match l with
  | LenField _ => f
  | LenComp _ _ =>
      match deduce_len c e l with
      | Some n => if negb (n =? size) then aret (res_err FoundContradictingLength) else f
      | None => astop DoesNotCompile
      end
  end.

(** [write_field<T, F>::write] (field_writer.hpp), [stream_cast_impl]
    (include/cast/stream_cast_impl.hpp:20-49), [write_variant_helper] (field_writer.hpp:211-251).
    - [w_fold fs vs gs ws st]: the pipeline of stream_cast_impl.hpp:22-48 over the members
      [gs] with values [ws], [st] being the result so far
    - [w_alts idx i al v st]: the pipeline of field_writer.hpp:241-249 over the alternatives
      from [idx] on, [i] being [variant.index()]. *)
Fixpoint w_ty (fs : fields) (vs : list val) (id : ident) (mem : bool) (k : constr) (t : fty)
  (v : val) {struct t} : wact (wresult reason) :=
  match t with
  | FFixed t' n => w_fixed fs vs id mem k t' n v
  | FVar elt l _ =>
      match v with
      | VSeq xs => w_len (mk_env fs vs) l (Z.of_nat (length xs)) (w_var elt xs)
      | _ => astop DoesNotCompile
      end
  | FStruct gs =>
      match v with
      | VRec ws =>
          abind (w_fold gs ws gs ws res_ok) (fun res =>
            match res with
            | (Some err, _) => aret (res_err (fst err))
            | (None, _) => aret res_ok
            end)
      | _ => astop DoesNotCompile
      end
  | FArrRec n gs =>
      match v with
      | VSeq xs =>
          for_loop n 0 (fun count _ =>
            match nth count xs VNone with
            | VRec ws =>
                abind (w_fold gs ws gs ws res_ok) (fun res =>
                  match res with
                  | (Some err, _) => aret (res_err (fst err))
                  | (None, _) => aret res_ok
                  end)
            | _ => astop DoesNotCompile
            end) tt
      | _ => astop DoesNotCompile
      end
  | FVecRec gs _ l _ =>
      match v with
      | VSeq xs =>
          w_len (mk_env fs vs) l (Z.of_nat (length xs))
            (for_each xs (fun record =>
               match record with
               | VRec ws =>
                   abind (w_fold gs ws gs ws res_ok) (fun res =>
                     match res with
                     | (Some err, _) => aret (res_err (fst err))
                     | (None, _) => aret res_ok
                     end)
               | _ => astop DoesNotCompile
               end))
      | _ => astop DoesNotCompile
      end
  | FMaybe b p ids =>
      match lookups (mk_env fs vs) ids with
      | Some args =>
          let should_be_present := p args in
          let has_value := match v with VSome _ => true | _ => false end in
          if negb (Bool.eqb should_be_present has_value) then aret (res_err ValidationFailure)
          else if negb should_be_present then aret res_ok
          else match v with
               | VSome v' => w_ty fs vs id false CNone b v'
               | _ => astop DoesNotCompile
               end
      | None => astop DoesNotCompile
      end
  | FUnion g al =>
      match v with
      | VAlt i v' =>
          match g with
          | GField _ _ _ => w_alts fs vs id i v' al 0 res_ok
          | _ =>
              match deduce_type (mk_env fs vs) g with
              | Some None => aret (res_err TypeDeductionFailure)
              | Some (Some j) =>
                  if negb (Nat.eqb j i) then aret (res_err ValidationFailure)
                  else w_alts fs vs id i v' al 0 res_ok
              | None => astop DoesNotCompile
              end
          end
      | _ => astop DoesNotCompile
      end
  end
with w_fold (fs : fields) (vs : list val) (gs : fields) (ws : list val)
  (st : wresult (reason * ident)) {struct gs} : wact (wresult (reason * ident)) :=
  match gs, ws with
  | FNil, [] => aret st
  | FCons id t k gs', w :: ws' =>
      abind (pipe st (fun _ =>
               abind (if is_derived fs id || is_frozen t k then aret true
                      else checked k w (fun ok => aret ok)) (fun ok =>
                 if negb ok then aret (res_err (ValidationFailure, id))
                 else abind (w_ty fs vs id true k t w) (fun write_res =>
                        match write_res with
                        | (Some err, _) => aret (res_err (err, id))
                        | (None, _) => aret res_ok
                        end))))
            (fun st' => w_fold fs vs gs' ws' st')
  | _, _ => astop DoesNotCompile
  end
with w_alts (fs : fields) (vs : list val) (id : ident) (i : nat) (v : val) (al : alts)
  (idx : nat) (st : wresult reason) {struct al} : wact (wresult reason) :=
  match al with
  | ANil => aret st
  | ACons t k al' =>
      abind (pipe st (fun _ =>
               if negb (Nat.eqb i idx) then aret res_ok
               else checked k v (fun ok =>
                      if negb ok then aret (res_err ValidationFailure)
                      else w_ty fs vs id false k t v)))
            (fun st' => w_alts fs vs id i v al' (Datatypes.S idx) st')
  end.

(** include/api/stream_cast.hpp:11-20. *)
Definition w_cast (fs : fields) (vs : list val) (s : o_st S)
  : outcome (reason * ident) unit * o_st S * list (list Z * bool) :=
  match w_fold fs vs fs vs res_ok s with
  | (Did (None, _), s', ev) => (Ok tt, s', ev)
  | (Did (Some err, _), s', ev) => (Err err, s', ev)
  | (DoesUB, s', ev) => (UB, s', ev)
  | (DoesNotCompile, s', ev) => (Stuck, s', ev)
  | (Throws, s', ev) => (Throw, s', ev)
  end.
End Machine.
