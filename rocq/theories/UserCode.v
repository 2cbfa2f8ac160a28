(** * The casts with the user's code as part of the environment

    Read.v and Write.v take the callables and the constraints a user writes for
    functions.  Here calling one is a request to the environment like a read: it may
    answer anything, change state, or throw.  So may the stream and the allocator. *)
From Verif Require Export Write.

(** [UNum], [UTest]: [callable(values...)] of a [compute_t] that returns a number or a
    [bool] (include/field_compute/computation_from_fields_impl.hpp:52-63).
    [UCheck]: [constraint_checker(value)] of a user-written constraint. *)
Inductive uprog (E A : Type) : Type :=
| URet (a : A)
| UErr (e : E)
| UUB
| UStuck
| URead (n : Z) (e : E) (k : list Z -> uprog E A)
| UAlloc (n : Z) (k : uprog E A)
| UWrite (bs : list Z) (e : E) (k : uprog E A)
| UNum (f : list val -> Z) (args : list val) (k : Z -> uprog E A)
| UTest (p : list val -> bool) (args : list val) (k : bool -> uprog E A)
| UCheck (p : val -> bool) (v : val) (k : bool -> uprog E A).
Arguments URet {E A}. Arguments UErr {E A}. Arguments UUB {E A}. Arguments UStuck {E A}.
Arguments URead {E A}. Arguments UAlloc {E A}. Arguments UWrite {E A}.
Arguments UNum {E A}. Arguments UTest {E A}. Arguments UCheck {E A}.

(** Sequencing (include/error/cast_error.hpp:39-47). *)
Fixpoint ubind {E A B} (p : uprog E A) (f : A -> uprog E B) : uprog E B :=
  match p with
  | URet a => f a
  | UErr e => UErr e
  | UUB => UUB
  | UStuck => UStuck
  | URead n e k => URead n e (fun bs => ubind (k bs) f)
  | UAlloc n k => UAlloc n (ubind k f)
  | UWrite bs e k => UWrite bs e (ubind k f)
  | UNum g args k => UNum g args (fun z => ubind (k z) f)
  | UTest g args k => UTest g args (fun b => ubind (k b) f)
  | UCheck g v k => UCheck g v (fun b => ubind (k b) f)
  end.

(** include/cast/struct_cast_impl.hpp:16-51, stream_cast_impl.hpp:16-50. *)
Fixpoint umaperr {E E' A} (g : E -> E') (p : uprog E A) : uprog E' A :=
  match p with
  | URet a => URet a
  | UErr e => UErr (g e)
  | UUB => UUB
  | UStuck => UStuck
  | URead n e k => URead n (g e) (fun bs => umaperr g (k bs))
  | UAlloc n k => UAlloc n (umaperr g k)
  | UWrite bs e k => UWrite bs (g e) (umaperr g k)
  | UNum f args k => UNum f args (fun z => umaperr g (k z))
  | UTest f args k => UTest f args (fun b => umaperr g (k b))
  | UCheck f v k => UCheck f v (fun b => umaperr g (k b))
  end.

(** include/field_read/field_reader.hpp:93-114. *)
Fixpoint urep {E A} (n : nat) (p : uprog E A) : uprog E (list A) :=
  match n with
  | O => URet []
  | S n' => ubind p (fun a => ubind (urep n' p) (fun l => URet (a :: l)))
  end.

(** include/field_write/field_writer.hpp:20-285. *)
Fixpoint ufor {E A} (l : list A) (f : A -> uprog E unit) : uprog E unit :=
  match l with
  | [] => URet tt
  | a :: l' => ubind (f a) (fun _ => ufor l' f)
  end.

(** Steps without user code.
    In the code: as in Read.v, include/field_read/field_reader.hpp:20-316. *)
Fixpoint of_r {E A} (p : rprog E A) : uprog E A :=
  match p with
  | RRet a => URet a
  | RErr e => UErr e
  | RUB => UUB
  | RStuck => UStuck
  | RRead n e k => URead n e (fun bs => of_r (k bs))
  | RAlloc n k => UAlloc n (of_r k)
  end.

(** As in Write.v (include/field_write/field_writer.hpp:20-285). *)
Fixpoint of_w {E A} (p : wprog E A) : uprog E A :=
  match p with
  | WRet a => URet a
  | WErr e => UErr e
  | WUB => UUB
  | WStuck => UStuck
  | WWrite bs e k => UWrite bs e (of_w k)
  end.

(** ** The environment
    One state for everything; [None]: an exception.
    In the code: include/stream/stream_traits.hpp:11-64 and the callables of docs/schema/computed-values.md. *)
Record host := mkH {
  h_st : Type;
  h_read : h_st -> Z -> option (option (list Z)) * h_st;
  h_write : h_st -> list Z -> option bool * h_st;
  h_alloc : h_st -> Z -> option unit * h_st;
  h_num : h_st -> (list val -> Z) -> list val -> option Z * h_st;
  h_test : h_st -> (list val -> bool) -> list val -> option bool * h_st;
  h_check : h_st -> (val -> bool) -> val -> option bool * h_st
}.

(** What the environment sees of include/api/struct_cast.hpp and stream_cast.hpp. *)
Inductive uevent :=
| OnRead (n : Z) (r : option (option (list Z)))
| OnWrite (bs : list Z) (r : option bool)
| OnAlloc (n : Z) (r : option unit)
| OnNum (f : list val -> Z) (args : list val) (r : option Z)
| OnTest (p : list val -> bool) (args : list val) (r : option bool)
| OnCheck (p : val -> bool) (v : val) (r : option bool).

(** include/api/struct_cast.hpp, stream_cast.hpp. *)
Fixpoint urun (H : host) {E A} (p : uprog E A) (s : h_st H)
  : outcome E A * h_st H * list uevent :=
  let then_ (ev : uevent) (r : outcome E A * h_st H * list uevent) :=
    let '(o, s', evs) := r in (o, s', ev :: evs) in
  match p with
  | URet a => (Ok a, s, [])
  | UErr e => (Err e, s, [])
  | UUB => (UB, s, [])
  | UStuck => (Stuck, s, [])
  | URead n e k =>
      let '(r, s') := h_read H s n in
      match r with
      | Some (Some bs) => then_ (OnRead n r) (urun H (k bs) s')
      | Some None => (Err e, s', [OnRead n r])
      | None => (Throw, s', [OnRead n r])
      end
  | UAlloc n k =>
      let '(r, s') := h_alloc H s n in
      match r with
      | Some _ => then_ (OnAlloc n r) (urun H k s')
      | None => (Throw, s', [OnAlloc n r])
      end
  | UWrite bs e k =>
      let '(r, s') := h_write H s bs in
      match r with
      | Some true => then_ (OnWrite bs r) (urun H k s')
      | Some false => (Err e, s', [OnWrite bs r])
      | None => (Throw, s', [OnWrite bs r])
      end
  | UNum f args k =>
      let '(r, s') := h_num H s f args in
      match r with
      | Some z => then_ (OnNum f args r) (urun H (k z) s')
      | None => (Throw, s', [OnNum f args r])
      end
  | UTest f args k =>
      let '(r, s') := h_test H s f args in
      match r with
      | Some b => then_ (OnTest f args r) (urun H (k b) s')
      | None => (Throw, s', [OnTest f args r])
      end
  | UCheck f v k =>
      let '(r, s') := h_check H s f v in
      match r with
      | Some b => then_ (OnCheck f v r) (urun H (k b) s')
      | None => (Throw, s', [OnCheck f v r])
      end
  end.

(** ** Steps with user code *)

(** include/field_size/field_size_deduce.hpp:17-38. *)
Definition u_len (c : cfg) (e : env) (l : lenspec) : uprog reason Z :=
  match l with
  | LenField id =>
      match lookup e id with Some (VZ z) => URet (to_size c z) | _ => UStuck end
  | LenComp f ids =>
      match lookups e ids with
      | Some vs => UNum f vs (fun z => URet (to_size c z))
      | None => UStuck
      end
  end.

(** include/type_deduction/if_else_ladder/ladder_impl.hpp:19-63 with
    utils/helper.hpp:16-18: the branches in order, none after the first that holds. *)
Fixpoint u_ladder (e : env) (brs : list ((list val -> bool) * list ident))
  : uprog reason (option nat) :=
  match brs with
  | [] => URet None
  | (p, ids) :: brs' =>
      match lookups e ids with
      | None => UStuck
      | Some vs =>
          UTest p vs (fun b =>
            if b then URet (Some O)
            else ubind (u_ladder e brs') (fun r => URet (option_map S r)))
      end
  end.

(** include/type_deduction/type/type_impl.hpp:19-46. *)
Definition u_type (e : env) (g : guide) : uprog reason (option nat) :=
  match g with
  | GField id s cases =>
      match lookup e id with Some (VZ z) => URet (eval_switch s z cases) | _ => UStuck end
  | GComp f r ids cases =>
      match lookups e ids with
      | Some vs => UNum f vs (fun z => URet (eval_switch r (conv r z) cases))
      | None => UStuck
      end
  | GLadder brs => u_ladder e brs
  end.

(** Running a constraint: the predefined ones are the library's
    (include/field_validation/field_value_constraints.hpp:42-125). *)
Definition u_holds (k : constr) (v : val) : uprog reason bool :=
  match k with
  | CFun f => UCheck f v (fun b => URet b)
  | _ =>
      match check k v with
      | CTrue => URet true
      | CFalse => URet false
      | CUndef => UUB
      | CStuck => UStuck
      end
  end.

(** include/cast/struct_cast_impl.hpp:38-44. *)
Definition u_rcheck (k : constr) (v : val) : uprog reason val :=
  ubind (u_holds k v) (fun b => if b then URet v else UErr ValidationFailure).

(** include/cast/stream_cast_impl.hpp:34-39. *)
Definition u_wcheck (k : constr) (v : val) : uprog reason unit :=
  ubind (u_holds k v) (fun b => if b then URet tt else UErr ValidationFailure).

(** ** Reading
    As [read_ty] of Read.v (include/field_read/field_reader.hpp,
    include/cast/struct_cast_impl.hpp:21-50). *)
Fixpoint u_read (c : cfg) (e : env) (t : fty) {struct t} : uprog reason val :=
  match t with
  | FFixed t' n => of_r (read_fixed c t' n)
  | FVar elt l b => ubind (u_len c e l) (fun len => of_r (read_var c elt len b))
  | FStruct fs =>
      ubind (umaperr fst (u_read_fields c (mk_env fs (default_fields fs)) fs))
            (fun vs => URet (VRec vs))
  | FArrRec n fs =>
      ubind (urep n (ubind (umaperr fst (u_read_fields c (mk_env fs (default_fields fs)) fs))
                           (fun vs => URet (VRec vs))))
            (fun l => URet (VSeq l))
  | FVecRec fs recsz l b =>
      ubind (u_len c e l) (fun len =>
        if len_allowed (ceiling c b) recsz len then
          UAlloc (len * recsz)
            (ubind (urep (Z.to_nat len)
                      (ubind (umaperr fst (u_read_fields c (mk_env fs (default_fields fs)) fs))
                             (fun vs => URet (VRec vs))))
                   (fun l => URet (VSeq l)))
        else UErr ExcessiveLength)
  | FMaybe b p ids =>
      match lookups e ids with
      | Some vs =>
          UTest p vs (fun x =>
            if x then ubind (u_read c e b) (fun v => URet (VSome v)) else URet VNone)
      | None => UStuck
      end
  | FUnion g al =>
      ubind (u_type e g) (fun r =>
        match r with
        | Some i => ubind (u_read_alts c e al i) (fun v => URet (VAlt i v))
        | None => UErr TypeDeductionFailure
        end)
  end
with u_read_fields (c : cfg) (e : env) (fs : fields) {struct fs}
  : uprog (reason * ident) (list val) :=
  match fs with
  | FNil => URet []
  | FCons id t k fs' =>
      ubind (umaperr (fun r => (r, id)) (ubind (u_read c e t) (u_rcheck k)))
            (fun v => ubind (u_read_fields c (update e id v) fs')
                            (fun vs => URet (v :: vs)))
  end
with u_read_alts (c : cfg) (e : env) (al : alts) (i : nat) {struct al} : uprog reason val :=
  match al with
  | ANil => UStuck
  | ACons t k al' =>
      match i with
      | O => ubind (u_read c e t) (u_rcheck k)
      | S i' => u_read_alts c e al' i'
      end
  end.

(** include/api/struct_cast.hpp:14-23. *)
Definition u_struct_cast (c : cfg) (fs : fields) : uprog (reason * ident) (list val) :=
  u_read_fields c (mk_env fs (default_fields fs)) fs.

(** ** Writing *)

(** include/field_write/derived_value.hpp:170-205 [verify_conditional_len]: all producers
    in order, whatever the verdicts; the predicate of a maybe is called only if the
    optional is engaged. *)
Definition u_cond_agrees (e : env) (id : ident) (w : Z) (t : fty) (v : val) : uprog reason bool :=
  match t, v with
  | FMaybe b p ids, VSome v' =>
      if ident_is (len_target b) id then
        match lookups e ids with
        | Some vs =>
            UTest p vs (fun x =>
              if x then match val_size v' with Some n => URet (n =? w) | None => UStuck end
              else URet true)
        | None => UStuck
        end
      else URet true
  | _, _ =>
      match cond_agrees e id w t v with Some b => URet b | None => UStuck end
  end.

(** include/field_write/derived_value.hpp:171-206. *)
Fixpoint u_verify (e : env) (id : ident) (w : Z) (fs : fields) (vs : list val)
  : uprog reason bool :=
  match fs, vs with
  | FNil, [] => URet true
  | FCons _ t _ fs', v :: vs' =>
      ubind (u_cond_agrees e id w t v) (fun a =>
        ubind (u_verify e id w fs' vs') (fun b => URet (a && b)))
  | _, _ => UStuck
  end.

(** include/field_write/field_writer.hpp:62-72. *)
Definition u_verify_then_write (c : cfg) (fs : fields) (vs : list val) (id : ident)
  (t : ctype) (n : nat) (v : val) : uprog reason unit :=
  if has_cond_obligation fs id then
    match v with
    | VZ z =>
        ubind (u_verify (mk_env fs vs) id (to_size c z) fs vs) (fun ok =>
          if ok then of_w (write_const c t n v) else UErr FoundContradictingLength)
    | _ => UStuck
    end
  else of_w (write_const c t n v).

(** field_writer.hpp:23-56. *)
Definition u_write_fixed (c : cfg) (fs : fields) (vs : list val) (id : ident)
  (mem : bool) (k : constr) (t : ctype) (n : nat) (v : val) : uprog reason unit :=
  if is_derived fs id then
    match derive_value c fs vs id t n with
    | DOk d => ubind (u_wcheck k d) (fun _ => u_verify_then_write c fs vs id t n d)
    | DErr r => UErr r
    | DStuck => UStuck
    end
  else if mem && is_frozen (FFixed t n) k then
    match frozen_value (FFixed t n) k with
    | Some z => u_verify_then_write c fs vs id t n z
    | None => UStuck
    end
  else u_verify_then_write c fs vs id t n v.

(** field_writer.hpp:86-92,167-170. *)
Definition u_verify_len (c : cfg) (e : env) (l : lenspec) (size : Z) : uprog reason unit :=
  match l with
  | LenField _ => URet tt
  | LenComp _ _ =>
      ubind (u_len c e l) (fun n => if n =? size then URet tt else UErr FoundContradictingLength)
  end.

(** As [write_ty] of Write.v (include/field_write/field_writer.hpp,
    include/cast/stream_cast_impl.hpp:20-49). *)
Fixpoint u_write (c : cfg) (fs : fields) (vs : list val) (id : ident) (mem : bool)
  (k : constr) (t : fty) (v : val) {struct t} : uprog reason unit :=
  match t with
  | FFixed t' n => u_write_fixed c fs vs id mem k t' n v
  | FVar elt l _ =>
      match v with
      | VSeq xs =>
          ubind (u_verify_len c (mk_env fs vs) l (Z.of_nat (length xs)))
                (fun _ => of_w (write_var c elt xs))
      | _ => UStuck
      end
  | FStruct gs =>
      match v with
      | VRec ws => umaperr fst (u_write_fields c gs ws gs ws)
      | _ => UStuck
      end
  | FArrRec n gs =>
      match v with
      | VSeq xs =>
          if Nat.eqb (length xs) n then
            ufor xs (fun x => match x with
                              | VRec ws => umaperr fst (u_write_fields c gs ws gs ws)
                              | _ => UStuck
                              end)
          else UStuck
      | _ => UStuck
      end
  | FVecRec gs _ l _ =>
      match v with
      | VSeq xs =>
          ubind (u_verify_len c (mk_env fs vs) l (Z.of_nat (length xs)))
                (fun _ => ufor xs (fun x => match x with
                                            | VRec ws => umaperr fst (u_write_fields c gs ws gs ws)
                                            | _ => UStuck
                                            end))
      | _ => UStuck
      end
  | FMaybe b p ids =>
      match lookups (mk_env fs vs) ids with
      | Some args =>
          UTest p args (fun x =>
            match x, v with
            | true, VSome v' => u_write c fs vs id false CNone b v'
            | false, VNone => URet tt
            | true, VNone | false, VSome _ => UErr ValidationFailure
            | _, _ => UStuck
            end)
      | None => UStuck
      end
  | FUnion g al =>
      match v with
      | VAlt i v' =>
          match g with
          | GField _ _ _ => u_write_alts c fs vs id al i v'
          | _ =>
              ubind (u_type (mk_env fs vs) g) (fun r =>
                match r with
                | Some j =>
                    if Nat.eqb j i then u_write_alts c fs vs id al i v'
                    else UErr ValidationFailure
                | None => UErr TypeDeductionFailure
                end)
          end
      | _ => UStuck
      end
  end
with u_write_fields (c : cfg) (fs : fields) (vs : list val) (gs : fields) (ws : list val)
  {struct gs} : uprog (reason * ident) unit :=
  match gs, ws with
  | FNil, [] => URet tt
  | FCons id t k gs', w :: ws' =>
      ubind
        (umaperr (fun r => (r, id))
           (ubind (if is_derived fs id || is_frozen t k then URet tt else u_wcheck k w)
                  (fun _ => u_write c fs vs id true k t w)))
        (fun _ => u_write_fields c fs vs gs' ws')
  | _, _ => UStuck
  end
with u_write_alts (c : cfg) (fs : fields) (vs : list val) (id : ident) (al : alts)
  (i : nat) (v : val) {struct al} : uprog reason unit :=
  match al with
  | ANil => UStuck
  | ACons t k al' =>
      match i with
      | O => ubind (u_wcheck k v) (fun _ => u_write c fs vs id false k t v)
      | S i' => u_write_alts c fs vs id al' i' v
      end
  end.

(** include/api/stream_cast.hpp:11-20. *)
Definition u_stream_cast (c : cfg) (fs : fields) (vs : list val) : uprog (reason * ident) unit :=
  u_write_fields c fs vs fs vs.
