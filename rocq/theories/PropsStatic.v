(** * Declarations: names, dependencies, accessors, options, type ids *)
From Coq Require Import Permutation.
From Verif Require Import PropDefs Typing Streams Examples.
From Verif Require Import Static StaticSpec StaticFacts StaticDeps StaticWf StaticMore.

(** ** C31: a range is accepted iff its items are pairwise distinct, for items of any
    type with an equality: ids, type ids, match values. *)
Theorem C31_unique : forall A (eqb : A -> A -> bool), (forall x y, eqb x y = true <-> x = y) ->
  forall l, exists b, are_unique eqb l = Some b /\ (b = true <-> NoDup l).
Proof. exact @unique_iff. Qed.
Print Assumptions C31_unique.

(** In an accepted schema the ids of every list, at any depth, and the match values of
    every switch, taken as [size_t], are distinct. *)
Theorem C31_accepted_ids : forall szw fs gs,
  accepted szw fs = true -> In gs (lists fs) -> NoDup (f_ids gs).
Proof. exact accepted_nodup_all. Qed.
Print Assumptions C31_accepted_ids.

Theorem C31_accepted_values : forall szw fs gs g,
  accepted szw fs = true -> In gs (lists fs) -> In g (switches gs) -> NoDup (match_values_of szw g).
Proof. exact accepted_values. Qed.
Print Assumptions C31_accepted_values.

Theorem C31_match_values : forall szw g, values_unique szw g = true <-> NoDup (match_values_of szw g).
Proof. exact values_unique_iff. Qed.
Print Assumptions C31_match_values.

Example C31_case :
  are_unique String.eqb ["len"; "data"; "crc"] = Some true /\
  are_unique String.eqb ["len"; "data"; "len"] = Some false /\
  accepted 8 frame = true /\ In point (lists frame) /\
  In (GField "sel" u8 [(i32, 1); (i32, 7)]) (switches frame) /\
  accepted 8 (FCons "a" (fixed u8) CNone (FCons "a" (fixed u8) CNone FNil)) = false.
Proof. vm_compute. tauto. Qed.

(** As [size_t], [-1] is the largest value: two different match values collide, and
    equal ones of a different width do not. *)
Example C31_conversion :
  values_unique 8 (GField "d" u32 [(i32, -1); (u64, 0xFFFFFFFFFFFFFFFF)]) = false /\
  values_unique 8 (GField "d" u32 [(i32, -1); (u32, 0xFFFFFFFF)]) = true.
Proof. vm_compute. auto. Qed.

(** ** C38: looking up a name finds its position and the type id stored there; a name
    not declared is not found.  The table exists iff there are at most 256 fields. *)
Theorem C38_lookup : forall tid fs ft id,
  field_table tid fs = Some ft -> NoDup (f_ids fs) -> id <> EmptyString ->
  forall x, map_get ft id = Some x <->
    exists i, nth_error (f_ids fs) i = Some id /\ x = mkInfo (tid i) i.
Proof. exact lookup_at_own. Qed.
Print Assumptions C38_lookup.

Theorem C38_undeclared : forall tid fs ft id,
  field_table tid fs = Some ft -> NoDup (f_ids fs) -> id <> EmptyString ->
  ~ In id (f_ids fs) -> map_get ft id = None.
Proof. exact lookup_undeclared. Qed.
Print Assumptions C38_undeclared.

Theorem C38_capacity : forall tid fs, field_table tid fs <> None <-> (f_len fs <= 256)%nat.
Proof. exact lookup_exists. Qed.
Print Assumptions C38_capacity.

Definition find (fs : fields) (id : ident) : option nat :=
  match field_table (fun _ => 0) fs with
  | Some ft => option_map fi_at (map_get ft id)
  | None => None
  end.

Example C38_case :
  find frame "ver" = Some 0%nat /\ find frame "flags" = Some 2%nat /\ find frame "r" = Some 11%nat /\
  find frame "size" = None /\ NoDup (f_ids frame).
Proof.
  repeat (split; [vm_compute; reflexivity|]).
  apply (C31_accepted_ids 8 frame frame); [vm_compute; reflexivity|left; reflexivity].
Qed.

(** The empty name is found where it is not declared, and where it is declared its
    position is lost: the padding of the table has the empty name and position 0. *)
Theorem C38_empty_refuted :
  find frame "" = Some 0%nat /\ ~ In "" (f_ids frame) /\
  find (FCons "a" (fixed u8) CNone (FCons "" (fixed u8) CNone FNil)) "" = Some 0%nat.
Proof. split; [vm_compute; reflexivity|]. split; [|vm_compute; reflexivity]. simpl. intuition discriminate. Qed.
Print Assumptions C38_empty_refuted.

(** ** C32: in an accepted schema every name a field uses is declared earlier in the
    same list, except that a field may name itself and that empty names escape. *)
Theorem C32_accepted_only : forall szw fs gs i id t k d,
  accepted szw fs = true -> In gs (lists fs) ->
  nth_error (f_list gs) i = Some (id, t, k) -> In d (uses t) ->
  id = EmptyString \/ d = EmptyString \/ d = id \/ In d (firstn i (f_ids gs)).
Proof. exact accepted_only. Qed.
Print Assumptions C32_accepted_only.

(** With names that are not empty, acceptance of one list is exactly: distinct ids, the
    capacities are kept, every use is earlier or the field's own. *)
Theorem C32_accepted_iff : forall fs, all_nest_plain fs -> named fs ->
  (list_accepted fs = true <-> NoDup (f_ids fs) /\ StaticSpec.small fs /\ uses_earlier_or_itself fs).
Proof. exact accepted_list_named. Qed.
Print Assumptions C32_accepted_iff.

(** And of a schema: that of every list in it, and of every descriptor: [described]
    (StaticSpec.v). *)
Theorem C32_accepted_exact : forall szw fs, (forall gs, In gs (lists fs) -> named gs) ->
  (accepted szw fs = true <-> forall gs, In gs (lists fs) ->
     NoDup (f_ids gs) /\ StaticSpec.small gs /\ uses_earlier_or_itself gs /\
     forall id t k, In (id, t, k) (f_list gs) -> described szw k t).
Proof. exact accepted_exact. Qed.
Print Assumptions C32_accepted_exact.

Example C32_width_case :
  accepted 8 (FCons "a" (FFixed (TScalar u16) 3) CNone FNil) = false /\
  accepted 8 (FCons "a" (FFixed (TScalar u16) 3) (CCmp OEq u16 7) FNil) = true /\
  accepted 8 (FCons "a" (FFixed (TFloat 4) 5) CNone FNil) = false /\
  accepted 8 (FCons "a" (FFixed (TArr 2 (TScalar u8)) 1) CNone FNil) = false /\
  accepted 8 (FCons "a" (FMaybe (FMaybe (fixed u8) (fun _ => true) []) (fun _ => true) []) CNone FNil) = false.
Proof. vm_compute. repeat split. Qed.

(** So accepted schemas without empty names and self references are the well-formed
    ones of all the other theorems; and the other way round. *)
Theorem C32_accepted_wf : forall szw fs,
  accepted szw fs = true -> sizes_fields fs = true ->
  (forall gs, In gs (lists fs) -> named gs) ->
  (forall gs id t k, In gs (lists fs) -> In (id, t, k) (f_list gs) -> ~ In id (uses t)) ->
  wf fs = true.
Proof. exact accepted_wf. Qed.
Print Assumptions C32_accepted_wf.

Theorem C32_wf_accepted : forall szw fs, wf fs = true -> typed fs = true ->
  (forall gs, In gs (lists fs) -> named gs /\ StaticSpec.small gs /\
     forall g, In g (switches gs) -> NoDup (match_values_of szw g)) ->
  accepted szw fs = true.
Proof. exact wf_accepted. Qed.
Print Assumptions C32_wf_accepted.

Definition late : fields :=
  FCons "xs" (FVar (TScalar u8) (LenField "n") None) CNone (FCons "n" (fixed u8) CNone FNil).
Definition lost : fields :=
  FCons "n" (fixed u8) CNone (FCons "xs" (FVar (TScalar u8) (LenField "m") None) CNone FNil).
Definition inner_late : fields :=
  FCons "n" (fixed u8) CNone (FCons "r" (FStruct
    (FCons "xs" (FVar (TScalar u8) (LenField "n") None) CNone FNil)) CNone FNil).

Example C32_case :
  accepted 8 frame = true /\ accepted 8 packet = true /\ wf frame = true /\ sizes_fields frame = true /\
  named point /\ accepted 8 late = false /\ accepted 8 lost = false /\ accepted 8 inner_late = false /\
  nth_error (f_list frame) 5 = Some ("xs", FVar (TScalar u16) (LenField "n") None, CNone) /\
  In "n" (uses (FVar (TScalar u16) (LenField "n") None)) /\ In "n" (firstn 5 (f_ids frame)).
Proof.
  assert (named point).
  { split; [simpl; intuition discriminate|]. intros id t k [E|[E|[]]]; injection E as <- <- <-; simpl; tauto. }
  repeat (split; [first [assumption | vm_compute; reflexivity]|]). split; simpl; auto.
Qed.

(** A field that is its own length is accepted, though the length cannot have been
    read. *)
Definition selfish : fields := FCons "xs" (FVar (TScalar u8) (LenField "xs") None) CNone FNil.

Theorem C32_self_refuted : exists fs, accepted 8 fs = true /\ wf fs = false /\ ~ uses_earlier fs.
Proof.
  exists selfish. split; [vm_compute; reflexivity|]. split; [reflexivity|].
  intros H. exact (H 0%nat "xs" (FVar (TScalar u8) (LenField "xs") None) CNone "xs" eq_refl (or_introl eq_refl)).
Qed.
Print Assumptions C32_self_refuted.

(** Lengths named [""], and whatever a field named [""] uses, pass the check. *)
Definition unnamed_len : fields := FCons "xs" (FVar (TScalar u8) (LenField "") None) CNone FNil.
Definition unnamed : fields :=
  FCons "" (FVar (TScalar u8) (LenField "n") None) CNone (FCons "n" (fixed u8) CNone FNil).

Theorem C32_empty_refuted :
  accepted 8 unnamed_len = true /\ ~ In "" (f_ids unnamed_len) /\
  accepted 8 unnamed = true /\ ~ uses_earlier unnamed.
Proof.
  split; [vm_compute; reflexivity|]. split; [simpl; intuition discriminate|].
  split; [vm_compute; reflexivity|]. intros H.
  exact (H 0%nat "" (FVar (TScalar u8) (LenField "n") None) CNone "n" eq_refl (or_introl eq_refl)).
Qed.
Print Assumptions C32_empty_refuted.

(** ** C33: [operator[]] on a non-const object gives a mutable reference to exactly the
    fields the writer does not overwrite. *)
Theorem C33_mutable : forall fs id, wf fs = true -> typed fs = true ->
  (f_len fs <= 256)%nat -> (length (lengths fs) <= 64)%nat -> (length (discriminants fs) <= 64)%nat ->
  id <> EmptyString ->
  (op_index false fs id = MutableRef <->
   exists t k, field_of fs id = Some (t, k) /\ overwritten fs id t k = false).
Proof. exact policy_mutable. Qed.
Print Assumptions C33_mutable.

Theorem C33_const_ref : forall fs id, wf fs = true -> typed fs = true ->
  (f_len fs <= 256)%nat -> (length (lengths fs) <= 64)%nat -> (length (discriminants fs) <= 64)%nat ->
  id <> EmptyString ->
  (op_index false fs id = ConstRef <->
   exists t k, field_of fs id = Some (t, k) /\ overwritten fs id t k = true /\ ~ In id (lengths fs)).
Proof. exact policy_const_ref. Qed.
Print Assumptions C33_const_ref.

(** Lengths and names not declared are out of reach. *)
Theorem C33_hidden : forall fs id, wf fs = true ->
  (f_len fs <= 256)%nat -> (length (lengths fs) <= 64)%nat -> (length (discriminants fs) <= 64)%nat ->
  id <> EmptyString -> forall const_obj,
  (op_index const_obj fs id = NoOverload <-> ~ In id (f_ids fs) \/ In id (lengths fs)).
Proof. exact policy_hidden. Qed.
Print Assumptions C33_hidden.

Theorem C33_const_object : forall fs id, wf fs = true ->
  (f_len fs <= 256)%nat -> (length (lengths fs) <= 64)%nat -> (length (discriminants fs) <= 64)%nat ->
  id <> EmptyString ->
  (op_index true fs id = ConstRef <-> In id (f_ids fs) /\ ~ In id (lengths fs)).
Proof. exact policy_const_obj. Qed.
Print Assumptions C33_const_object.

(** Beyond the capacities the access does not compile. *)
Theorem C33_capacity : forall b fs id, op_index b fs id = IllFormed <->
  (256 < f_len fs \/ 64 < length (lengths fs) \/ 64 < length (discriminants fs))%nat.
Proof. exact policy_ill. Qed.
Print Assumptions C33_capacity.

(** The bytes of an assignable field are those of the value stored in it. *)
Theorem C33_assignable_written : forall c fs vs pre id t k v out,
  wf fs = true -> typed fs = true -> has_fields fs vs -> field_at fs vs pre id t k v ->
  overwritten fs id t k = false -> wmem (stream_cast c fs vs) = (Ok tt, out) ->
  exists rest, out = bytes_before c pre (emitted c fs vs) ++ enc_ty (c_wire c) t (emit_ty c t v) ++ rest.
Proof. exact assignable_written. Qed.
Print Assumptions C33_assignable_written.

(** The value stored in a field that is not assignable does not matter. *)
Theorem C33_refused_ignored : forall c pre id t k post vpre v v' vpost out out',
  let fs := f_app pre (FCons id t k post) in
  wf fs = true -> typed fs = true -> length vpre = f_len pre ->
  has_fields fs (vpre ++ v :: vpost) -> has_fields fs (vpre ++ v' :: vpost) ->
  overwritten fs id t k = true ->
  wmem (stream_cast c fs (vpre ++ v :: vpost)) = (Ok tt, out) ->
  wmem (stream_cast c fs (vpre ++ v' :: vpost)) = (Ok tt, out') -> out = out'.
Proof. exact refused_bytes. Qed.
Print Assumptions C33_refused_ignored.

(** The two scans, of the accessor and of the writer, agree on every list. *)
Theorem C33_scans_agree : forall fs lens discs id,
  derived_ids len_sources_of fs = Some lens -> derived_ids discriminants_of fs = Some discs ->
  is_length_derived fs id = is_in_ids lens id /\ is_disc_derived fs id = is_in_ids discs id.
Proof. exact policy_agrees. Qed.
Print Assumptions C33_scans_agree.

Example C33_case :
  wf frame = true /\ typed frame = true /\ (f_len frame = 12)%nat /\ lengths frame = ["n"; "n"] /\
  discriminants frame = ["sel"] /\
  op_index false frame "flags" = MutableRef /\ op_index false frame "m" = MutableRef /\
  op_index false frame "sel" = ConstRef /\ op_index false frame "ver" = ConstRef /\
  op_index false frame "n" = NoOverload /\ op_index true frame "n" = NoOverload /\
  op_index false frame "nope" = NoOverload /\ op_index true frame "flags" = ConstRef.
Proof. vm_compute. tauto. Qed.

Example C33_write_case :
  field_at frame frame_val (f_take 2 frame) "flags" (fixed u8) CNone (VZ 1) /\
  bytes_before le64 (f_take 2 frame) (emitted le64 frame frame_val) = [3; 2; 0] /\
  enc_ty Little (fixed u8) (emit_ty le64 (fixed u8) (VZ 1)) = [1].
Proof. split; [at_pos 2%nat|split; reflexivity]. Qed.

(** The padding gives access to the empty name: to the first field. *)
Theorem C33_empty_refuted : exists fs,
  wf fs = true /\ ~ In "" (f_ids fs) /\ op_index true fs "" = ConstRef.
Proof. exists frame. split; [reflexivity|]. split; [simpl; intuition discriminate|vm_compute; reflexivity]. Qed.
Print Assumptions C33_empty_refuted.

(** ** C34: the order of options does not matter. *)
Theorem C34_order : forall d opts opts', Permutation opts opts' -> describe d opts = describe d opts'.
Proof. exact describe_perm. Qed.
Print Assumptions C34_order.

Theorem C34_twice : forall d p x y a b e,
  p = is_size \/ p = is_constr \/ p = is_bound -> p x = true -> p y = true ->
  describe d (a ++ x :: b ++ y :: e) = None.
Proof. exact describe_twice. Qed.
Print Assumptions C34_twice.

(** What each descriptor means: options present and defaults for those absent. *)
Theorem C34_scalar : forall s n k, (n <= ssize s)%nat ->
  describe (DBasic s) [] = Some (FFixed (TScalar s) (ssize s), CNone) /\
  describe (DBasic s) [OptSize (SzBytes n)] = Some (FFixed (TScalar s) n, CNone) /\
  describe (DBasic s) [OptConstr k] = Some (FFixed (TScalar s) (ssize s), k) /\
  describe (DBasic s) [OptSize (SzBytes n); OptConstr k] = Some (FFixed (TScalar s) n, k).
Proof. exact describe_scalar. Qed.
Print Assumptions C34_scalar.

Theorem C34_container : forall sz elt l k b,
  describe (DVec sz elt) [OptSize (SzLen l)] = Some (FVar elt l None, CNone) /\
  describe (DVec sz elt) [OptSize (SzLen l); OptBound None] = Some (FVar elt l None, CNone) /\
  describe (DVec sz elt) [OptSize (SzLen l); OptConstr k] = Some (FVar elt l None, k) /\
  describe (DVec sz elt) [OptSize (SzLen l); OptBound b] = Some (FVar elt l b, CNone) /\
  describe (DVec sz elt) [OptSize (SzLen l); OptConstr k; OptBound b] = Some (FVar elt l b, k).
Proof. exact describe_container. Qed.
Print Assumptions C34_container.

(** A container without a length, and a descriptor given an option of a kind it does not
    take, are rejected. *)
Theorem C34_rejected :
  (forall sz elt opts, (forall l, ~ In (OptSize (SzLen l)) opts) -> describe (DVec sz elt) opts = None) /\
  (forall d opts, In OptOther opts -> describe d opts = None) /\
  (forall n t opts s, In (OptSize s) opts -> describe (DArray n t) opts = None) /\
  (forall s opts b, In (OptBound b) opts -> describe (DBasic s) opts = None).
Proof. exact describe_rejected. Qed.
Print Assumptions C34_rejected.

(** If every container declares its bound, the global default does not matter: same
    result, same requests to the stream, same allocations. *)
Theorem C34_bound_independent : forall c c' fs, same_but_default c c' ->
  Forall (fun x => snd x <> None) (containers_fields fs) ->
  forall S alloc s, rrun S alloc (struct_cast c fs) s = rrun S alloc (struct_cast c' fs) s.
Proof. exact cast_default. Qed.
Print Assumptions C34_bound_independent.

Example C34_case :
  Permutation [OptConstr (CCmp OGt i32 3); OptSize (SzBytes 2)] [OptSize (SzBytes 2); OptConstr (CCmp OGt i32 3)] /\
  describe (DBasic u32) [OptConstr (CCmp OGt i32 3); OptSize (SzBytes 2)] =
    Some (FFixed (TScalar u32) 2, CCmp OGt i32 3) /\
  describe (DBasic u32) [OptSize (SzBytes 2); OptSize (SzBytes 2)] = None /\
  describe (DVec 24 (TScalar u16)) [OptBound (Some 8); OptSize (SzLen (LenField "n"))] =
    Some (FVar (TScalar u16) (LenField "n") (Some 8), CNone) /\
  same_but_default le64 (mkCfg Little Little false 8 1) /\
  Forall (fun x => snd x <> None) (containers_fields (bounded 8)) /\
  rmem (struct_cast (mkCfg Little Little false 8 1) (bounded 8)) [2; 5; 6] = (Ok [VZ 2; VSeq [VZ 5; VZ 6]], []).
Proof.
  split; [apply perm_swap|]. repeat (split; [reflexivity|]). split; [repeat split|].
  split; [|reflexivity]. repeat constructor. discriminate.
Qed.

(** ** C39: with the ids below [n] taken, the search finds [n], at every fill level of
    every range. *)
Theorem C39_search : forall szw taken n right,
  (0 < szw)%nat -> 0 <= right < 256 ^ Z.of_nat szw -> 0 <= n <= right + 1 ->
  (forall i, 0 <= i -> (taken i = true <-> i < n)) ->
  exists F, forall fuel, (F <= fuel)%nat -> gen szw taken fuel 0 right = Some n.
Proof. exact gen_search. Qed.
Print Assumptions C39_search.

(** The first [k] types get the ids 0, 1, ..., k - 1. *)
Theorem C39_sequence : forall szw, (2 <= szw)%nat -> exists F, forall fuel k,
  (F <= fuel)%nat -> (k <= 1025)%nat -> type_ids szw fuel [] k = Some (map Z.of_nat (seq 0 k)).
Proof. exact ids_sequence. Qed.
Print Assumptions C39_sequence.

(** There are 1025 of them; with one more the program is ill formed. *)
Theorem C39_capacity : forall szw fuel k, (2 <= szw)%nat -> (1026 <= k)%nat -> (1024 <= fuel)%nat ->
  type_ids szw fuel [] k = None.
Proof. exact ids_overflow. Qed.
Print Assumptions C39_capacity.

Example C39_case : type_ids 8 100 [] 5 = Some [0; 1; 2; 3; 4].
Proof. vm_compute. reflexivity. Qed.

(** ** C43: [sort_ranges] sorts, for every comparison that is a weak order. *)
Theorem C43_sorts : forall A (less : A -> A -> bool),
  (forall x y z, less y x = false -> less z y = false -> less z x = false) ->
  (forall x y, less x y = true -> less y x = false) ->
  forall l, Permutation (sort_ranges less l) l /\
    ascending (fun x y => less y x = false) (sort_ranges less l).
Proof. exact sorts. Qed.
Print Assumptions C43_sorts.

Example C43_case : sort_ranges Z.ltb [3; 1; 2; 1] = [1; 1; 2; 3].
Proof. vm_compute. reflexivity. Qed.

(** ** C42: an accepted schema neither gets stuck on reading nor on writing. *)
Theorem C42_accepted : forall szw fs,
  accepted szw fs = true -> sizes_fields fs = true -> typed fs = true ->
  (forall gs, In gs (lists fs) -> named gs) ->
  (forall gs id t k, In gs (lists fs) -> In (id, t, k) (f_list gs) -> ~ In id (uses t)) ->
  (forall c S alloc s o s' ev, delivers S ->
     rrun S alloc (struct_cast c fs) s = (o, s', ev) -> o <> Stuck) /\
  (forall c S vs s o s' ch, has_fields fs vs ->
     wrun S (stream_cast c fs vs) s = (o, s', ch) -> o <> Stuck).
Proof. exact accepted_progress. Qed.
Print Assumptions C42_accepted.

Example C42_accepted_case :
  accepted 8 frame = true /\ sizes_fields frame = true /\ typed frame = true /\
  (forall gs, In gs (lists frame) -> named gs) /\
  (forall gs id t k, In gs (lists frame) -> In (id, t, k) (f_list gs) -> ~ In id (uses t)).
Proof.
  split; [vm_compute; reflexivity|]. split; [reflexivity|]. split; [reflexivity|]. split.
  - intros gs Hin. simpl in Hin. repeat (destruct Hin as [<-|Hin]); try contradiction;
      (split; [simpl; intuition discriminate|]);
      intros id t k Hk; simpl in Hk;
      repeat (destruct Hk as [E|Hk]; [injection E as <- <- <-; simpl; intuition discriminate|]); contradiction.
  - intros gs id t k Hin Hk. simpl in Hin. repeat (destruct Hin as [<-|Hin]); try contradiction;
      simpl in Hk;
      repeat (destruct Hk as [E|Hk]; [injection E as <- <- <-; simpl; intuition discriminate|]); contradiction.
Qed.
