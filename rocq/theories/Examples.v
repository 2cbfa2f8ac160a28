(** * Concrete schemas and messages used beside the theorems *)
From Coq Require Export String.
From Verif Require Export PropDefs Typing Streams.
Global Open Scope string_scope.
Global Open Scope list_scope.
Global Open Scope Z_scope.

Definition u8 := SInt 1 false.
Definition u16 := SInt 2 false.
Definition u32 := SInt 4 false.
Definition u64 := SInt 8 false.
Definition i8 := SInt 1 true.
Definition i16 := SInt 2 true.
Definition i32 := SInt 4 true.

Definition fixed (s : sty) : fty := FFixed (TScalar s) (ssize s).

(** 64-bit little-endian host, 16 MiB default ceiling. *)
Definition le64 : cfg := mkCfg Little Little false 8 16777216.
Definition be64 : cfg := mkCfg Little Big false 8 16777216.

Definition bit0 (vs : list val) : bool :=
  match vs with [VZ z] => Z.odd z | _ => false end.

Definition twice (vs : list val) : Z :=
  match vs with [VZ z] => 2 * z | _ => 0 end.

Definition small (vs : list val) : bool :=
  match vs with [VZ z] => z <? 10 | _ => false end.

(** A point: two signed coordinates. *)
Definition point : fields :=
  FCons "x" (fixed i16) CNone (FCons "y" (fixed i8) (CCmp OGte i32 (-5)) FNil).

(** Length prefix, nested array, bounded vector, optional, switch with a record
    alternative, array and vector of records. *)
Definition head : fields :=
  FCons "magic" (fixed u16) (CCmp OEq i32 0xCAFE) (FCons "n" (fixed u8) CNone
  (FCons "flags" (fixed u16) CNone FNil)).

Definition body : fty := FVar (TScalar u16) (LenField "n") (Some 8).
Definition grid : fty := FFixed (TArr 2 (TArr 2 (TScalar u16))) 8.
Definition opt : fty := FMaybe (fixed u32) bit0 ["flags"].
Definition choice : fty :=
  FUnion (GField "sel" u8 [(i32, 1); (i32, 7)])
    (ACons (fixed u16) CNone (ACons (FStruct point) CNone ANil)).
Definition ladder : fty :=
  FUnion (GLadder [(small, ["n"]); (bit0, ["flags"])])
    (ACons (fixed u8) CNone (ACons (fixed u32) CNone ANil)).
Definition pts : fty := FVecRec point 4 (LenComp twice ["n"]) None.

Definition packet : fields :=
  f_app head
  (FCons "body" body CNone (FCons "grid" grid CNone (FCons "opt" opt CNone
  (FCons "sel" (fixed u8) CNone (FCons "u" choice CNone
  (FCons "pair" (FArrRec 2 point) CNone (FCons "pts" pts CNone FNil))))))).

Definition packet_be : list Z :=
  [0xCA; 0xFE; 2; 0; 1; 0x12; 0x34; 0x56; 0x78;
   0; 1; 0; 2; 0; 3; 0; 4;  1; 2; 3; 4;  7;  0xFF; 0xFE; 5;
   0; 1; 2; 0; 3; 4;
   0; 1; 1; 0; 2; 2; 0; 3; 3; 0; 4; 0xFB].

Definition pt (x y : Z) : val := VRec [VZ x; VZ y].

Definition packet_val : list val :=
  [VZ 0xCAFE; VZ 2; VZ 1; VSeq [VZ 0x1234; VZ 0x5678];
   VSeq [VSeq [VZ 1; VZ 2]; VSeq [VZ 3; VZ 4]];
   VSome (VZ 0x01020304); VZ 7; VAlt 1 (pt (-2) 5);
   VSeq [pt 1 2; pt 3 4]; VSeq [pt 1 1; pt 2 2; pt 3 3; pt 4 (-5)]].

(** A plain list of bytes as a stream; an allocator that grants everything. *)
Definition list_read (s : list Z) (n : Z) : option (list Z) * list Z :=
  if n <=? Z.of_nat (length s)
  then (Some (firstn (Z.to_nat n) s), skipn (Z.to_nat n) s) else (None, s).
Definition list_stream : istream := mkI (list Z) list_read.
Definition grant (n : Z) : bool := true.

Example packet_wf : wf packet = true /\ typed packet = true.
Proof. split; vm_compute; reflexivity. Qed.

Example packet_read : rmem (struct_cast be64 packet) (packet_be ++ [9; 9]) = (Ok packet_val, [9; 9]).
Proof. vm_compute. reflexivity. Qed.

(** Everything the writer derives or verifies: a pinned field, a length shared by
    two containers, a discriminant, a length of an optional container, a ladder, a
    computed length, a nested record. *)
Definition frame : fields :=
  FCons "ver" (fixed u8) (CCmp OEq i32 3) (FCons "n" (fixed u16) CNone
  (FCons "flags" (fixed u8) CNone (FCons "sel" (fixed u8) CNone (FCons "m" (fixed u8) CNone
  (FCons "xs" (FVar (TScalar u16) (LenField "n") None) CNone
  (FCons "ys" (FVar (TScalar u8) (LenField "n") None) CNone
  (FCons "zs" (FMaybe (FVar (TScalar u8) (LenField "m") None) bit0 ["flags"]) CNone
  (FCons "u" choice CNone
  (FCons "lad" (FUnion (GLadder [(small, ["flags"]); (bit0, ["flags"])])
                 (ACons (fixed u8) CNone (ACons (fixed u32) CNone ANil))) CNone
  (FCons "cs" (FVar (TScalar u8) (LenComp twice ["flags"]) None) CNone
  (FCons "r" (FStruct point) CNone FNil))))))))))).

Definition frame_of (flags m : Z) (xs ys : list Z) (zs u lad : val) (cs : list Z) (r : val) : list val :=
  [VZ 0; VZ 99; VZ flags; VZ 0; VZ m; VSeq (map VZ xs); VSeq (map VZ ys); zs; u; lad;
   VSeq (map VZ cs); r].

Definition some (l : list Z) : val := VSome (VSeq (map VZ l)).

Definition frame_val : list val :=
  frame_of 1 3 [1; 2] [3; 4] (some [5; 6; 7]) (VAlt 1 (pt 2 3)) (VAlt 0 (VZ 8)) [9; 9] (pt 1 1).

Definition frame_le : list Z :=
  [3; 2; 0; 1; 7; 3; 1; 0; 2; 0; 3; 4; 5; 6; 7; 2; 0; 3; 8; 9; 9; 1; 0; 1].

Lemma frame_has : has_fields frame frame_val.
Proof. unfold has_fields. simpl. repeat split; repeat constructor. Qed.

Example frame_written : wf frame = true /\ typed frame = true /\
  wmem (stream_cast le64 frame frame_val) = (Ok tt, frame_le).
Proof. vm_compute. auto. Qed.

(** An output stream with room for that many bytes. *)
Definition budget_write (s : nat) (bs : list Z) : bool * nat :=
  if Nat.leb (length bs) s then (true, (s - length bs)%nat) else (false, s).
Definition budget_stream : ostream := mkO nat budget_write.

Fixpoint f_take (n : nat) (fs : fields) : fields :=
  match n, fs with
  | S n', FCons id t k fs' => FCons id t k (f_take n' fs')
  | _, _ => FNil
  end.

Ltac at_pos n :=
  match goal with
  | |- field_at _ ?vs _ _ _ _ _ =>
      let l := eval compute in (firstn n vs) in
      eexists; exists l; eexists; split; [reflexivity | split; reflexivity]
  end.

Ltac has_it := simpl; repeat split; repeat constructor.

(** Schemas that break a property. *)
Definition narrow_len : fields :=
  FCons "n" (FFixed (TScalar u32) 2) CNone
  (FCons "xs" (FVar (TScalar u8) (LenField "n") None) CNone FNil).

Definition twins : fields :=
  FCons "d" (fixed u32) CNone
  (FCons "u" (FUnion (GField "d" u32 [(i32, -1); (u32, 0xFFFFFFFF)])
               (ACons (fixed u8) CNone (ACons (fixed i8) CNone ANil))) CNone FNil).

Definition stale : fields :=
  FCons "n" (fixed u8) CNone (FCons "xs" (FVar (TScalar u8) (LenField "n") None) CNone
  (FCons "o" (FMaybe (fixed u8) bit0 ["n"]) CNone FNil)).

Definition short_len (s : sty) : fields :=
  FCons "n" (FFixed (TScalar s) 1) CNone
  (FCons "xs" (FVar (TScalar u8) (LenField "n") None) CNone FNil).

Definition verified_len : fields :=
  FCons "n" (FFixed (TScalar u16) 1) CNone (FCons "flags" (fixed u8) CNone
  (FCons "xs" (FMaybe (FVar (TScalar u8) (LenField "n") None) bit0 ["flags"]) CNone FNil)).

Definition slot16 (n : nat) : fields := FCons "a" (FFixed (TScalar u16) n) CNone FNil.

Definition bounded (b : Z) : fields :=
  FCons "n" (fixed u8) CNone (FCons "xs" (FVar (TScalar u8) (LenField "n") (Some b)) CNone FNil).

Definition wide_eq : fields := FCons "v" (fixed u64) (CCmp OEq i32 5) FNil.

Definition name_eq : fields := FCons "s" (FFixed (TFixStr 3) 4) (CStr false [97; 0; 98; 0]) FNil.

Definition neg_case : fields :=
  FCons "d" (fixed i8) CNone
  (FCons "u" (FUnion (GField "d" i8 [(i32, -1)]) (ACons (fixed u8) CNone ANil)) CNone FNil).

Definition packed_frame : list Z * list val :=
  ([3; 0; 2; 1; 7; 3; 0; 1; 0; 2; 3; 4; 5; 6; 7; 0; 2; 3; 8; 9; 9; 0; 1; 1], emitted be64 frame frame_val).
