(** * The project's own test suite, evaluated on the model

    Everything here is a test of the model, not a proof about it: the schemas, inputs and
    expectations of /repo/test are transcribed and evaluated.  A test that reads or
    writes at compile time runs on [memstream] with the byte-by-byte path ([cx]); one that
    runs on a [std::stringstream] runs on a plain sequence of bytes.  Left out: checks
    about C++ type identity. *)
From Verif Require Export Examples Static.
From Coq Require Import Ascii.

(** Schemas as lists; objects by naming the fields assigned. *)
Fixpoint fl (l : list (ident * fty * constr)) : fields :=
  match l with [] => FNil | (id, t, k) :: l' => FCons id t k (fl l') end.
Fixpoint al (l : list (fty * constr)) : alts :=
  match l with [] => ANil | (t, k) :: l' => ACons t k (al l') end.

Definition obj (fs : fields) (kvs : list (ident * val)) : list val :=
  map snd (fold_left (fun e kv => update e (fst kv) (snd kv)) kvs (mk_env fs (default_fields fs))).

Definition chars (s : string) : list Z := map (fun c => Z.of_nat (nat_of_ascii c)) (list_ascii_of_string s).
Definition seqz (l : list Z) : val := VSeq (map VZ l).
Definition recz (l : list Z) : val := VRec (map VZ l).
Definition str0 (s : string) : val := seqz (chars s ++ [0]).

(** Little-endian and big-endian encodings of 32-bit words. *)
Definition w32 (z : Z) : list Z := le_enc 4 z.
Definition w32be (z : Z) : list Z := rev (le_enc 4 z).
Definition w16 (z : Z) : list Z := le_enc 2 z.
Definition w16be (z : Z) : list Z := rev (le_enc 2 z).
Definition w64 (z : Z) : list Z := le_enc 8 z.

Definition ct (w : endian) : cfg := mkCfg Little w true 8 16777216.

Definition read_with (c : cfg) (fs : fields) (bs : list Z) :=
  if c_cx c
  then fst (fst (rrun (memstream 8 0) grant (struct_cast c fs) (mkMst bs 0 0 false)))
  else fst (rmem (struct_cast c fs) bs).

(** [write_ct]: what the call reports, and the buffer of the [memstream<n>]. *)
Definition write_ct (w : endian) (fs : fields) (vs : list val) (n : nat) :=
  let '(r, s, _) := wrun mem_ostream (stream_cast (ct w) fs vs) (mkMst (repeat 0 n) 0 0 false) in
  (r, m_buf s).
Definition write_with (c : cfg) (fs : fields) (vs : list val) := wmem (stream_cast c fs vs).

(** Written, then read: the object read back. *)
Definition trip (c : cfg) (fs : fields) (vs : list val) :=
  match wmem (stream_cast c fs vs) with
  | (Ok _, bs) => Some (fst (rmem (struct_cast c fs) bs))
  | _ => None
  end.

Definition zs (vs : list val) : list Z := map (fun v => match v with VZ z => z | _ => 0 end) vs.
Definition p1 (f : Z -> bool) (vs : list val) : bool := match zs vs with [a] => f a | _ => false end.
Definition p2 {A} (d : A) (f : Z -> Z -> A) (vs : list val) : A :=
  match zs vs with [a; b] => f a b | _ => d end.
Definition add32 (a b : Z) : Z := (a + b) mod 2 ^ 32.
Definition mul32 (a b : Z) : Z := (a * b) mod 2 ^ 32.

Definition D : Z := 0xdeadbeef.
Definition C : Z := 0xcafed00d.
Definition b32 (id : string) : ident * fty * constr := (id, fixed u32, CNone).
Definition vec (s : sty) (len : ident) : fty := FVar (TScalar s) (LenField len) None.
Definition ch := SInt 1 false.

(** ** schema/trivial_read.cpp, trivial_read_ct.cpp, trivial_write.cpp, trivial_write_ct.cpp,
    internals/harness_ct.cpp *)
Definition two := fl [b32 "a"; b32 "b"].
Definition two_bytes := [0xef; 0xbe; 0xad; 0xde; 0x0d; 0xd0; 0xfe; 0xca].

Example trivial_reads :
  map (fun c => read_with c two two_bytes) [le64; ct Little] = repeat (Ok [VZ D; VZ C]) 2 /\
  map (fun c => read_with c two two_bytes) [be64; ct Big] =
    repeat (Ok [VZ 0xefbeadde; VZ 0x0dd0feca]) 2 /\
  map (fun c => read_with c two (removelast two_bytes)) [le64; ct Little; be64; ct Big] =
    repeat (Err (BufferExhaustion, "b")) 4.
Proof. vm_compute. auto. Qed.

Example trivial_validation :
  let s := fl [("a", fixed u32, CCmp OEq u32 D); ("b", fixed u32, CCmp OEq u32 C)] in
  map (fun c => read_with c s (w32 D ++ w32 D)) [le64; ct Little] =
    repeat (Err (ValidationFailure, "b")) 2 /\
  read_with le64 s two_bytes = Ok [VZ D; VZ C].
Proof. vm_compute. auto. Qed.

Example trivial_writes :
  write_with le64 two [VZ D; VZ C] = (Ok tt, two_bytes) /\
  write_with be64 two [VZ D; VZ C] = (Ok tt, [0xde; 0xad; 0xbe; 0xef; 0xca; 0xfe; 0xd0; 0x0d]) /\
  write_ct Little two [VZ D; VZ C] 8 = (Ok tt, two_bytes) /\
  write_ct Big two [VZ D; VZ C] 8 = (Ok tt, w32be D ++ w32be C) /\
  fst (write_ct Little two [VZ D; VZ C] 7) = Err (BufferExhaustion, "b") /\
  trip le64 two [VZ D; VZ C] = Some (Ok [VZ D; VZ C]) /\
  trip be64 two [VZ D; VZ C] = Some (Ok [VZ D; VZ C]).
Proof. vm_compute. intuition. Qed.

Example harness :
  let s := fl [("first", fixed u8, CNone); ("second", fixed u8, CNone); ("third", fixed u8, CNone)] in
  read_with (ct Little) s [11; 22; 33] = Ok (map VZ [11; 22; 33]) /\
  write_ct Little s (map VZ [11; 22; 33]) 3 = (Ok tt, [11; 22; 33]).
Proof. vm_compute. auto. Qed.

(** ** schema/fixed_buffer_read.cpp, fixed_buffer_read_ct.cpp, fixed_buffer_write.cpp *)
Definition bufs := fl [("arr", FFixed (TArr 3 (TScalar u16)) 6, CNone);
  ("carr", FFixed (TArr 2 (TScalar u16)) 4, CNone); ("str", FFixed (TFixStr 4) 5, CNone);
  ("cstr", FFixed (TArr 4 (TScalar ch)) 4, CNone)].
Definition bufs_val := [seqz [0x1111; 0x2222; 0x3333]; seqz [0x4444; 0x5555]; str0 "abcd"; str0 "xyz"].
Definition bufs_bytes := flat_map w16 [0x1111; 0x2222; 0x3333; 0x4444; 0x5555] ++
  chars "abcd" ++ [0] ++ chars "xyz" ++ [0].

Example fixed_buffers :
  map (fun c => read_with c bufs bufs_bytes) [le64; ct Little; be64; ct Big] = repeat (Ok bufs_val) 4 /\
  write_with le64 bufs bufs_val = (Ok tt, bufs_bytes) /\
  write_ct Little bufs bufs_val 19 = (Ok tt, bufs_bytes).
Proof. vm_compute. auto. Qed.

Definition arr_str := fl [("arr", FFixed (TArr 3 (TScalar u16)) 6, CNone);
                          ("str", FFixed (TFixStr 4) 5, CNone)].
Definition nest := fl [("arr", FFixed (TArr 4 (TArr 2 (TScalar u16))) 16, CNone)].
Definition nest_val := [VSeq [seqz [0x1122; 0x3344]; seqz [0x5566; 0x7788]; seqz [0x99aa; 0xbbcc];
                              seqz [0xddee; 0xff00]]].
Definition name_tail := fl [("name", FFixed (TFixStr 4) 5, CNone); ("tail", fixed u16, CNone)].

Example fixed_buffers_be :
  let bs := [0x11; 0x22; 0x33; 0x44; 0x55; 0x66] ++ chars "abcd" ++ [0] in
  let v := [seqz [0x1122; 0x3344; 0x5566]; str0 "abcd"] in
  map (fun c => read_with c arr_str bs) [be64; ct Big] = repeat (Ok v) 2 /\
  write_with be64 arr_str v = (Ok tt, bs) /\
  write_with le64 arr_str v = (Ok tt, [0x22; 0x11; 0x44; 0x33; 0x66; 0x55] ++ chars "abcd" ++ [0]).
Proof. vm_compute. auto. Qed.

Example nested_arrays :
  let bs := flat_map w16be [0x1122; 0x3344; 0x5566; 0x7788; 0x99aa; 0xbbcc; 0xddee; 0xff00] in
  map (fun c => read_with c nest bs) [be64; ct Big] = repeat (Ok nest_val) 2 /\
  write_with be64 nest nest_val = (Ok tt, bs) /\ write_ct Big nest nest_val 16 = (Ok tt, bs).
Proof. vm_compute. auto. Qed.

Example fixed_string_then_tail :
  map (fun c => read_with c name_tail (chars "abcd" ++ [0; 0x34; 0x12])) [le64; ct Little] =
    repeat (Ok [str0 "abcd"; VZ 0x1234]) 2 /\
  map (fun c => read_with c name_tail (chars "abcd")) [le64; ct Little] =
    repeat (Err (BufferExhaustion, "name")) 2.
Proof. vm_compute. auto. Qed.

(** ** schema/magic_read.cpp, magic_read_ct.cpp, magic_write.cpp *)
Definition gif := chars "GIF" ++ [0].
Definition magics := fl [
  ("magic_str", FFixed (TFixStr 3) 4, CStr false gif);
  ("magic_num", fixed u32, CCmp OEq u32 D);
  ("magic_arr", FFixed (TArr 4 (TScalar u8)) 4, CArr false (seqz [0xde; 0xad; 0xbe; 0xef]));
  b32 "a"].

Example magic_reads :
  let read m n := read_with (ct Little) magics (m ++ n ++ [0xde; 0xad; 0xbe; 0xef] ++ w32 7) in
  read gif (w32 D) = Ok [seqz gif; VZ D; seqz [0xde; 0xad; 0xbe; 0xef]; VZ 7] /\
  read gif (w32 C) = Err (ValidationFailure, "magic_num") /\
  read (chars "GIG" ++ [0]) (w32 D) = Err (ValidationFailure, "magic_str") /\
  read_with le64 magics (gif ++ w32 D ++ [0xde; 0xad; 0xbe; 0xee] ++ w32 7) =
    Err (ValidationFailure, "magic_arr").
Proof. vm_compute. auto. Qed.

(** An untouched object writes every pinned field. *)
Example magic_writes :
  write_with be64 magics (default_fields magics) =
    (Ok tt, gif ++ w32be D ++ [0xde; 0xad; 0xbe; 0xef] ++ w32be 0).
Proof. vm_compute. auto. Qed.

Example constraint_stops_a_write :
  let s := fl [b32 "a"; ("small", fixed u32, CCmp OLt u32 10); b32 "b"] in
  write_with le64 s [VZ D; VZ 0xbeefbeef; VZ C] = (Err (ValidationFailure, "small"), w32 D).
Proof. vm_compute. auto. Qed.

(** ** schema/constraint_read_ct.cpp, constraint_write.cpp,
    constraint_write_ct.cpp *)
Definition c1 (k : constr) := fl [("a", fixed u32, k)].
Definition admits (k : constr) (z : Z) : bool :=
  match read_with (ct Little) (c1 k) (w32 z) with Ok [VZ y] => y =? z | _ => false end.
Definition rejects (k : constr) (z : Z) : bool :=
  match read_with le64 (c1 k) (w32 z) with Err (ValidationFailure, "a") => true | _ => false end.

Example comparisons :
  forallb (fun kz => admits (fst kz) (snd kz))
    [(CCmp OEq u32 42, 42); (CCmp ONeq u32 42, 43); (CCmp OLt u32 42, 41); (CCmp OGt u32 42, 43);
     (CCmp OLte u32 42, 42); (CCmp OLte u32 42, 41); (CCmp OGte u32 42, 42); (CCmp OGte u32 42, 43);
     (CAny u32 [21; 42; 84], 21); (CAny u32 [21; 42; 84], 42); (CAny u32 [21; 42; 84], 84)] = true /\
  forallb (fun kz => rejects (fst kz) (snd kz))
    [(CCmp OEq u32 42, 43); (CCmp ONeq u32 42, 42); (CCmp OLt u32 42, 42); (CCmp OLt u32 42, 43);
     (CCmp OGt u32 42, 42); (CCmp OGt u32 42, 41); (CCmp OLte u32 42, 43); (CCmp OGte u32 42, 41);
     (CAny u32 [21; 42; 84], 22)] = true.
Proof. vm_compute. auto. Qed.

Example constraint_on_a_short_read :
  read_with (ct Little) (c1 (CCmp OEq u32 42)) [42; 0] = Err (BufferExhaustion, "a").
Proof. vm_compute. auto. Qed.

Example constraint_writes :
  write_ct Little (c1 (CCmp OEq u32 42)) (default_fields (c1 (CCmp OEq u32 42))) 4 =
    (Ok tt, [42; 0; 0; 0]) /\
  (let s := fl [b32 "lead"; ("bounded", fixed u32, CCmp OLt u32 100)] in
   write_ct Little s [VZ 0x11223344; VZ 99] 8 = (Ok tt, [0x44; 0x33; 0x22; 0x11; 99; 0; 0; 0]) /\
   write_ct Little s [VZ 0x11223344; VZ 500] 8 =
     (Err (ValidationFailure, "bounded"), [0x44; 0x33; 0x22; 0x11; 0; 0; 0; 0])).
Proof. vm_compute. auto. Qed.

(** ** schema/record_read.cpp, record_read_ct.cpp, record_write.cpp, record_write_ct.cpp *)
Definition xy := fl [b32 "x"; b32 "y"].

Example records_read :
  let s := fl [b32 "a"; b32 "b"; ("c", FStruct xy, CNone)] in
  map (fun c => read_with c s (flat_map w32 [D; C; 1; 2])) [le64; ct Little] =
    repeat (Ok [VZ D; VZ C; recz [1; 2]]) 2 /\
  map (fun c => read_with c s (flat_map w32be [D; C; 1; 2])) [be64; ct Big] =
    repeat (Ok [VZ D; VZ C; recz [1; 2]]) 2.
Proof. vm_compute. auto. Qed.

Example arrays_of_records_read :
  let s := fl [("records", FArrRec 3 xy, CNone)] in
  let s2 := fl [("records", FArrRec 2 xy, CNone)] in
  map (fun c => read_with c s (flat_map w32 [1; 2; 3; 4; 5; 6])) [le64; ct Little] =
    repeat (Ok [VSeq [recz [1; 2]; recz [3; 4]; recz [5; 6]]]) 2 /\
  map (fun c => match read_with c s2 (flat_map w32 [1; 2; 3]) with
                | Err (BufferExhaustion, _) => true | _ => false end) [le64; ct Little] = [true; true].
Proof. vm_compute. auto. Qed.

Example vectors_of_records_read :
  let s := fl [("len", fixed u64, CNone); ("records", FVecRec xy 8 (LenField "len") None, CNone)] in
  map (fun c => read_with c s (w64 3 ++ flat_map w32 [1; 2; 3; 4; 5; 6])) [le64; ct Little] =
    repeat (Ok [VZ 3; VSeq [recz [1; 2]; recz [3; 4]; recz [5; 6]]]) 2.
Proof. vm_compute. auto. Qed.

Definition pt16 := fl [("x", fixed u16, CNone); ("y", fixed u16, CNone)].
Definition route := fl [("origin", FStruct pt16, CNone); ("corners", FArrRec 2 pt16, CNone);
  ("count", fixed u16, CNone); ("path", FVecRec pt16 4 (LenField "count") None, CNone)].

Example records_written :
  let v := obj route [("origin", recz [0x1111; 0x2222]);
    ("corners", VSeq [recz [0x3333; 0x4444]; recz [0x5555; 0x6666]]);
    ("path", VSeq [recz [0x7777; 0x8888]])] in
  write_ct Big route v 18 =
    (Ok tt, [0x11; 0x11; 0x22; 0x22; 0x33; 0x33; 0x44; 0x44; 0x55; 0x55; 0x66; 0x66; 0; 1;
             0x77; 0x77; 0x88; 0x88]) /\
  write_with be64 route v = write_ct Big route v 18.
Proof. vm_compute. auto. Qed.

Example nested_constraint_written :
  let tagged := fl [("tag", fixed u32, CCmp OLt u32 100)] in
  let s := fl [b32 "lead"; ("inner", FStruct tagged, CNone)] in
  let v := fl [b32 "count"; ("items", FVecRec tagged 4 (LenField "count") None, CNone)] in
  write_with le64 s [VZ 0x11223344; recz [0xbeefbeef]] =
    (Err (ValidationFailure, "inner"), w32 0x11223344) /\
  write_with le64 v (obj v [("items", VSeq [recz [42]; recz [D]])]) =
    (Err (ValidationFailure, "items"), w32 2 ++ w32 42).
Proof. vm_compute. auto. Qed.

Example nested_lengths_per_element :
  let item := fl [b32 "n"; ("data", vec u8 "n", CNone)] in
  let s := fl [b32 "count"; ("items", FVecRec item 32 (LenField "count") None, CNone)] in
  let v := obj s [("items", VSeq [VRec [VZ 0; seqz [1; 2; 3]]; VRec [VZ 0; seqz []]; VRec [VZ 0; seqz [9]]])] in
  trip le64 s v = Some (Ok [VZ 3; VSeq [VRec [VZ 3; seqz [1; 2; 3]]; VRec [VZ 0; seqz []]; VRec [VZ 1; seqz [9]]]]).
Proof. vm_compute. auto. Qed.

Example frozen_inside_a_record :
  let s := fl [b32 "lead"; ("body", FStruct (fl [("magic", fixed u32, CCmp OEq u32 D); b32 "tail"]), CNone)] in
  write_with be64 s (obj s [("lead", VZ 0x11223344); ("body", recz [0; 0x55667788])]) =
    (Ok tt, w32be 0x11223344 ++ w32be D ++ w32be 0x55667788).
Proof. vm_compute. auto. Qed.

(** ** schema/size_axis_read.cpp, size_axis_write.cpp, size_axis_write_ct.cpp *)
Definition rows_cols := fl [b32 "rows"; b32 "cols";
  ("cells", FVar (TScalar u8) (LenComp (p2 0 mul32) ["rows"; "cols"]) None, CNone)].
Definition fanout := fl [b32 "len"; ("a", vec u16 "len", CNone); ("b", vec u32 "len", CNone)].
Definition odd_width := fl [("v", FFixed (TScalar u32) 3, CNone); ("tail", fixed u8, CNone)].

Example computed_lengths :
  read_with le64 rows_cols (w32 2 ++ w32 2 ++ [1; 2; 3; 4]) = Ok [VZ 2; VZ 2; seqz [1; 2; 3; 4]] /\
  read_with le64 rows_cols (w32 3 ++ w32 1 ++ [1; 2; 3]) = Ok [VZ 3; VZ 1; seqz [1; 2; 3]] /\
  read_with le64 rows_cols (w32 2 ++ w32 2 ++ [1; 2; 3]) = Err (BufferExhaustion, "cells") /\
  write_with le64 rows_cols [VZ 2; VZ 2; seqz [1; 2; 3]] =
    (Err (FoundContradictingLength, "cells"), w32 2 ++ w32 2) /\
  write_ct Little rows_cols [VZ 2; VZ 2; seqz [1; 2; 3; 4]] 12 =
    (Ok tt, w32 2 ++ w32 2 ++ [1; 2; 3; 4]).
Proof. vm_compute. intuition. Qed.

Example one_length_two_containers :
  read_with le64 fanout (w32 2 ++ w16 1 ++ w16 2 ++ w32 3 ++ w32 4) =
    Ok [VZ 2; seqz [1; 2]; seqz [3; 4]] /\
  write_with le64 fanout [VZ 0; seqz [1; 2]; seqz [3; 4]] =
    (Ok tt, w32 2 ++ w16 1 ++ w16 2 ++ w32 3 ++ w32 4) /\
  write_with le64 fanout [VZ 0; seqz [1; 2]; seqz [3; 4; 5]] =
    (Err (FoundContradictingLength, "len"), []).
Proof. vm_compute. auto. Qed.

Example odd_widths :
  read_with le64 odd_width [0x33; 0x22; 0x11; 0x7f] = Ok [VZ 0x112233; VZ 0x7f] /\
  read_with (ct Little) odd_width [0x33; 0x22; 0x11; 0x7f] = Ok [VZ 0x112233; VZ 0x7f] /\
  write_with le64 odd_width [VZ 0x112233; VZ 0x7f] = (Ok tt, [0x33; 0x22; 0x11; 0x7f]).
Proof. vm_compute. auto. Qed.

Definition short_len := fl [("len", FFixed (TScalar u32) 1, CNone); ("data", vec u8 "len", CNone)].

Example narrow_length_field :
  write_with le64 short_len (obj short_len [("data", seqz (repeat 7 300))]) =
    (Err (ValidationFailure, "len"), []) /\
  write_with le64 short_len (obj short_len [("data", seqz (repeat 7 255))]) =
    (Ok tt, 255 :: repeat 7 255).
Proof. vm_compute. auto. Qed.

(** ** schema/variable_buffer_read.cpp, variable_buffer_read_ct.cpp, variable_buffer_write*.cpp *)
Definition len_vec := fl [b32 "len"; ("vec", vec u16 "len", CNone)].
Definition len_str := fl [b32 "len"; ("str", vec ch "len", CNone)].

Example variable_buffers :
  map (fun c => read_with c len_vec (w32 2 ++ w16 0xaabb ++ w16 0xccdd)) [le64; ct Little] =
    repeat (Ok [VZ 2; seqz [0xaabb; 0xccdd]]) 2 /\
  map (fun c => read_with c len_vec (w32be 2 ++ w16be 0xaabb ++ w16be 0xccdd)) [be64; ct Big] =
    repeat (Ok [VZ 2; seqz [0xaabb; 0xccdd]]) 2 /\
  map (fun c => read_with c len_str (w32 5 ++ chars "hello")) [le64; ct Little] =
    repeat (Ok [VZ 5; seqz (chars "hello")]) 2 /\
  map (fun c => read_with c len_vec (w32 0)) [le64; ct Little] = repeat (Ok [VZ 0; seqz []]) 2 /\
  map (fun c => read_with c len_vec (w32 3 ++ w16 1 ++ w16 2)) [le64; ct Little] =
    repeat (Err (BufferExhaustion, "vec")) 2 /\
  write_with le64 len_vec (obj len_vec [("vec", seqz [0xaabb; 0xccdd])]) =
    (Ok tt, [2; 0; 0; 0; 0xbb; 0xaa; 0xdd; 0xcc]) /\
  write_ct Big len_vec (obj len_vec [("vec", seqz [0xaabb; 0xccdd])]) 8 =
    (Ok tt, [0; 0; 0; 2; 0xaa; 0xbb; 0xcc; 0xdd]).
Proof. vm_compute. intuition. Qed.

Example absurd_length :
  let s := fl [("n", fixed u64, CNone); ("v", vec u64 "n", CNone)] in
  read_with le64 s (w64 (2 ^ 61)) = Err (ExcessiveLength, "v").
Proof. vm_compute. auto. Qed.

(** ** schema/allocation_bound_*.cpp *)
Definition bounded (s : sty) (b : option Z) :=
  fl [b32 "n"; ("v", FVar (TScalar s) (LenField "n") b, CNone)].
Definition with_default (d : Z) := mkCfg Little Little true 8 d.

Example declared_ceilings :
  read_with (ct Little) (bounded u16 (Some 8)) (w32 2 ++ w16 1 ++ w16 2) = Ok [VZ 2; seqz [1; 2]] /\
  read_with (ct Little) (bounded u16 (Some 8)) (w32 4 ++ flat_map w16 [1; 2; 3; 4]) =
    Ok [VZ 4; seqz [1; 2; 3; 4]] /\
  read_with (ct Little) (bounded u16 (Some 8)) (w32 5 ++ flat_map w16 [1; 2; 3; 4; 5]) =
    Err (ExcessiveLength, "v") /\
  read_with (ct Little) (bounded ch (Some 4)) (w32 5 ++ chars "abcde") = Err (ExcessiveLength, "v") /\
  read_with (ct Little) (bounded u32 (Some 10)) (w32 2 ++ w32 1 ++ w32 2) = Ok [VZ 2; seqz [1; 2]] /\
  read_with (ct Little) (bounded u32 (Some 10)) (w32 3 ++ w32 1 ++ w32 2 ++ w32 3) =
    Err (ExcessiveLength, "v") /\
  read_with (ct Little) (bounded u16 None) (w32 0x01000000) = Err (ExcessiveLength, "v").
Proof. vm_compute. intuition. Qed.

Example record_ceiling :
  let s := fl [b32 "n"; ("v", FVecRec xy 8 (LenField "n") (Some 64), CNone)] in
  read_with (ct Little) s (w32 1 ++ w32 5 ++ w32 6) = Ok [VZ 1; VSeq [recz [5; 6]]] /\
  read_with (ct Little) s (w32 0xffff) = Err (ExcessiveLength, "v").
Proof. vm_compute. auto. Qed.

Example default_ceilings :
  read_with (with_default 64) (bounded u8 None) (w32 100 ++ repeat 0 100) = Err (ExcessiveLength, "v") /\
  read_with (with_default 64) (bounded u8 (Some 128)) (w32 100 ++ repeat 1 100) =
    Ok [VZ 100; seqz (repeat 1 100)] /\
  read_with (with_default 64) (bounded u8 (Some 16)) (w32 20 ++ repeat 0 20) = Err (ExcessiveLength, "v") /\
  read_with (with_default (2 ^ 64 - 1)) (bounded u8 None) (w32 100) = Err (BufferExhaustion, "v") /\
  read_with (with_default (2 ^ 64 - 1)) (bounded u8 (Some 16)) (w32 20) = Err (ExcessiveLength, "v").
Proof. vm_compute. auto. Qed.

(** ** schema/optional_read.cpp, optional_read_ct.cpp *)
Definition is_D : list val -> bool := p1 (Z.eqb D).
Definition maybe_of (t : fty) : fty := FMaybe t is_D ["a"].
Definition opt_schema (t : fty) := fl [b32 "a"; ("b", maybe_of t, CNone)].

Example optionals_read :
  let both s bs := map (fun c => read_with c s bs) [le64; ct Little] in
  let arr := FFixed (TArr 4 (TScalar u32)) 16 in
  both (opt_schema (fixed u32)) (w32 D ++ w32 C) = repeat (Ok [VZ D; VSome (VZ C)]) 2 /\
  both (opt_schema (fixed u32)) (w32 C ++ w32 C) = repeat (Ok [VZ C; VNone]) 2 /\
  both (opt_schema (fixed u32)) (w32 D) = repeat (Err (BufferExhaustion, "b")) 2 /\
  both (opt_schema (FStruct xy)) (flat_map w32 [D; 1; 2]) = repeat (Ok [VZ D; VSome (recz [1; 2])]) 2 /\
  both (opt_schema arr) (flat_map w32 [D; 1; 2; 3; 4]) = repeat (Ok [VZ D; VSome (seqz [1; 2; 3; 4])]) 2 /\
  both (opt_schema (FFixed (TFixStr 4) 5)) (w32 D ++ chars "abcd" ++ [0]) =
    repeat (Ok [VZ D; VSome (str0 "abcd")]) 2 /\
  both (opt_schema (FArrRec 2 xy)) (flat_map w32 [D; 1; 2; 3; 4]) =
    repeat (Ok [VZ D; VSome (VSeq [recz [1; 2]; recz [3; 4]])]) 2.
Proof. vm_compute. intuition. Qed.

Example optional_containers_read :
  let s t := fl [b32 "a"; ("len", fixed u64, CNone); ("b", maybe_of t, CNone)] in
  let both s bs := map (fun c => read_with c s bs) [le64; ct Little] in
  both (s (vec u32 "len")) (w32 D ++ w64 3 ++ flat_map w32 [1; 2; 3]) =
    repeat (Ok [VZ D; VZ 3; VSome (seqz [1; 2; 3])]) 2 /\
  both (s (vec ch "len")) (w32 D ++ w64 5 ++ chars "hello") =
    repeat (Ok [VZ D; VZ 5; VSome (seqz (chars "hello"))]) 2 /\
  both (s (FVecRec xy 8 (LenField "len") None)) (w32 D ++ w64 1 ++ flat_map w32 [1; 2]) =
    repeat (Ok [VZ D; VZ 1; VSome (VSeq [recz [1; 2]])]) 2 /\
  both (s (vec u32 "len")) (w32 C ++ w64 3) = repeat (Ok [VZ C; VZ 3; VNone]) 2.
Proof. vm_compute. auto. Qed.

(** Absent: its bytes are left for the next field.  [always_present] names no field. *)
Example optional_then_tail :
  let s := fl [b32 "a"; ("payload", maybe_of (fixed u32), CNone); ("tail", fixed u16, CNone)] in
  let ap := fl [b32 "a"; ("b", FMaybe (fixed u32) (fun _ => true) [], CNone)] in
  read_with (ct Little) s (w32 7 ++ w16 0x1234) = Ok [VZ 7; VNone; VZ 0x1234] /\
  read_with (ct Little) s (w32 D ++ w32 8 ++ w16 0x1234) = Ok [VZ D; VSome (VZ 8); VZ 0x1234] /\
  read_with le64 ap (w32 7 ++ w32 8) = Ok [VZ 7; VSome (VZ 8)] /\
  trip le64 ap [VZ 7; VSome (VZ 8)] = Some (Ok [VZ 7; VSome (VZ 8)]).
Proof. vm_compute. auto. Qed.

(** ** schema/optional_write.cpp, optional_write_ct.cpp *)
Definition flagged (t : fty) : fty := FMaybe t is_D ["flag"].
Definition o_schema := fl [b32 "flag"; ("payload", flagged (fixed u32), CNone)].
Definition o_len := fl [b32 "flag"; b32 "len"; ("data", flagged (vec u16 "len"), CNone)].
Definition o_mixed := fl [b32 "flag"; b32 "len"; ("always", vec u8 "len", CNone);
                          ("sometimes", flagged (vec u8 "len"), CNone)].

Example optionals_written :
  let v := obj o_schema [("flag", VZ D); ("payload", VSome (VZ C))] in
  trip le64 o_schema v = Some (Ok v) /\ trip be64 o_schema v = Some (Ok v) /\
  write_with le64 o_schema [VZ 0x11223344; VNone] = (Ok tt, [0x44; 0x33; 0x22; 0x11]) /\
  write_with le64 o_schema [VZ D; VNone] = (Err (ValidationFailure, "payload"), w32 D) /\
  write_with le64 o_schema [VZ 0x11223344; VSome (VZ C)] =
    (Err (ValidationFailure, "payload"), w32 0x11223344) /\
  write_ct Little o_schema [VZ D; VNone] 8 = (Err (ValidationFailure, "payload"), w32 D ++ [0; 0; 0; 0]).
Proof. vm_compute. intuition. Qed.

Example conditional_length_written :
  let v n := obj o_len [("flag", VZ D); ("len", VZ n); ("data", VSome (seqz [0x1122; 0x3344; 0x5566]))] in
  trip be64 o_len (v 3) = Some (Ok (v 3)) /\
  write_with le64 o_len (v 7) = (Err (FoundContradictingLength, "len"), w32 D) /\
  write_with be64 o_len [VZ 0x11223344; VZ 7; VNone] =
    (Ok tt, [0x11; 0x22; 0x33; 0x44; 0; 0; 0; 7]).
Proof. vm_compute. auto. Qed.

Example mixed_length_written :
  let v f l a s := [VZ f; VZ l; seqz a; s] in
  trip be64 o_mixed (v D 0 [1; 2; 3] (VSome (seqz [4; 5; 6]))) =
    Some (Ok (v D 3 [1; 2; 3] (VSome (seqz [4; 5; 6])))) /\
  write_with le64 o_mixed (v D 0 [1; 2; 3] (VSome (seqz [4; 5]))) =
    (Err (FoundContradictingLength, "len"), w32 D) /\
  trip be64 o_mixed (v 0x11223344 0 [1; 2; 3] VNone) = Some (Ok (v 0x11223344 3 [1; 2; 3] VNone)).
Proof. vm_compute. auto. Qed.

Example optional_accessors :
  op_index false o_schema "flag" = MutableRef /\ op_index false o_len "len" = MutableRef /\
  op_index false o_mixed "len" = NoOverload.
Proof. vm_compute. auto. Qed.

(** ** schema/union_read.cpp, union_read_ct.cpp *)
Definition pq := fl [b32 "p"; b32 "q"].
Definition switch_on (id : ident) (l : list (Z * fty)) : fty :=
  FUnion (GField id u32 (map (fun e => (u32, fst e)) l)) (al (map (fun e => (snd e, CNone)) l)).
Definition u_switch := fl [b32 "a"; b32 "b"; ("c", switch_on "a" [(C, FStruct xy); (D, FStruct pq)], CNone)].

Example unions_read :
  let both bs := map (fun c => read_with c u_switch bs) [le64; ct Little] in
  both (flat_map w32 [D; 5; 6; 7]) = repeat (Ok [VZ D; VZ 5; VAlt 1 (recz [6; 7])]) 2 /\
  both (flat_map w32 [C; 5; 6; 7]) = repeat (Ok [VZ C; VZ 5; VAlt 0 (recz [6; 7])]) 2 /\
  both (flat_map w32 [1; 5; 6; 7]) = repeat (Err (TypeDeductionFailure, "c")) 2 /\
  both (flat_map w32 [D; 5; 6]) = repeat (Err (BufferExhaustion, "c")) 2 /\
  read_with be64 u_switch (flat_map w32be [D; 5; 6; 7]) = Ok [VZ D; VZ 5; VAlt 1 (recz [6; 7])].
Proof. vm_compute. auto. Qed.

Definition sums := fl [b32 "a"; b32 "b";
  ("c", FUnion (GComp (p2 0 add32) u32 ["a"; "b"] [(i32, 100); (i32, 200); (i32, 300)])
          (al [(fixed u32, CNone); (fixed u16, CNone); (FStruct xy, CNone)]), CNone)].

Example computed_switch_read :
  read_with le64 sums (w32 50 ++ w32 50 ++ w32 7) = Ok [VZ 50; VZ 50; VAlt 0 (VZ 7)] /\
  read_with le64 sums (w32 150 ++ w32 50 ++ w16 7) = Ok [VZ 150; VZ 50; VAlt 1 (VZ 7)] /\
  read_with le64 sums (flat_map w32 [150; 150; 1; 2]) = Ok [VZ 150; VZ 150; VAlt 2 (recz [1; 2])] /\
  read_with le64 sums (w32 1 ++ w32 50) = Err (TypeDeductionFailure, "c").
Proof. vm_compute. auto. Qed.

Definition band (lo hi : Z) : list val -> bool := p2 false (fun a b => (lo <=? add32 a b) && (add32 a b <? hi)).
Definition bands := fl [b32 "a"; b32 "b";
  ("c", FUnion (GLadder [(band 20000 40000, ["a"; "b"]); (band 40000 60000, ["a"; "b"])])
          (al [(fixed u32, CNone); (FStruct xy, CNone)]), CNone)].

Example ladder_read :
  map (fun c => read_with c bands (flat_map w32 [10000; 10000; 9])) [le64; ct Little] =
    repeat (Ok [VZ 10000; VZ 10000; VAlt 0 (VZ 9)]) 2 /\
  map (fun c => read_with c bands (flat_map w32 [20000; 20000; 8; 9])) [le64; ct Little] =
    repeat (Ok [VZ 20000; VZ 20000; VAlt 1 (recz [8; 9])]) 2 /\
  map (fun c => read_with c bands (flat_map w32 [1; 1; 8; 9])) [le64; ct Little] =
    repeat (Err (TypeDeductionFailure, "c")) 2.
Proof. vm_compute. auto. Qed.

(** With [float] alternatives; 0x4048F5C3 is [3.14f]. *)
Definition f32 : fty := FFixed (TFloat 4) 4.
Definition float_switch := fl [b32 "a"; b32 "b"; ("len", fixed u32, CNone);
  ("c", switch_on "a" [(C, f32); (D, vec u32 "len"); (0xbeefbeef, fixed i32)], CNone)].
Definition float_bands := fl [b32 "a"; b32 "b";
  ("c", FUnion (GLadder [(band 20000 40000, ["a"; "b"]);
                         (p2 false (fun a b => (add32 a b <=? 40000) && (add32 a b <? 60000)), ["a"; "b"]);
                         (p2 false (fun a b => 60000 <=? add32 a b), ["a"; "b"])])
          (al [(f32, CNone); (fixed u32, CNone); (fixed i32, CNone)]), CNone)].
Definition two_bands := fl [b32 "a"; b32 "b";
  ("c", FUnion (GLadder [(band 20000 40000, ["a"; "b"]);
                         (p2 false (fun a b => (add32 a b <=? 40000) && (add32 a b <? 60000)), ["a"; "b"])])
          (al [(f32, CNone); (fixed u32, CNone)]), CNone)].

Example float_alternatives_read :
  read_with le64 float_bands (flat_map w32 [12000; 12000; 0x4048F5C3]) =
    Ok [VZ 12000; VZ 12000; VAlt 0 (VF 4 0x4048F5C3)] /\
  read_with le64 two_bands (flat_map w32 [50000; 50000; 0x4048F5C3]) =
    Err (TypeDeductionFailure, "c") /\
  read_with le64 float_switch (flat_map w32 [C; 1; 2; 0x4048F5C3]) =
    Ok [VZ C; VZ 1; VZ 2; VAlt 0 (VF 4 0x4048F5C3)] /\
  read_with le64 float_switch (flat_map w32 [D; 1; 2; 5; 6]) =
    Ok [VZ D; VZ 1; VZ 2; VAlt 1 (VSeq [VZ 5; VZ 6])].
Proof. vm_compute. auto. Qed.

Example container_alternatives_read :
  let s := fl [b32 "tag"; b32 "n";
    ("body", switch_on "tag" [(C, FArrRec 2 xy); (D, FVecRec xy 8 (LenField "n") None)], CNone)] in
  map (fun c => read_with c s (flat_map w32 [C; 0; 1; 2; 3; 4])) [le64; ct Little] =
    repeat (Ok [VZ C; VZ 0; VAlt 0 (VSeq [recz [1; 2]; recz [3; 4]])]) 2 /\
  map (fun c => read_with c s (flat_map w32 [D; 1; 1; 2])) [le64; ct Little] =
    repeat (Ok [VZ D; VZ 1; VAlt 1 (VSeq [recz [1; 2]])]) 2.
Proof. vm_compute. auto. Qed.

(** ** schema/union_write.cpp, union_write_ct.cpp *)
Definition w_switch := fl [b32 "tag"; ("body", switch_on "tag" [(C, FStruct xy); (D, FStruct pq)], CNone)].
Definition w_alts := al [(fixed u32, CNone); (fixed i32, CNone)].
Definition w_computed := fl [b32 "a"; b32 "b";
  ("body", FUnion (GComp (p2 0 add32) u32 ["a"; "b"] [(i32, 100); (i32, 200)]) w_alts, CNone)].
Definition w_ladder := fl [b32 "a"; b32 "b";
  ("body", FUnion (GLadder [(p2 false (fun a b => add32 a b <? 100), ["a"; "b"]);
                            (p2 false (fun a b => 100 <=? add32 a b), ["a"; "b"])]) w_alts, CNone)].
Definition w_never := fl [b32 "a"; b32 "b";
  ("body", FUnion (GLadder [(p2 false (fun a b => add32 a b =? 0xffffffff), ["a"; "b"])])
             (al [(fixed u32, CNone)]), CNone)].

Example discriminant_derived :
  write_with be64 w_switch (obj w_switch [("body", VAlt 1 (recz [0x11223344; 0x55667788]))]) =
    (Ok tt, [0xde; 0xad; 0xbe; 0xef; 0x11; 0x22; 0x33; 0x44; 0x55; 0x66; 0x77; 0x88]) /\
  (forall c, In c [le64; be64] ->
   trip c w_switch (obj w_switch [("body", VAlt 1 (recz [D; C]))]) = Some (Ok [VZ D; VAlt 1 (recz [D; C])]) /\
   trip c w_switch (obj w_switch [("body", VAlt 0 (recz [0x1111; 0x2222]))]) =
     Some (Ok [VZ C; VAlt 0 (recz [0x1111; 0x2222])])).
Proof. split; [|intros c [<-|[<-|[]]]]; vm_compute; auto. Qed.

Example ladder_written :
  let v i z := [VZ 10; VZ 20; VAlt i (VZ z)] in
  trip le64 w_ladder (v 0%nat D) = Some (Ok (v 0%nat D)) /\
  write_with le64 w_ladder (v 1%nat (-1)) = (Err (ValidationFailure, "body"), w32 10 ++ w32 20).
Proof. vm_compute. auto. Qed.

Example computed_switch_written :
  let v i z := [VZ 50; VZ 50; VAlt i (VZ z)] in
  trip le64 w_computed (v 0%nat C) = Some (Ok (v 0%nat C)) /\
  fst (write_with le64 w_computed (v 1%nat (-1))) = Err (ValidationFailure, "body") /\
  fst (write_with le64 w_never [VZ 1; VZ 1; VAlt 0 (VZ 7)]) = Err (TypeDeductionFailure, "body") /\
  map (op_index false w_ladder) ["a"; "b"] = [MutableRef; MutableRef].
Proof. vm_compute. auto. Qed.

Definition w_len := fl [b32 "tag"; b32 "len";
  ("body", switch_on "tag" [(C, vec u8 "len"); (D, fixed u32)], CNone)].

(** The comment at union_write_ct.cpp:131-145 says that such a length cannot be set; the
    test at union_write.cpp sets it. *)
Example length_of_an_alternative :
  let v n := obj w_len [("len", VZ n); ("body", VAlt 0 (seqz [1; 2; 3]))] in
  op_index false w_len "len" = MutableRef /\ op_index false w_len "tag" = ConstRef /\
  trip be64 w_len (v 3) = Some (Ok [VZ C; VZ 3; VAlt 0 (seqz [1; 2; 3])]) /\
  fst (write_with le64 w_len (v 9)) = Err (FoundContradictingLength, "len") /\
  write_with be64 w_len (obj w_len [("len", VZ 9); ("body", VAlt 1 (VZ 0x11223344))]) =
    (Ok tt, [0xde; 0xad; 0xbe; 0xef; 0; 0; 0; 9; 0x11; 0x22; 0x33; 0x44]).
Proof. vm_compute. intuition. Qed.

Example union_written_ct :
  let x16 := fl [("x", fixed u16, CNone)] in
  let s := fl [b32 "tag"; ("body", switch_on "tag" [(C, FStruct x16); (D, FStruct x16)], CNone)] in
  let r := fl [b32 "tag"; ("body", switch_on "tag" [(C, FArrRec 2 x16)], CNone)] in
  write_ct Big s (obj s [("body", VAlt 1 (recz [0x1122]))]) 6 =
    (Ok tt, [0xde; 0xad; 0xbe; 0xef; 0x11; 0x22]) /\
  write_ct Little r (obj r [("body", VAlt 0 (VSeq [recz [0x1111]; recz [0x2222]]))]) 8 =
    (Ok tt, w32 C ++ w16 0x1111 ++ w16 0x2222).
Proof. vm_compute. auto. Qed.

(** ** schema/union_constraint_*.cpp, union_alternative_options_*.cpp *)
Definition even_body (v : val) : bool := match v with VAlt _ (VZ z) => Z.even z | _ => false end.
Definition even_length (v : val) : bool := match v with VSeq l => Nat.even (length l) | _ => false end.
Definition tags (n : Z) : guide := GField "tag" u32 (map (fun i => (i32, Z.of_nat i)) (seq 1 (Z.to_nat n))).

Definition uc := fl [b32 "tag"; ("body", FUnion (tags 2) (al [(fixed u32, CNone); (fixed u16, CNone)]), CFun even_body)].

Example union_constraint :
  (forall c, In c [le64; ct Little] ->
   read_with c uc (w32 1 ++ w32 42) = Ok [VZ 1; VAlt 0 (VZ 42)] /\
   read_with c uc (w32 1 ++ w32 43) = Err (ValidationFailure, "body") /\
   read_with c uc (w32 2 ++ w16 200) = Ok [VZ 2; VAlt 1 (VZ 200)] /\
   read_with c uc (w32 2 ++ w16 201) = Err (ValidationFailure, "body")) /\
  write_with le64 uc (obj uc [("body", VAlt 0 (VZ 42))]) = (Ok tt, w32 1 ++ w32 42) /\
  write_with le64 uc (obj uc [("body", VAlt 0 (VZ 43))]) = (Err (ValidationFailure, "body"), w32 1) /\
  write_with le64 uc (obj uc [("body", VAlt 1 (VZ 201))]) = (Err (ValidationFailure, "body"), w32 2).
Proof. split; [intros c [<-|[<-|[]]]; vm_compute; auto|]. vm_compute. auto. Qed.

Definition tnb (al : alts) (n : Z) := fl [b32 "tag"; b32 "n"; ("body", FUnion (tags n) al, CNone)].
Definition ao_plain := tnb (al [(fixed u32, CNone); (vec u8 "n", CNone)]) 2.
Definition ao_constrained := tnb (al [(fixed u32, CCmp OLte u32 99); (vec u8 "n", CFun even_length);
                                      (fixed u16, CNone)]) 3.
Definition ao_bounded := tnb (al [(FVar (TScalar u16) (LenField "n") (Some 8), CNone);
  (vec u8 "n", CNone); (FVar (TScalar ch) (LenField "n") (Some 4), CNone);
  (FVecRec xy 8 (LenField "n") (Some 64), CNone); (FVar (TScalar u32) (LenField "n") (Some 10), CNone)]) 5.
Definition ao_both := fl [b32 "tag"; ("body",
  FUnion (tags 2) (al [(fixed u32, CCmp OLte u32 99); (fixed u16, CNone)]), CFun even_body)].

Example alternative_options_read :
  forall c, In c [le64; ct Little] ->
  read_with c ao_plain (w32 1 ++ w32 0 ++ w32 42) = Ok [VZ 1; VZ 0; VAlt 0 (VZ 42)] /\
  read_with c ao_plain (w32 2 ++ w32 3 ++ [0xaa; 0xbb; 0xcc]) = Ok [VZ 2; VZ 3; VAlt 1 (seqz [0xaa; 0xbb; 0xcc])] /\
  read_with c ao_constrained (w32 1 ++ w32 0 ++ w32 42) = Ok [VZ 1; VZ 0; VAlt 0 (VZ 42)] /\
  read_with c ao_constrained (w32 1 ++ w32 0 ++ w32 200) = Err (ValidationFailure, "body") /\
  read_with c ao_constrained (w32 3 ++ w32 0 ++ w16 200) = Ok [VZ 3; VZ 0; VAlt 2 (VZ 200)] /\
  read_with c ao_constrained (w32 2 ++ w32 3 ++ [0xaa; 0xbb; 0xcc]) = Err (ValidationFailure, "body") /\
  read_with c ao_constrained (w32 2 ++ w32 4 ++ [0xaa; 0xbb; 0xcc; 0xdd]) =
    Ok [VZ 2; VZ 4; VAlt 1 (seqz [0xaa; 0xbb; 0xcc; 0xdd])].
Proof. intros c [<-|[<-|[]]]; vm_compute; intuition. Qed.

Example alternative_bounds_read :
  forall c, In c [le64; ct Little] ->
  read_with c ao_bounded (w32 1 ++ w32 2 ++ w16 1 ++ w16 2) = Ok [VZ 1; VZ 2; VAlt 0 (seqz [1; 2])] /\
  read_with c ao_bounded (w32 1 ++ w32 4 ++ flat_map w16 [1; 2; 3; 4]) =
    Ok [VZ 1; VZ 4; VAlt 0 (seqz [1; 2; 3; 4])] /\
  read_with c ao_bounded (w32 1 ++ w32 5 ++ flat_map w16 [1; 2; 3; 4; 5]) = Err (ExcessiveLength, "body") /\
  read_with c ao_bounded (w32 2 ++ w32 0x01000001) = Err (ExcessiveLength, "body") /\
  read_with c ao_bounded (w32 3 ++ w32 5 ++ chars "hello") = Err (ExcessiveLength, "body") /\
  read_with c ao_bounded (w32 4 ++ w32 1 ++ w32 5 ++ w32 6) = Ok [VZ 4; VZ 1; VAlt 3 (VSeq [recz [5; 6]])] /\
  read_with c ao_bounded (w32 4 ++ w32 0xffff) = Err (ExcessiveLength, "body") /\
  read_with c ao_bounded (w32 5 ++ w32 2 ++ w32 1 ++ w32 2) = Ok [VZ 5; VZ 2; VAlt 4 (seqz [1; 2])] /\
  read_with c ao_bounded (w32 5 ++ w32 3 ++ flat_map w32 [1; 2; 3]) = Err (ExcessiveLength, "body").
Proof. intros c [<-|[<-|[]]]; vm_compute; intuition. Qed.

Example both_constraints :
  forall c, In c [le64; ct Little] ->
  read_with c ao_both (w32 1 ++ w32 42) = Ok [VZ 1; VAlt 0 (VZ 42)] /\
  read_with c ao_both (w32 1 ++ w32 43) = Err (ValidationFailure, "body") /\
  read_with c ao_both (w32 1 ++ w32 200) = Err (ValidationFailure, "body") /\
  write_with c ao_both (obj ao_both [("body", VAlt 0 (VZ 42))]) = (Ok tt, w32 1 ++ w32 42) /\
  write_with c ao_both (obj ao_both [("body", VAlt 0 (VZ 43))]) = (Err (ValidationFailure, "body"), w32 1) /\
  write_with c ao_both (obj ao_both [("body", VAlt 0 (VZ 200))]) = (Err (ValidationFailure, "body"), w32 1).
Proof. intros c [<-|[<-|[]]]; vm_compute; intuition. Qed.

Example alternative_options_written :
  let w s l := write_with le64 s (obj s l) in
  w ao_plain [("body", VAlt 0 (VZ 42))] = (Ok tt, [1; 0; 0; 0; 0; 0; 0; 0; 0x2a; 0; 0; 0]) /\
  w ao_constrained [("body", VAlt 0 (VZ 42))] = (Ok tt, [1; 0; 0; 0; 0; 0; 0; 0; 0x2a; 0; 0; 0]) /\
  w ao_constrained [("body", VAlt 0 (VZ 200))] = (Err (ValidationFailure, "body"), w32 1 ++ w32 0) /\
  w ao_constrained [("body", VAlt 2 (VZ 200))] = (Ok tt, [3; 0; 0; 0; 0; 0; 0; 0; 0xc8; 0]) /\
  fst (w ao_constrained [("n", VZ 3); ("body", VAlt 1 (seqz [0xaa; 0xbb; 0xcc]))]) =
    Err (ValidationFailure, "body") /\
  fst (w ao_constrained [("n", VZ 4); ("body", VAlt 1 (seqz [0xaa; 0xbb; 0xcc; 0xdd]))]) = Ok tt.
Proof. vm_compute. intuition. Qed.

(** union_alternative_bound_default_override_ct.cpp *)
Example alternative_default_bounds :
  let s b := tnb (al [(FVar (TScalar u8) (LenField "n") b, CNone)]) 1 in
  read_with (with_default 64) (s None) (w32 1 ++ w32 100 ++ repeat 0 100) = Err (ExcessiveLength, "body") /\
  read_with (with_default 64) (s (Some 128)) (w32 1 ++ w32 100 ++ repeat 0 100) =
    Ok [VZ 1; VZ 100; VAlt 0 (seqz (repeat 0 100))] /\
  read_with (with_default 64) (s (Some 16)) (w32 1 ++ w32 20 ++ repeat 0 20) = Err (ExcessiveLength, "body").
Proof. vm_compute. auto. Qed.

(** ** shipped_header/roundtrip.cpp *)
Definition shipped := fl [("magic", FFixed (TFixStr 3) 4, CStr false (chars "S2S" ++ [0])); b32 "count";
  ("data", vec u16 "count", CNone); ("pair", FFixed (TArr 2 (TScalar u16)) 4, CNone);
  ("nested", FStruct (fl [("x", fixed u16, CNone)]), CNone); b32 "tag";
  ("body", switch_on "tag" [(C, fixed u32); (D, FStruct xy)], CNone)].

Example shipped_roundtrip :
  let v := obj shipped [("data", seqz [0x1122; 0x3344; 0x5566]); ("pair", seqz [0x7788; 0x99aa]);
                        ("nested", recz [0xbbcc]); ("body", VAlt 1 (recz [1; 2]))] in
  let r := [seqz (chars "S2S" ++ [0]); VZ 3; seqz [0x1122; 0x3344; 0x5566]; seqz [0x7788; 0x99aa];
            recz [0xbbcc]; VZ D; VAlt 1 (recz [1; 2])] in
  trip le64 shipped v = Some (Ok r) /\ trip be64 shipped v = Some (Ok r).
Proof. vm_compute. auto. Qed.
