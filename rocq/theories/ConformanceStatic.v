(** * The project's compile-time tests and documented examples, evaluated on the model
    Tests of the model, as in Conformance.v. *)
From Verif Require Import Conformance Kinds Options StaticSpec.

(** ** internals/field_list_metadata_ct.cpp *)
Definition meta_list := fl [
  ("a", fixed i32, CNone); ("b", fixed i32, CNone); ("len", fixed u64, CNone);
  ("str", vec ch "len", CNone); ("row", fixed u64, CNone); ("col", fixed u64, CNone);
  ("flat_vec", FVar (TScalar u32) (LenComp (p2 0 (fun r c => r * c)) ["row"; "col"]) None, CNone);
  ("c", FMaybe (fixed u32) (p1 (Z.eqb D)) ["a"], CNone);
  ("vec", FMaybe (vec u32 "len") (p1 (Z.eqb D)) ["a"], CNone);
  ("d", FStruct pq, CNone);
  ("v", FUnion (GField "a" i32 [(u32, C); (u32, D)]) (al [(FStruct xy, CNone); (FStruct pq, CNone)]), CNone);
  ("vec_union", FUnion (GField "a" i32 [(u32, C); (u32, D); (u32, 0xbeefbeef)])
                  (al [(f32, CNone); (vec u32 "len", CNone); (fixed i32, CNone)]), CNone);
  ("complex_v", FUnion (GComp (p2 0 Z.add) u32 ["a"; "b"] [(i32, 100); (i32, 200); (i32, 300)])
                  (al [(f32, CNone); (fixed u32, CNone); (fixed i32, CNone)]), CNone);
  ("laddered", FUnion (GLadder [(band 20000 40000, ["a"; "b"]); (band 0 60000, ["a"; "b"]);
                                (band 60000 (2 ^ 32), ["a"; "b"])])
                  (al [(f32, CNone); (fixed u32, CNone); (fixed i32, CNone)]), CNone)].

Definition at_of (fs : fields) (name : ident) : option nat :=
  match field_table (fun _ => 0) fs with
  | Some ft => option_map fi_at (map_get ft name)
  | None => None
  end.
Definition deps_of (deps : fty -> option (list ident)) (fs : fields) (name : ident) : option (list ident) :=
  match dep_table deps fs with Some t => map_get t name | None => None end.

Example the_field_table :
  map (at_of meta_list) ["unknown"; "a"; "b"; "len"; "str"; "row"; "col"; "flat_vec"; "c"; "vec"; "d"; "v"; "vec_union"]
  = None :: map (@Some nat) (seq 0 12).
Proof. vm_compute. reflexivity. Qed.

Example the_length_dependencies :
  map (deps_of len_deps meta_list) ["a"; "b"; "len"; "row"; "col"; "c"; "d"; "v"] = repeat (Some []) 8 /\
  map (deps_of len_deps meta_list) ["str"; "flat_vec"; "vec"; "vec_union"] =
    map (@Some _) [["len"]; ["row"; "col"]; ["len"]; ["len"]].
Proof. vm_compute. auto. Qed.

Example the_other_dependencies :
  map (deps_of parse_deps meta_list) ["vec"; "a"] = [Some ["a"]; Some []] /\
  map (deps_of type_deps meta_list) ["v"; "complex_v"; "laddered"] =
    [Some ["a"]; Some ["a"; "b"]; Some ["a"; "b"]].
Proof. vm_compute. auto. Qed.

Example the_derived_fields :
  derived_ids len_sources_of meta_list = Some ["len"] /\
  derived_ids discriminants_of meta_list = Some ["a"].
Proof. vm_compute. auto. Qed.

Example order_of_declaration :
  let a := ("a", fixed i32, CNone) in
  let legal := fl [a; ("b", fixed i32, CNone); ("len", fixed u64, CNone); ("str", vec ch "len", CNone)] in
  let illegal := fl [a; ("b", fixed i32, CNone); ("str", vec ch "len", CNone); b32 "p";
                     ("len", fixed u64, CNone)] in
  resolved legal len_deps = true /\ resolved illegal len_deps = false /\
  map (at_of illegal) ["str"; "len"] = [Some 2%nat; Some 4%nat] /\
  deps_of len_deps illegal "str" = Some ["len"] /\
  accepted 8 meta_list = true /\ accepted 8 legal = true /\ accepted 8 illegal = false.
Proof. vm_compute. intuition. Qed.

(** ** must_not_compile/derived_field_assignment.cpp, hidden_length_target.cpp *)
Example assignments :
  let s := fl [b32 "len"; ("str", vec ch "len", CNone)] in
  let f := fl [("magic", fixed u32, CCmp OEq u32 D); b32 "payload"] in
  let t := fl [("tag", fixed u32, CCmp OEq u32 7)] in
  op_index false s "len" = NoOverload /\ op_index true s "len" = NoOverload /\
  op_index false s "str" = MutableRef /\
  op_index false w_switch "tag" = ConstRef /\ op_index false w_switch "body" = MutableRef /\
  op_index false f "magic" = ConstRef /\ op_index false f "payload" = MutableRef /\
  op_index false t "tag" = ConstRef.
Proof. vm_compute. intuition. Qed.

Example duplicate_match_values :
  let s v := fl [b32 "tag"; ("body", switch_on "tag" [(C, FStruct xy); (v, FStruct pq)], CNone)] in
  accepted 8 (s D) = true /\ accepted 8 (s C) = false.
Proof. vm_compute. auto. Qed.

(** ** must_not_compile/option_pack_misuse.cpp *)
Definition sizeof_other (t : cxx) : nat := 24%nat.
Definition xu16 := XInt u16. Definition xu32 := XInt u32. Definition xu8 := XInt u8.
Definition by_n : Verif.Static.opt := OptSize (SzLen (LenField "n")).
Definition bytes (n : nat) : Verif.Static.opt := OptSize (SzBytes n).
Definition most (n : Z) : Verif.Static.opt := OptBound (Some n).
Definition r := resolve true sizeof_other.
Definition rt := resolve_tag sizeof_other.
Definition some_of {A} (o : option A) : bool := match o with Some _ => true | None => false end.

Example option_packs_rejected :
  existsb some_of [
    r (BasicField xu16) [OptOther];                                             (* 1 *)
    r (BasicField xu16) [bytes 2; bytes 2];                                     (* 2 *)
    r (BasicField xu16) [bytes 2; most 4096];                                   (* 3 *)
    r (VecField xu8) [by_n; most 4096; most 8192];                              (* 4 *)
    rt (AsTrivial xu32) [bytes 4; bytes 2];                                     (* 5 *)
    rt AsString [];                                                             (* 6 *)
    rt (AsTrivial xu16) [bytes 4];                                              (* 7 *)
    rt (AsTrivial xu32) [bytes 4; OptConstr (CCmp OGt u32 1); OptConstr (CCmp OLt u32 99)]; (* 8 *)
    rt (AsStruct (XRecord xy)) [most 4096];                                     (* 9 *)
    rt (AsTrivial xu32) [bytes 4; most 4096];                                   (* 11 *)
    rt (AsFixedArr xu8 4) [most 4096];                                          (* 12 *)
    rt (AsVec xu8) [by_n; most 4096; most 8192]] = false.                       (* 13 *)
Proof. vm_compute. reflexivity. Qed.

Example variance_packs :
  let v := resolve_variance 8 (fun _ => 0) "body" (GField "tag" u32 [(i32, 1)])
             [mkPlain xu32 (SzBytes 4) CNone None] in
  let k := OptConstr (CFun even_body) in
  existsb some_of [v [bytes 4] (* 10 *); v [most 4096] (* 14 *); v [k; k] (* 15 *)] = false /\
  forallb some_of [v []; v [k]] = true.
Proof. vm_compute. auto. Qed.

(** ** internals/traits_ct.cpp *)
Example traits :
  are_unique String.eqb ["hello"; "world"; "hello"] = Some false /\
  are_unique String.eqb ["hello"; "world"; "nexus"] = Some true /\
  sz_variable (SzLen (LenField "hello")) = true /\ sz_fixed (SzBytes 4) = true /\
  is_kind KOptional (CMaybe (CField "a" (mkPlain xu32 (SzBytes 4) CNone None)) (fun _ => true) ["a"]) = true /\
  is_kind KOptional (CField "a" (mkPlain xu32 (SzBytes 4) CNone None)) = false.
Proof. vm_compute. intuition. Qed.

Example name_lists :
  let s := ["a"; "b"; "c"; "d"] in
  fsl_size s = 4%nat /\ fsl_pop 0 s = s /\ fsl_pop 1 s = ["b"; "c"; "d"] /\ fsl_pop 2 s = ["c"; "d"] /\
  fsl_get 0 2 s = Some "c".
Proof. vm_compute. intuition. Qed.

Example type_lists :
  let any := tl_any_of Nat.eqb in let same := tl_all_same Nat.eqb in
  map (fun p => any (fst p) (snd p)) [([0; 1; 1], 0); ([1; 0; 1; 1], 0); ([0; 0; 0], 1); ([], 1)]%nat =
    [true; true; false; false] /\
  map same [[0; 0; 0]; [1; 0; 0]; [0; 0; 1; 0; 0]; [0; 1; 1; 0; 0]; [0]; []]%nat =
    [true; false; false; false; true; true].
Proof. vm_compute. auto. Qed.

Example byte_counts :
  let max := (2 ^ 64 - 1) in
  map (fun x => len_allowed (fst (fst x)) (snd (fst x)) (snd x))
    [(max, 8, max / 8); (max, 8, max / 8 + 1); (max, 1, max); (8, 4, 2); (8, 4, 3); (10, 4, 2); (10, 4, 3)] =
    [true; false; true; true; false; true; false].
Proof. vm_compute. reflexivity. Qed.

Example option_order :
  let e := OptConstr (CCmp OEq u16 5) in
  r (BasicField xu16) [bytes 2; e] = r (BasicField xu16) [e; bytes 2] /\
  r (BasicField xu16) [bytes 2] = r (BasicField xu16) [] /\
  r (BasicField xu16) [e] = r (BasicField xu16) [e; bytes 2].
Proof. vm_compute. auto. Qed.

Example stream_concepts :
  let ifstream := mkST false true false false false true in
  let ofstream := mkST false false false true false true in
  let stringstream := mkST false true false true false true in
  map input_stream_like [ifstream; stringstream; ofstream] = [true; true; false] /\
  map output_stream_like [ofstream; stringstream; ifstream] = [true; true; false] /\
  st_readable (mkST false false false false false true) = false.
Proof. vm_compute. auto. Qed.

(** ** internals/containers_ct.cpp *)
Example containers :
  static_vector 5 [1; 9; 5; 3; 0] = Some [1; 9; 5; 3; 0] /\
  push_all 3 [] [7; 8] = Some [7; 8] /\
  sort_ranges Z.ltb [1; 9; 5; 3; 0] = [0; 1; 3; 5; 9] /\
  sort_ranges String.ltb ["hello"; "pope"; "chocolate"; "iota"; "maracuja"] =
    ["chocolate"; "hello"; "iota"; "maracuja"; "pope"].
Proof. vm_compute. auto. Qed.

Example maps :
  match static_map 5 "" [("hello", "world"); ("foo", "bar"); ("world", "nothing"); ("arc", "not-arc");
                         ("algebra", "math")] with
  | Some m => map (map_get m) ["hello"; "world"; "algebra"; "other"] =
                [Some "world"; Some "nothing"; Some "math"; None]
  | None => False
  end.
Proof. vm_compute. reflexivity. Qed.

(** ** internals/union_choice_pipeline_ct.cpp *)
Example choices_built :
  let lte99 := OptConstr (CCmp OLte u32 99) in
  let k := OptConstr (CFun even_length) in
  rt (AsTrivial xu32) [bytes 4; lte99] = Some (mkPlain xu32 (SzBytes 4) (CCmp OLte u32 99) None) /\
  rt (AsTrivial xu32) [lte99; bytes 4] = Some (mkPlain xu32 (SzBytes 4) (CCmp OLte u32 99) None) /\
  rt (AsStruct (XRecord xy)) [] = Some (mkPlain (XRecord xy) SzDontCare CNone None) /\
  rt (AsVec xu8) [by_n] = Some (mkPlain (XVector xu8) (SzLen (LenField "n")) CNone None) /\
  rt (AsTrivial xu32) [] = Some (mkPlain xu32 (SzBytes 4) CNone None) /\
  rt (AsFixedArr xu8 2) [k] = Some (mkPlain (XArray xu8 2) (SzBytes 2) (CFun even_length) None) /\
  rt (AsStruct (XRecord xy)) [k] = Some (mkPlain (XRecord xy) SzDontCare (CFun even_length) None) /\
  rt (AsFixedString 3) [k] = Some (mkPlain (XFixStr 3) (SzBytes 4) (CFun even_length) None) /\
  rt (AsArrOfRecords (XRecord xy) 2) [k] =
    Some (mkPlain (XArray (XRecord xy) 2) SzDontCare (CFun even_length) None) /\
  rt (AsVec xu8) [by_n; most 4096] = Some (mkPlain (XVector xu8) (SzLen (LenField "n")) CNone (Some 4096)) /\
  rt (AsVec xu32) [by_n] = Some (mkPlain (XVector xu32) (SzLen (LenField "n")) CNone None).
Proof. vm_compute. intuition. Qed.

(** ** doc_examples *)
Definition magic_bytes (l : list Z) : fty * constr :=
  (FFixed (TArr (length l) (TScalar u8)) (length l), CArr false (seqz l)).
Definition magic (id : ident) (l : list Z) : ident * fty * constr :=
  (id, fst (magic_bytes l), snd (magic_bytes l)).
Definition b16 (id : ident) : ident * fty * constr := (id, fixed u16, CNone).

(** guide_computed_example.cpp *)
Definition image_tile := fl [b16 "width"; b16 "height";
  ("pixels", FVar (TScalar u16) (LenComp (p2 0 Z.mul) ["width"; "height"]) None, CNone)].
Example image_tile_example :
  let v h := [VZ 4; VZ h; seqz (repeat 0x7fff 8)] in
  trip be64 image_tile (v 2) = Some (Ok (v 2)) /\
  fst (write_with be64 image_tile (v 3)) = Err (FoundContradictingLength, "pixels").
Proof. vm_compute. auto. Qed.

(** guide_constexpr_example.cpp *)
Example partition_example :
  read_with (ct Big) (fl [b32 "start_lba"; b32 "sector_count"])
    [0xde; 0xad; 0xbe; 0xef; 0xca; 0xfe; 0xd0; 0x0d] = Ok [VZ D; VZ C].
Proof. vm_compute. reflexivity. Qed.

(** guide_constraints_example.cpp *)
Definition wav := [0x66; 0x6d; 0x74; 0x20].
Definition wav_format := fl [magic "chunk_id" wav; ("chunk_size", fixed u32, CCmp OEq u32 16);
  ("audio_format", fixed u16, CCmp OEq u16 1); ("channels", fixed u16, CAny u16 [1; 2]);
  ("sample_rate", fixed u32, CCmp OGte u32 8000); ("bits_per_sample", fixed u16, CAny u16 [8; 16; 24])].
Definition wav_unchecked := fl [magic "chunk_id" wav; b32 "chunk_size"; b16 "audio_format"; b16 "channels";
  b32 "sample_rate"; b16 "bits_per_sample"].
Example wav_example :
  let v c := obj wav_format [("channels", VZ c); ("sample_rate", VZ 44100); ("bits_per_sample", VZ 16)] in
  let loose := obj wav_unchecked [("chunk_size", VZ 16); ("audio_format", VZ 1); ("channels", VZ 6);
                                  ("sample_rate", VZ 44100); ("bits_per_sample", VZ 16)] in
  trip be64 wav_format (v 2) = Some (Ok [seqz wav; VZ 16; VZ 1; VZ 2; VZ 44100; VZ 16]) /\
  fst (write_with be64 wav_format (v 6)) = Err (ValidationFailure, "channels") /\
  read_with be64 wav_format (snd (write_with be64 wav_unchecked loose)) = Err (ValidationFailure, "channels") /\
  fst (write_with be64 wav_unchecked loose) = Ok tt.
Proof. vm_compute. auto. Qed.

(** guide_optional_example.cpp *)
Definition gzip := fl [magic "magic" [0x1f; 0x8b]; ("method", fixed u8, CNone); ("flags", fixed u8, CNone);
  b32 "mtime"; ("name_length", FMaybe (fixed u16) (p1 (fun z => Z.testbit z 3)) ["flags"], CNone)].
Example gzip_example :
  let v f n := obj gzip [("method", VZ 8); ("flags", VZ f); ("mtime", VZ 0x5f000000); ("name_length", n)] in
  let got f n := Some (Ok [seqz [0x1f; 0x8b]; VZ 8; VZ f; VZ 0x5f000000; n]) in
  trip be64 gzip (v 8 (VSome (VZ 12))) = got 8 (VSome (VZ 12)) /\
  trip be64 gzip (v 0 VNone) = got 0 VNone /\
  fst (write_with be64 gzip (obj gzip [("flags", VZ 8)])) = Err (ValidationFailure, "name_length").
Proof. vm_compute. auto. Qed.

(** guide_schema_example.cpp *)
Definition telemetry := fl [magic "marker" [0xab; 0xcd]; b16 "device_id"; ("revision", fixed u8, CAny u8 [1; 2]);
  b32 "sample_count"; ("samples", vec u16 "sample_count", CNone)].
Example telemetry_example :
  trip be64 telemetry (obj telemetry [("device_id", VZ 0x2a); ("revision", VZ 2);
                                      ("samples", seqz [300; 301; 299; 302])]) =
  Some (Ok [seqz [0xab; 0xcd]; VZ 0x2a; VZ 2; VZ 4; seqz [300; 301; 299; 302]]).
Proof. vm_compute. reflexivity. Qed.

(** guide_stream_example.cpp: written to and read from one [byte_stream], then read past
    its end. *)
Definition heartbeat := fl [magic "marker" [0x48; 0x42]; b32 "sequence"].
Example heartbeat_example :
  let '(w, s, _) := wrun byte_ostream (stream_cast be64 heartbeat (obj heartbeat [("sequence", VZ D)]))
                      (mkBst [] 0 true) in
  let '(r1, s1, _) := rrun (byte_stream 8 (fun _ => [])) grant (struct_cast be64 heartbeat) s in
  let '(r2, _, _) := rrun (byte_stream 8 (fun _ => [])) grant (struct_cast be64 heartbeat) s1 in
  w = Ok tt /\ r1 = Ok [seqz [0x48; 0x42]; VZ D] /\ r2 = Err (BufferExhaustion, "marker").
Proof. vm_compute. auto. Qed.

(** guide_variance_example.cpp *)
Definition tlv := fl [("tag", fixed u8, CNone);
  ("value", FUnion (GField "tag" u8 [(i32, 1); (i32, 2)]) w_alts, CNone)].
Definition extent := fl [b32 "length";
  ("payload", FUnion (GLadder [(p1 (fun z => z <=? 4), ["length"]); (p1 (fun z => 4 <? z), ["length"])])
                w_alts, CNone)].
Example variance_example :
  trip be64 tlv (obj tlv [("value", VAlt 1 (VZ (-40)))]) = Some (Ok [VZ 2; VAlt 1 (VZ (-40))]) /\
  trip be64 extent [VZ 4; VAlt 0 (VZ 0xfeedface)] = Some (Ok [VZ 4; VAlt 0 (VZ 0xfeedface)]) /\
  fst (write_with be64 extent [VZ 64; VAlt 0 (VZ 1)]) = Err (ValidationFailure, "payload").
Proof. vm_compute. auto. Qed.

(** guide_writing_example.cpp, doc_example.cpp *)
Definition log_record := fl [magic "marker" [0x4c; 0x47]; b16 "message_length";
                             ("message", vec ch "message_length", CNone)].
Example log_example :
  trip be64 log_record (obj log_record [("message", seqz (chars "disk nearly full"))]) =
    Some (Ok [seqz [0x4c; 0x47]; VZ 16; seqz (chars "disk nearly full")]) /\
  op_index false w_switch "tag" = ConstRef /\ op_index true w_switch "tag" = ConstRef.
Proof. vm_compute. auto. Qed.

(** guide_reading_example.cpp *)
Definition bmp := fl [magic "signature" [0x42; 0x4d]; b32 "file_size"; b32 "reserved"; b32 "pixel_offset"].
Example bmp_example :
  let bs := [0x42; 0x4d; 0x36; 0; 0x0c; 0; 0; 0; 0; 0; 0x36; 0; 0; 0] in
  read_with le64 bmp bs = Ok [seqz [0x42; 0x4d]; VZ 0x000c0036; VZ 0; VZ 54] /\
  read_with le64 bmp (firstn 8 bs) = Err (BufferExhaustion, "reserved").
Proof. vm_compute. auto. Qed.

(** readme_read_example.cpp, readme_roundtrip_example.cpp *)
Definition firmware := fl [magic "marker" [0x46; 0x57]; b16 "version"; b32 "payload_length";
                           ("payload", vec u8 "payload_length", CNone)].
Example firmware_example :
  let v := obj firmware [("version", VZ 1); ("payload", seqz [0xde; 0xad; 0xbe; 0xef])] in
  write_with be64 firmware v =
    (Ok tt, [0x46; 0x57; 0; 1; 0; 0; 0; 4; 0xde; 0xad; 0xbe; 0xef]) /\
  trip be64 firmware v = Some (Ok [seqz [0x46; 0x57]; VZ 1; VZ 4; seqz [0xde; 0xad; 0xbe; 0xef]]).
Proof. vm_compute. auto. Qed.
