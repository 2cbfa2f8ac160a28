(** * The programs of the documentation, evaluated on the model

    As in Conformance.v: tests of the model, not proofs about it.  /repo/test/doc_examples
    holds the programs of README.md and docs/; each returns 0 if what it expects comes out.
    A file that is written, rewound and read is a sequence of bytes here (C97 is about
    files proper).  guide_stream_example.cpp and guide_constexpr_example.cpp bring streams
    of their own, see Streams.v and C29. *)
From Verif Require Import Conformance.

Definition bytes_magic (id : ident) (bs : list Z) : ident * fty * constr :=
  (id, FFixed (TArr (List.length bs) (TScalar u8)) (List.length bs), CArr false (seqz bs)).
Definition plain_field (id : ident) (s : sty) : ident * fty * constr := (id, fixed s, CNone).

(** guide_computed_example.cpp *)
Definition image_tile := fl [plain_field "width" u16; plain_field "height" u16;
  ("pixels", FVar (TScalar u16) (LenComp (p2 0 Z.mul) ["width"; "height"]) None, CNone)].
Example doc_computed :
  let tile h := obj image_tile [("width", VZ 4); ("height", VZ h); ("pixels", seqz (repeat 0x7fff 8))] in
  trip be64 image_tile (tile 2) = Some (Ok (tile 2)) /\
  write_with be64 image_tile (tile 3) = (Err (FoundContradictingLength, "pixels"), [0; 4; 0; 3]).
Proof. vm_compute. auto. Qed.

(** guide_constraints_example.cpp *)
Definition wav (k : constr -> constr) := fl [bytes_magic "chunk_id" [0x66; 0x6d; 0x74; 0x20];
  ("chunk_size", fixed u32, k (CCmp OEq u32 16)); ("audio_format", fixed u16, k (CCmp OEq u16 1));
  ("channels", fixed u16, k (CAny u16 [1; 2])); ("sample_rate", fixed u32, k (CCmp OGte u32 8000));
  ("bits_per_sample", fixed u16, k (CAny u16 [8; 16; 24]))].
Definition wav_format := wav (fun k => k).
Definition wav_format_unchecked := wav (fun _ => CNone).
Example doc_constraints :
  let fmt n := obj wav_format [("channels", VZ n); ("sample_rate", VZ 44100); ("bits_per_sample", VZ 16)] in
  let loose := obj wav_format_unchecked [("chunk_size", VZ 16); ("audio_format", VZ 1); ("channels", VZ 6);
                                         ("sample_rate", VZ 44100); ("bits_per_sample", VZ 16)] in
  trip be64 wav_format (fmt 2) =
    Some (Ok [seqz [0x66; 0x6d; 0x74; 0x20]; VZ 16; VZ 1; VZ 2; VZ 44100; VZ 16]) /\
  fst (write_with be64 wav_format (fmt 6)) = Err (ValidationFailure, "channels") /\
  snd (write_with be64 wav_format (fmt 6)) = [0x66; 0x6d; 0x74; 0x20; 0; 0; 0; 16; 0; 1] /\
  (let '(r, bs) := write_with be64 wav_format_unchecked loose in
   r = Ok tt /\ read_with be64 wav_format bs = Err (ValidationFailure, "channels")).
Proof. vm_compute. auto 10. Qed.

(** guide_optional_example.cpp *)
Definition gzip_header := fl [bytes_magic "magic" [0x1f; 0x8b]; plain_field "method" u8; plain_field "flags" u8;
  plain_field "mtime" u32;
  ("name_length", FMaybe (fixed u16) (p1 (fun f => negb (Z.land f 8 =? 0))) ["flags"], CNone)].
Example doc_optional :
  let header f o := obj gzip_header [("method", VZ 8); ("flags", VZ f); ("mtime", VZ 0x5f000000); ("name_length", o)] in
  let read f o := [seqz [0x1f; 0x8b]; VZ 8; VZ f; VZ 0x5f000000; o] in
  trip be64 gzip_header (header 8 (VSome (VZ 12))) = Some (Ok (read 8 (VSome (VZ 12)))) /\
  trip be64 gzip_header (header 0 VNone) = Some (Ok (read 0 VNone)) /\
  List.length (snd (write_with be64 gzip_header (header 0 VNone))) = 8%nat /\
  fst (write_with be64 gzip_header (obj gzip_header [("flags", VZ 8)])) = Err (ValidationFailure, "name_length").
Proof. vm_compute. auto 10. Qed.

(** guide_reading_example.cpp *)
Definition bmp_header := fl [bytes_magic "signature" [0x42; 0x4d]; b32 "file_size"; b32 "reserved"; b32 "pixel_offset"].
Definition header_bytes := [0x42; 0x4d; 0x36; 0; 0x0c; 0; 0; 0; 0; 0; 0x36; 0; 0; 0].
Example doc_reading :
  read_with le64 bmp_header header_bytes = Ok [seqz [0x42; 0x4d]; VZ 0x000c0036; VZ 0; VZ 54] /\
  read_with le64 bmp_header (firstn 8 header_bytes) = Err (BufferExhaustion, "reserved").
Proof. vm_compute. auto. Qed.

(** guide_schema_example.cpp *)
Definition telemetry_frame := fl [bytes_magic "marker" [0xab; 0xcd]; plain_field "device_id" u16;
  ("revision", fixed u8, CAny u8 [1; 2]); b32 "sample_count"; ("samples", vec u16 "sample_count", CNone)].
Example doc_schema :
  let frame := obj telemetry_frame [("device_id", VZ 0x2a); ("revision", VZ 2); ("samples", seqz [300; 301; 299; 302])] in
  trip be64 telemetry_frame frame =
    Some (Ok [seqz [0xab; 0xcd]; VZ 0x2a; VZ 2; VZ 4; seqz [300; 301; 299; 302]]).
Proof. vm_compute. auto. Qed.

(** guide_variance_example.cpp: the literals 1 and 2 are [int]s. *)
Definition tlv_record := fl [plain_field "tag" u8;
  ("value", FUnion (GField "tag" u8 [(i32, 1); (i32, 2)]) (al [(fixed u32, CNone); (fixed i32, CNone)]), CNone)].
Definition extent_record := fl [b32 "length";
  ("payload", FUnion (GLadder [(p1 (fun n => n <=? 4), ["length"]); (p1 (fun n => 4 <? n), ["length"])])
                     (al [(fixed u32, CNone); (fixed i32, CNone)]), CNone)].
Example doc_variance :
  let extent n v := obj extent_record [("length", VZ n); ("payload", VAlt 0 (VZ v))] in
  trip be64 tlv_record (obj tlv_record [("value", VAlt 1 (VZ (-40)))]) = Some (Ok [VZ 2; VAlt 1 (VZ (-40))]) /\
  trip be64 extent_record (extent 4 0xfeedface) = Some (Ok [VZ 4; VAlt 0 (VZ 0xfeedface)]) /\
  fst (write_with be64 extent_record (extent 64 1)) = Err (ValidationFailure, "payload").
Proof. vm_compute. auto. Qed.

(** guide_writing_example.cpp, doc_example.cpp *)
Definition log_record := fl [bytes_magic "marker" [0x4c; 0x47]; plain_field "message_length" u16;
  ("message", vec ch "message_length", CNone)].
Definition tagged := fl [b32 "tag"; ("body", FUnion (GField "tag" u32 [(u32, C); (u32, D)])
  (al [(FStruct (fl [b32 "x"]), CNone); (FStruct (fl [b32 "y"]), CNone)]), CNone)].
Example doc_writing :
  let record s := obj log_record [("message", seqz (chars s))] in
  let read s := [seqz [0x4c; 0x47]; VZ (Z.of_nat (String.length s)); seqz (chars s)] in
  trip be64 log_record (record "disk nearly full") = Some (Ok (read "disk nearly full")) /\
  fst (write_with le64 log_record (record "disk nearly full")) = Ok tt /\
  trip be64 log_record (obj log_record [("message_length", VZ 16); ("message", seqz (chars "ok"))]) =
    Some (Ok (read "ok")) /\
  nth 0 (obj tagged [("body", VAlt 0 (recz [0]))]) (VZ 1) = VZ 0.
Proof. vm_compute. auto. Qed.

(** readme_read_example.cpp, readme_roundtrip_example.cpp *)
Definition firmware_image := fl [bytes_magic "marker" [0x46; 0x57]; plain_field "version" u16; b32 "payload_length";
  ("payload", vec u8 "payload_length", CNone)].
Example doc_readme :
  let image := obj firmware_image [("version", VZ 1); ("payload", seqz [0xde; 0xad; 0xbe; 0xef])] in
  write_with be64 firmware_image image = (Ok tt, [0x46; 0x57; 0; 1; 0; 0; 0; 4; 0xde; 0xad; 0xbe; 0xef]) /\
  trip be64 firmware_image image =
    Some (Ok [seqz [0x46; 0x57]; VZ 1; VZ 4; seqz [0xde; 0xad; 0xbe; 0xef]]).
Proof. vm_compute. auto. Qed.

(** test/doc_examples/make_doc_fixtures.py: the file readme_read_example.cpp reads, whole
    and cut short. *)
Definition firmware_bin := [0x46; 0x57; 0; 1; 0; 0; 0; 4; 0xde; 0xad; 0xbe; 0xef].
Example doc_fixture :
  read_with be64 firmware_image firmware_bin = Ok [seqz [0x46; 0x57]; VZ 1; VZ 4; seqz [0xde; 0xad; 0xbe; 0xef]] /\
  read_with be64 firmware_image (firstn 10 firmware_bin) = Err (BufferExhaustion, "payload") /\
  read_with le64 firmware_image firmware_bin = Err (ExcessiveLength, "payload").
Proof. vm_compute. auto. Qed.

(** examples/hello_s2s.cpp on what examples/make_sample.py writes. *)
Definition message := fl [plain_field "len" u64; ("text", vec ch "len", CNone)].
Definition sample_bin := [10; 0; 0; 0; 0; 0; 0; 0] ++ chars "hello, s2s".
Example hello_s2s :
  read_with le64 message sample_bin = Ok [VZ 10; seqz (chars "hello, s2s")] /\
  read_with le64 message (firstn 17 sample_bin) = Err (BufferExhaustion, "text") /\
  read_with be64 message sample_bin = Err (ExcessiveLength, "text").
Proof. vm_compute. auto. Qed.

(** Every schema of the documentation is one the library accepts. *)
Example doc_accepted :
  forallb wf [image_tile; wav_format; wav_format_unchecked; gzip_header; bmp_header; telemetry_frame;
              tlv_record; extent_record; log_record; tagged; firmware_image; message] = true.
Proof. vm_compute. auto. Qed.
