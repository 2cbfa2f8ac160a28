(** * C97: the file stream of the examples
    In all of these [ur] and [uw] are what the library does when a read directly
    follows a write or a write directly follows a read: anything. *)
From Verif Require Import Read Write WSpec PropDefs Typing Rewrite Examples FileStream FileSpec FileFacts.
Local Open Scope Z_scope.

(** A write puts its bytes at the file position, says so, and touches no other byte. *)
Theorem C97_write : forall uw c fs vs s o s1 ch,
  f_fail s = false -> f_last s <> Reading ->
  wrun (file_ostream uw) (stream_cast c fs vs) s = (o, s1, ch) ->
  wmem (stream_cast c fs vs) = (o, concat (map fst ch)) /\
  Forall (fun w => snd w = true) ch /\
  f_fail s1 = false /\ f_pos s1 = (f_pos s + length (concat (map fst ch)))%nat /\
  firstn (length (concat (map fst ch))) (skipn (f_pos s) (f_buf s1)) = concat (map fst ch) /\
  (length (f_buf s) <= length (f_buf s1))%nat /\
  (forall i, (i < f_pos s \/ f_pos s1 <= i)%nat -> (i < length (f_buf s))%nat ->
     nth_error (f_buf s1) i = nth_error (f_buf s) i).
Proof. exact file_written. Qed.
Print Assumptions C97_write.

(** A read is the read of the bytes from the file position on, and changes no byte. *)
Theorem C97_read : forall ur c fs alloc s o s1 ev,
  f_fail s = false -> f_last s <> Writing ->
  rrun (file_istream ur) alloc (struct_cast c fs) s = (o, s1, ev) -> o <> Throw ->
  o = fst (rmem (struct_cast c fs) (skipn (f_pos s) (f_buf s))) /\ f_buf s1 = f_buf s /\
  (forall vs, o = Ok vs -> f_fail s1 = false /\
     skipn (f_pos s1) (f_buf s1) = snd (rmem (struct_cast c fs) (skipn (f_pos s) (f_buf s)))).
Proof. exact file_read_run. Qed.
Print Assumptions C97_read.

(** Write, go back to where the write began, read. *)
Theorem C97_roundtrip : forall ur uw c fs vs s s1 ch alloc o s2 ev,
  wf fs = true -> typed fs = true -> has_fields fs vs -> clean_fields c fs = true ->
  in_sync c fs vs -> sized_fields c fs (emitted c fs vs) ->
  f_fail s = false -> f_last s <> Reading ->
  wrun (file_ostream uw) (stream_cast c fs vs) s = (Ok tt, s1, ch) ->
  rrun (file_istream ur) alloc (struct_cast c fs) (seekg (f_pos s) s1) = (o, s2, ev) -> o <> Throw ->
  o = Ok (emitted c fs vs) /\ f_fail s2 = false /\ f_buf s2 = f_buf s1 /\ f_pos s2 = f_pos s1.
Proof. exact file_round_trip. Qed.
Print Assumptions C97_roundtrip.

(** Any number of structs, one after the other. *)
Theorem C97_messages : forall ur uw c fs alloc vss s s1,
  wf fs = true -> typed fs = true -> clean_fields c fs = true -> (forall n, alloc n = true) ->
  Forall (fun vs => has_fields fs vs /\ in_sync c fs vs /\ sized_fields c fs (emitted c fs vs)) vss ->
  f_fail s = false -> f_last s <> Reading ->
  write_all uw c fs vss s = Some s1 ->
  exists s2, read_all ur alloc c fs (length vss) (seekg (f_pos s) s1) = Some (map (emitted c fs) vss, s2) /\
    f_fail s2 = false /\ f_buf s2 = f_buf s1 /\ f_pos s2 = f_pos s1.
Proof. exact file_messages. Qed.
Print Assumptions C97_messages.

(** Read, go back, write what was read: the file is as it was. *)
Theorem C97_rewrite : forall ur uw c fs alloc s vs s1 ev o s2 ch,
  wf fs = true -> typed fs = true -> reversible c fs = true -> Forall byte_ok (f_buf s) ->
  f_fail s = false -> f_last s <> Writing ->
  rrun (file_istream ur) alloc (struct_cast c fs) s = (Ok vs, s1, ev) ->
  wrun (file_ostream uw) (stream_cast c fs vs) (seekg (f_pos s) s1) = (o, s2, ch) ->
  o = Ok tt /\ f_fail s2 = false /\ f_buf s2 = f_buf s /\ f_pos s2 = f_pos s1.
Proof. exact file_rewrite. Qed.
Print Assumptions C97_rewrite.

(** After a read, however it ended (an exception included), [clear] and [seekg] give
    back the file as it was, at the place asked for: another schema can be tried. *)
Theorem C97_retry : forall ur c fs alloc s o s1 ev p,
  f_fail s = false -> f_last s <> Writing ->
  rrun (file_istream ur) alloc (struct_cast c fs) s = (o, s1, ev) ->
  seekg p (clear s1) = seekg p s.
Proof. exact file_retry. Qed.
Print Assumptions C97_retry.

(** Without [clear], [seekg] does not help: a failed file gives and takes nothing. *)
Theorem C97_failed_read : forall ur c fs alloc p s o s1 ev, f_fail s = true ->
  rrun (file_istream ur) alloc (struct_cast c fs) (seekg p s) = (o, s1, ev) -> s1 = s /\ delivered ev = [].
Proof.
  intros ur c fs alloc p s o s1 ev Hf. unfold seekg. rewrite Hf. exact (file_istream_failed ur alloc _ s o s1 ev Hf).
Qed.
Print Assumptions C97_failed_read.

Theorem C97_failed_write : forall uw c fs vs p s o s1 ch, f_fail s = true ->
  wrun (file_ostream uw) (stream_cast c fs vs) (seekg p s) = (o, s1, ch) ->
  s1 = s /\ Forall (fun w => snd w = false) ch.
Proof.
  intros uw c fs vs p s o s1 ch Hf. unfold seekg. rewrite Hf. exact (file_ostream_failed uw _ s o s1 ch Hf).
Qed.
Print Assumptions C97_failed_write.

(** Nothing is promised without the [seekg] between. *)
Definition stubborn (s : file) (n : Z) : option (list Z) * file := (None, s).
Definition gullible (s : file) (bs : list Z) : bool * file := (true, s).

Theorem C97_no_seek_refuted : exists ur uw fs vs s s1 ch,
  wf fs = true /\ typed fs = true /\ f_fail s = false /\ f_last s <> Reading /\
  wrun (file_ostream uw) (stream_cast le64 fs vs) s = (Ok tt, s1, ch) /\
  fst (fst (rrun (file_istream ur) grant (struct_cast le64 fs) (seekg (f_pos s) s1))) = Ok (emitted le64 fs vs) /\
  fst (fst (rrun (file_istream ur) grant (struct_cast le64 fs) s1)) <> Ok (emitted le64 fs vs).
Proof.
  exists stubborn, gullible, frame, frame_val, (mkFile [] 0 Positioned false), (mkFile frame_le (length frame_le) Writing false),
    (snd (wrun (file_ostream gullible) (stream_cast le64 frame frame_val) (mkFile [] 0 Positioned false))).
  split; [reflexivity|]. split; [reflexivity|]. split; [reflexivity|]. split; [discriminate|].
  split; [vm_compute; reflexivity|]. split; [vm_compute; reflexivity|]. vm_compute. discriminate.
Qed.
Print Assumptions C97_no_seek_refuted.

(** A struct in the middle of a file; two, one after the other; written back. *)
Example C97_case :
  let s := mkFile (repeat 9 60) 3 Positioned false in
  let w := wrun (file_ostream gullible) (stream_cast le64 frame frame_val) s in
  fst (fst w) = Ok tt /\
  f_buf (snd (fst w)) = repeat 9 3 ++ frame_le ++ repeat 9 (57 - length frame_le) /\
  fst (fst (rrun (file_istream stubborn) grant (struct_cast le64 frame) (seekg 3 (snd (fst w))))) =
    Ok (emitted le64 frame frame_val) /\
  option_map fst (read_all stubborn grant le64 frame 2
      (seekg 3 (match write_all gullible le64 frame [frame_val; frame_val] s with Some s1 => s1 | None => s end))) =
    Some [emitted le64 frame frame_val; emitted le64 frame frame_val] /\
  reversible le64 frame = true.
Proof.
  vm_compute. auto 10.
Qed.

(** A file opened past its end: the gap is filled. *)
Example C97_gap :
  f_buf (snd (fst (wrun (file_ostream gullible) (stream_cast le64 frame frame_val)
    (mkFile [5] 4 Positioned false)))) = [5; 0; 0; 0] ++ frame_le.
Proof. vm_compute. reflexivity. Qed.
