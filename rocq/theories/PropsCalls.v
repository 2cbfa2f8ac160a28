(** * C80, C81: exactly which calls a cast makes *)
From Verif Require Import CallSpec CallFacts Examples Write.
Import ListNotations.

(** ** C80: writing.  A write that succeeds made exactly the calls listed for the struct
    with its derived slots filled in, whatever the stream. *)
Theorem C80_calls : forall c fs vs S s s' ch,
  wf fs = true -> typed fs = true -> has_fields fs vs ->
  wrun S (stream_cast c fs vs) s = (Ok tt, s', ch) ->
  ch = map (fun bs => (bs, true)) (calls_fields c fs (emitted c fs vs)).
Proof. exact write_calls. Qed.
Print Assumptions C80_calls.

(** One that fails made the first of them. *)
Theorem C80_prefix : forall c fs vs S s o s' ch,
  wf fs = true -> typed fs = true -> has_fields fs vs ->
  wrun S (stream_cast c fs vs) s = (o, s', ch) ->
  exists rest, calls_fields c fs (emitted c fs vs) = map fst ch ++ rest.
Proof. exact write_calls_prefix. Qed.
Print Assumptions C80_prefix.

(** Together they carry the encoding. *)
Theorem C80_bytes : forall c fs vs, wf fs = true -> has_fields fs vs ->
  concat (calls_fields c fs vs) = enc_fields (c_wire c) fs vs.
Proof. exact calls_carry. Qed.
Print Assumptions C80_bytes.

(** A nested array, a container and an empty one, in host order, in foreign order and on
    a constexpr stream. *)
Definition three : fields :=
  FCons "n" (fixed u8) CNone (FCons "m" (fixed u8) CNone
  (FCons "g" (FFixed (TArr 2 (TArr 2 (TScalar u16))) 8) CNone
  (FCons "xs" (FVar (TScalar u16) (LenField "n") None) CNone
  (FCons "ys" (FVar (TScalar u16) (LenField "m") None) CNone FNil)))).

Definition three_val : list val :=
  [VZ 2; VZ 0; VSeq [VSeq [VZ 1; VZ 2]; VSeq [VZ 3; VZ 4]]; VSeq [VZ 5; VZ 6]; VSeq []].

Example C80_case : has_fields three three_val /\ wf three = true /\ typed three = true /\
  map fst (snd (wrun budget_stream (stream_cast le64 three three_val) 99%nat)) =
    [[2]; [0]; [1; 0; 2; 0; 3; 0; 4; 0]; [5; 0; 6; 0]; []] /\
  map fst (snd (wrun budget_stream (stream_cast be64 three three_val) 99%nat)) =
    [[2]; [0]; [0; 1]; [0; 2]; [0; 3]; [0; 4]; [0; 5]; [0; 6]] /\
  map fst (snd (wrun budget_stream (stream_cast (mkCfg Little Little true 8 16777216) three three_val) 99%nat)) =
    [[2]; [0]; [1; 0; 2; 0; 3; 0; 4; 0]; [5; 0]; [6; 0]] /\
  map fst (snd (wrun budget_stream (stream_cast be64 three three_val) 5%nat)) =
    [[2]; [0]; [0; 1]; [0; 2]].
Proof. split; [has_it|]. repeat split; vm_compute; reflexivity. Qed.

(** ** C81: reading.  A read that succeeds asked for exactly what is listed for the struct
    it returns, in that order, whatever the stream and the allocator. *)
Theorem C81_asks : forall c fs S alloc s vs s' ev,
  rrun S alloc (struct_cast c fs) s = (Ok vs, s', ev) ->
  map asked ev = asks_fields c fs vs.
Proof. exact read_asks. Qed.
Print Assumptions C81_asks.

Example C81_case :
  let '(o, _, ev) := rrun list_stream grant (struct_cast be64 packet) packet_be in
  o = Ok packet_val /\
  map asked ev =
    [AskRead 2; AskRead 1; AskRead 2; AskMem 4; AskRead 4; AskRead 8; AskRead 4; AskRead 1;
     AskRead 2; AskRead 1; AskRead 2; AskRead 1; AskRead 2; AskRead 1; AskMem 16;
     AskRead 2; AskRead 1; AskRead 2; AskRead 1; AskRead 2; AskRead 1; AskRead 2; AskRead 1].
Proof. vm_compute. auto. Qed.
