(** * C60: where a failed read leaves the stream *)
From Verif Require Import PropDefs RStop Examples RStopFacts.
Import ListNotations.

(** A failed read has consumed the fields before the failing one and, of that one, what
    [rstop_field] says: nothing when its length or type is rejected, all of it when its
    constraint is violated, up to the inner fault in records. *)
Theorem C60_position : forall c fs bs r id left,
  wf fs = true -> typed fs = true -> Forall byte_ok bs ->
  (rmem (struct_cast c fs) bs = (Err (r, id), left) <->
   exists pre t k post vs rest, fs = f_app pre (FCons id t k post) /\
     valid c pre vs /\ bs = enc_fields (c_wire c) pre vs ++ rest /\
     rstop_field c (mk_env pre vs) t k rest r left).
Proof. exact read_stop_iff. Qed.
Print Assumptions C60_position.

(** The same on every stream holding a byte sequence, unless it refused a read. *)
Theorem C60_streams : forall c S good view lim alloc fs s r id s' ev,
  wf fs = true -> typed fs = true -> conforms S good view lim -> widest_fields c fs <= lim ->
  good s -> Forall byte_ok (view s) ->
  rrun S alloc (struct_cast c fs) s = (Err (r, id), s', ev) -> r <> BufferExhaustion ->
  good s' /\
  exists pre t k post vs rest, fs = f_app pre (FCons id t k post) /\
     valid c pre vs /\ view s = enc_fields (c_wire c) pre vs ++ rest /\
     rstop_field c (mk_env pre vs) t k rest r (view s').
Proof. exact read_stop_stream. Qed.
Print Assumptions C60_streams.

(** The ceiling of [body] is 8 bytes: four bytes of payload are left.  In the second
    point of [pts] the constraint of [y] fails: the points after it are left.  On a
    constexpr stream the first element of [body] is gone. *)
Example C60_case :
  rmem (struct_cast be64 packet) [0xCA; 0xFE; 5; 0; 1; 0; 1; 0; 2] =
    (Err (ExcessiveLength, "body"), [0; 1; 0; 2]) /\
  rmem (struct_cast be64 packet) (firstn 36 packet_be ++ [0x80; 0; 3; 3; 0; 4; 1]) =
    (Err (ValidationFailure, "pts"), [0; 3; 3; 0; 4; 1]) /\
  rmem (struct_cast (mkCfg Little Big true 8 100) packet) (firstn 8 packet_be) =
    (Err (BufferExhaustion, "body"), [0x56]) /\
  rmem (struct_cast be64 packet) (firstn 8 packet_be) =
    (Err (BufferExhaustion, "body"), [0x12; 0x34; 0x56]).
Proof. vm_compute. auto. Qed.

Example C60_streams_case :
  widest_fields be64 packet = 8 /\
  fst (rrun (byte_stream 8 (fun _ => [])) grant (struct_cast be64 packet)
         (mkBst [0xCA; 0xFE; 5; 0; 1; 0; 1; 0; 2] 0 true)) =
    (Err (ExcessiveLength, "body"), mkBst [0xCA; 0xFE; 5; 0; 1; 0; 1; 0; 2] 5 true).
Proof. vm_compute. auto. Qed.
