(** * C90: exceptions, whatever else user code does *)
From Verif Require Import UserThrowSpec UserThrow UserSpec Typing Examples PropsLog.
Import ListNotations.

(** A write left by an exception has asked a question it did not get an answer to, at a
    point that a write ending by itself comes to as well, whichever answer is given. *)
Theorem C90_write : forall c fs vs H s s' ev,
  wf fs = true -> typed fs = true -> plain_fields fs = true -> has_fields fs vs ->
  urun H (u_stream_cast c fs vs) s = (Throw, s', ev) ->
  exists ev0 x, ev = ev0 ++ [x] /\ threw x = true /\
    forall q, about q = question_of x -> exists rest, whole_write c fs vs (flat_map said_of ev0 ++ q :: rest).
Proof. exact write_thrown. Qed.
Print Assumptions C90_write.

(** Conversely an exception may come at any question. *)
Theorem C90_write_all : forall c fs vs l1 q l2,
  wf fs = true -> typed fs = true -> has_fields fs vs -> whole_write c fs vs (l1 ++ q :: l2) ->
  exists H s s' ev0 x, urun H (u_stream_cast c fs vs) s = (Throw, s', ev0 ++ [x]) /\
    flat_map said_of ev0 = l1 /\ threw x = true /\ question_of x = about q.
Proof. exact write_throws. Qed.
Print Assumptions C90_write_all.

(** The same for reads; what had been given is the beginning of what the completed read
    is given. *)
Theorem C90_read : forall c fs H s s' ev,
  wf fs = true -> typed fs = true -> plain_fields fs = true -> hands_over H ->
  urun H (u_struct_cast c fs) s = (Throw, s', ev) ->
  exists ev0 x, ev = ev0 ++ [x] /\ threw x = true /\
    forall q bs, about q = question_of x -> gives q bs ->
      exists rest out, whole_read c fs (flat_map said_of ev0 ++ q :: rest) (flat_map given ev0 ++ bs ++ out).
Proof. exact read_thrown. Qed.
Print Assumptions C90_read.

Theorem C90_read_all : forall c fs l1 q l2 out,
  wf fs = true -> typed fs = true -> whole_read c fs (l1 ++ q :: l2) out ->
  exists H s s' ev0 x more, hands_over H /\
    urun H (u_struct_cast c fs) s = (Throw, s', ev0 ++ [x]) /\
    flat_map said_of ev0 = l1 /\ out = flat_map given ev0 ++ more /\ threw x = true /\ question_of x = about q.
Proof. exact read_throws. Qed.
Print Assumptions C90_read_all.

(** A write whose second optional throws; the whole exchanges of C86_case, C88_case and
    C89_case. *)
Example C90_case : plain_fields asked_len = true /\
  whole_write le64 asked_len asked_val one_not_two /\
  whole_read le64 asked_len cut_short [2; 4] /\
  exists s' x, urun by_script (u_stream_cast le64 asked_len asked_val)
                 [SCheck is_even (VZ 2) true; STest bit0 [VZ 4] true]
    = (Throw, s', [OnCheck is_even (VZ 2) (Some true); OnTest bit0 [VZ 4] (Some true)] ++ [x]) /\
    question_of x = QTest bit0 [VZ 4].
Proof.
  split; [reflexivity|]. split; [right; do 2 eexists; exact (proj1 (proj2 C89_case))|].
  split; [right; do 2 eexists; exact (proj1 C88_case)|].
  exists [], (OnTest bit0 [VZ 4] None). split; vm_compute; reflexivity.
Qed.
