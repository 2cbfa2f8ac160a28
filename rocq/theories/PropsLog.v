(** * C86: everything a write asks, in order *)
From Verif Require Import UserLogSpec UserLog UserLogRead UserFailSpec UserFail UserHaltSpec UserHalt Typing Examples.
Import ListNotations.

(** A write that succeeds has asked exactly this, whatever the answers were. *)
Theorem C86_asks : forall c fs vs H s s' ev,
  wf fs = true -> typed fs = true -> has_fields fs vs ->
  urun H (u_stream_cast c fs vs) s = (Ok tt, s', ev) ->
  told_fields c fs vs fs vs (flat_map said_of ev).
Proof. intros c fs vs H s s' ev Hw Ht Hv. exact (proj1 (write_log c fs vs Hw Ht Hv) H s s' ev). Qed.
Print Assumptions C86_asks.

(** Conversely every such exchange is that of a write that succeeds. *)
Theorem C86_all : forall c fs vs log,
  wf fs = true -> typed fs = true -> has_fields fs vs ->
  told_fields c fs vs fs vs log ->
  exists ev, urun by_script (u_stream_cast c fs vs) log = (Ok tt, [], ev) /\ flat_map said_of ev = log.
Proof. intros c fs vs log Hw Ht Hv. exact (proj2 (write_log c fs vs Hw Ht Hv) log). Qed.
Print Assumptions C86_all.

(** A length checked by the user and counted by two optional containers. *)
Definition is_odd (v : val) : bool := match v with VZ z => Z.odd z | _ => false end.
Definition is_even (v : val) : bool := match v with VZ z => Z.even z | _ => false end.
Definition asked_len : fields :=
  FCons "n" (FFixed (TScalar (SInt 1 false)) 1) (CFun is_even)
  (FCons "f" (FFixed (TScalar (SInt 1 false)) 1) (CFun is_odd)
  (FCons "xs" (FMaybe (FVar (TScalar (SInt 1 false)) (LenField "n") None) bit0 ["f"%string]) CNone
  (FCons "ys" (FMaybe (FVar (TScalar (SInt 2 false)) (LenField "n") None) bit0 ["f"%string]) CNone
  (FCons "zs" (FVar (TScalar (SInt 1 false)) (LenField "n") None) CNone FNil)))).
Definition asked_val : list val :=
  [VZ 9; VZ 4; VSome (VSeq [VZ 6]); VSome (VSeq [VZ 7; VZ 8]); VSeq [VZ 1; VZ 2]].

(** The check of "n" is made on the 2 counted from "zs", not on the 9 stored; both
    optional containers are asked about, though the first answer is no; the check of "f"
    comes before its byte. *)
Example C86_case : wf asked_len = true /\ typed asked_len = true /\ has_fields asked_len asked_val /\
  let log := [SCheck is_even (VZ 2) true; STest bit0 [VZ 4] false; STest bit0 [VZ 4] true; SWrite [2];
              SCheck is_odd (VZ 4) true; SWrite [4];
              STest bit0 [VZ 4] true; SWrite [6]; STest bit0 [VZ 4] true; SWrite [7; 0; 8; 0];
              SWrite [1; 2]] in
  told_fields le64 asked_len asked_val asked_len asked_val log /\
  fst (urun by_script (u_stream_cast le64 asked_len asked_val) log) = (Ok tt, []).
Proof.
  assert (W : wf asked_len = true) by reflexivity.
  assert (T : typed asked_len = true) by reflexivity.
  assert (V : has_fields asked_len asked_val) by has_it.
  repeat (split; [assumption|]). intros log.
  destruct (urun by_script (u_stream_cast le64 asked_len asked_val) log) as [[o s'] ev] eqn:E.
  assert (Q : (o, s') = (Ok tt, [])) by (vm_compute in E; inversion E; reflexivity).
  inversion Q; subst o s'. split; [|exact Q].
  assert (flat_map said_of ev = log) as <- by (vm_compute in E; inversion E; reflexivity).
  exact (C86_asks _ _ _ _ _ _ _ W T V E).
Qed.

(** ** C87: everything a read asks and is given.  Whatever the answers, a read that
    succeeds was given exactly the bytes of the struct it returns. *)
Theorem C87_given : forall c fs H s vs s' ev,
  wf fs = true -> typed fs = true -> hands_over H ->
  urun H (u_struct_cast c fs) s = (Ok vs, s', ev) ->
  carried_fields c fs vs /\ heard_fields c (mk_env fs vs) fs vs (flat_map said_of ev) /\
  flat_map given ev = enc_fields (c_wire c) fs vs.
Proof. intros c fs H s vs s' ev Hw Ht. exact (proj1 (read_log c fs Hw Ht) H s vs s' ev). Qed.
Print Assumptions C87_given.

(** Conversely any struct whose parts are explained by an exchange is returned after that
    exchange, on any stream that begins with its bytes, and nothing more is taken. *)
Theorem C87_all : forall c fs vs log rest,
  wf fs = true -> typed fs = true ->
  carried_fields c fs vs -> heard_fields c (mk_env fs vs) fs vs log ->
  exists ev, urun by_script_in (u_struct_cast c fs) (enc_fields (c_wire c) fs vs ++ rest, log)
               = (Ok vs, (rest, []), ev) /\
             flat_map said_of ev = log /\ flat_map given ev = enc_fields (c_wire c) fs vs.
Proof. intros c fs vs log rest Hw Ht. exact (proj2 (read_log c fs Hw Ht) vs log rest). Qed.
Print Assumptions C87_all.

(** Which structs can come out of a read at all. *)
Theorem C87_iff : forall c fs vs log,
  wf fs = true -> typed fs = true ->
  ((exists H s s' ev, hands_over H /\ urun H (u_struct_cast c fs) s = (Ok vs, s', ev) /\
                      flat_map said_of ev = log) <->
   carried_fields c fs vs /\ heard_fields c (mk_env fs vs) fs vs log).
Proof. exact read_log_iff. Qed.
Print Assumptions C87_iff.

(** The predicate answers no, then yes, to the same question; "n" reads as 2. *)
Definition wavering : list said :=
  [SRead 1; SCheck is_even (VZ 2) true; SRead 1; SCheck is_odd (VZ 4) true;
   STest bit0 [VZ 4] false; STest bit0 [VZ 4] true; SMem 4; SRead 4; SMem 2; SRead 2].
Definition wavered : list val :=
  [VZ 2; VZ 4; VNone; VSome (VSeq [VZ 7; VZ 8]); VSeq [VZ 1; VZ 2]].

Example C87_case :
  carried_fields le64 asked_len wavered /\
  heard_fields le64 (mk_env asked_len wavered) asked_len wavered wavering /\
  enc_fields (c_wire le64) asked_len wavered = [2; 4; 7; 0; 8; 0; 1; 2].
Proof.
  destruct (urun by_script_in (u_struct_cast le64 asked_len) ([2; 4; 7; 0; 8; 0; 1; 2], wavering))
    as [[o s'] ev] eqn:E.
  assert (Q : (o, s') = (Ok wavered, ([], []))) by (vm_compute in E; inversion E; reflexivity).
  inversion Q; subst o s'. pose proof (C87_given le64 asked_len _ _ _ _ _ eq_refl eq_refl script_hands_over E) as (H1 & H2 & H3).
  assert (flat_map said_of ev = wavering) as L by (vm_compute in E; inversion E; reflexivity).
  rewrite L in H2. split; [exact H1|]. split; [exact H2|vm_compute; reflexivity].
Qed.

(** ** C88: every failure of a read is explained.  The reason, the field, everything asked
    and answered up to the failure and the bytes given, whatever user code does. *)
Theorem C88_stops : forall c fs H s r id s' ev,
  wf fs = true -> typed fs = true -> hands_over H ->
  urun H (u_struct_cast c fs) s = (Err (r, id), s', ev) ->
  stops_fields c [] fs r id (flat_map said_of ev) (flat_map given ev).
Proof. intros c fs H s r id s' ev Hw Ht. exact (proj1 (read_fails c fs r id Hw Ht) H s s' ev). Qed.
Print Assumptions C88_stops.

(** Conversely every such exchange ends in that failure, and what was not given is left. *)
Theorem C88_all : forall c fs r id log out rest,
  wf fs = true -> typed fs = true -> stops_fields c [] fs r id log out ->
  exists ev, urun by_script_in (u_struct_cast c fs) (out ++ rest, log) = (Err (r, id), (rest, []), ev) /\
             flat_map said_of ev = log /\ flat_map given ev = out.
Proof. intros c fs r id log out rest Hw Ht. exact (proj2 (read_fails c fs r id Hw Ht) log out rest). Qed.
Print Assumptions C88_all.

Theorem C88_iff : forall c fs r id log out,
  wf fs = true -> typed fs = true ->
  ((exists H s s' ev, hands_over H /\ urun H (u_struct_cast c fs) s = (Err (r, id), s', ev) /\
      flat_map said_of ev = log /\ flat_map given ev = out) <->
   stops_fields c [] fs r id log out).
Proof. exact read_fails_iff. Qed.
Print Assumptions C88_iff.

(** The stream coming short is what [buffer_exhaustion] means, and nothing is asked of
    anybody afterwards. *)
Theorem C88_short : forall c fs H s s' ev r id,
  wf fs = true -> typed fs = true -> hands_over H ->
  urun H (u_struct_cast c fs) s = (Err (r, id), s', ev) ->
  (r = BufferExhaustion <-> exists n, In (SShort n) (flat_map said_of ev)) /\
  (forall l1 n l2, flat_map said_of ev = l1 ++ SShort n :: l2 -> l2 = []).
Proof. exact read_short. Qed.
Print Assumptions C88_short.

(** A stream that comes short at the second optional; a check that says no. *)
Definition cut_short : list said :=
  [SRead 1; SCheck is_even (VZ 2) true; SRead 1; SCheck is_odd (VZ 4) true;
   STest bit0 [VZ 4] false; STest bit0 [VZ 4] true; SMem 4; SShort 4].
Definition said_no : list said :=
  [SRead 1; SCheck is_even (VZ 2) true; SRead 1; SCheck is_odd (VZ 5) false].

Example C88_case :
  stops_fields le64 [] asked_len BufferExhaustion "ys" cut_short [2; 4] /\
  stops_fields le64 [] asked_len ValidationFailure "f" said_no [2; 5].
Proof.
  split; (apply C88_iff; [reflexivity|reflexivity|]).
  - destruct (urun by_script_in (u_struct_cast le64 asked_len) ([2; 4], cut_short)) as [[o s'] ev] eqn:E.
    exists by_script_in, ([2; 4], cut_short), s', ev.
    vm_compute in E. injection E as <- <- <-. split; [exact script_hands_over|]. vm_compute. auto.
  - destruct (urun by_script_in (u_struct_cast le64 asked_len) ([2; 5], said_no)) as [[o s'] ev] eqn:E.
    exists by_script_in, ([2; 5], said_no), s', ev.
    vm_compute in E. injection E as <- <- <-. split; [exact script_hands_over|]. vm_compute. auto.
Qed.

(** ** C89: every failure of a write is explained.  The reason, the field and everything
    asked and answered up to the failure, whatever user code and stream do. *)
Theorem C89_halts : forall c fs vs H s r id s' ev,
  wf fs = true -> typed fs = true -> has_fields fs vs ->
  urun H (u_stream_cast c fs vs) s = (Err (r, id), s', ev) ->
  halts_fields c fs vs fs vs r id (flat_map said_of ev).
Proof. intros c fs vs H s r id s' ev Hw Ht Hv. exact (proj1 (write_halts c fs vs r id Hw Ht Hv) H s s' ev). Qed.
Print Assumptions C89_halts.

(** Conversely every such exchange ends in that failure. *)
Theorem C89_all : forall c fs vs r id log,
  wf fs = true -> typed fs = true -> has_fields fs vs ->
  halts_fields c fs vs fs vs r id log ->
  exists ev, urun by_script (u_stream_cast c fs vs) log = (Err (r, id), [], ev) /\
             flat_map said_of ev = log.
Proof. intros c fs vs r id log Hw Ht Hv. exact (proj2 (write_halts c fs vs r id Hw Ht Hv) log). Qed.
Print Assumptions C89_all.

Theorem C89_iff : forall c fs vs r id log,
  wf fs = true -> typed fs = true -> has_fields fs vs ->
  ((exists H s s' ev, urun H (u_stream_cast c fs vs) s = (Err (r, id), s', ev) /\
      flat_map said_of ev = log) <->
   halts_fields c fs vs fs vs r id log).
Proof. exact write_halts_iff. Qed.
Print Assumptions C89_iff.

(** The stream refusing is what [buffer_exhaustion] means, and nothing is asked of anybody
    afterwards; for any schema and value. *)
Theorem C89_refused : forall c fs vs H s s' ev r id,
  urun H (u_stream_cast c fs vs) s = (Err (r, id), s', ev) ->
  (r = BufferExhaustion <-> exists ev0 bs, ev = ev0 ++ [OnWrite bs (Some false)]) /\
  (forall ev0 bs rest, ev = ev0 ++ OnWrite bs (Some false) :: rest -> rest = []).
Proof. exact write_refused. Qed.
Print Assumptions C89_refused.

(** The first optional holds one element, so the count 2 is contradicted, after both were
    asked; a stream that refuses the second optional. *)
Definition one_not_two : list said :=
  [SCheck is_even (VZ 2) true; STest bit0 [VZ 4] true; STest bit0 [VZ 4] true].
Definition no_room : list said :=
  [SCheck is_even (VZ 2) true; STest bit0 [VZ 4] false; STest bit0 [VZ 4] true; SWrite [2];
   SCheck is_odd (VZ 4) true; SWrite [4];
   STest bit0 [VZ 4] true; SWrite [6]; STest bit0 [VZ 4] true; SRefused [7; 0; 8; 0]].

Example C89_case : has_fields asked_len asked_val /\
  halts_fields le64 asked_len asked_val asked_len asked_val FoundContradictingLength "n" one_not_two /\
  halts_fields le64 asked_len asked_val asked_len asked_val BufferExhaustion "ys" no_room.
Proof.
  assert (V : has_fields asked_len asked_val) by has_it. split; [exact V|].
  split; (apply C89_iff; [reflexivity|reflexivity|exact V|]).
  - destruct (urun by_script (u_stream_cast le64 asked_len asked_val) one_not_two) as [[o s'] ev] eqn:E.
    exists by_script, one_not_two, s', ev.
    vm_compute in E. injection E as <- <- <-. vm_compute. auto.
  - destruct (urun by_script (u_stream_cast le64 asked_len asked_val) no_room) as [[o s'] ev] eqn:E.
    exists by_script, no_room, s', ev.
    vm_compute in E. injection E as <- <- <-. vm_compute. auto.
Qed.
