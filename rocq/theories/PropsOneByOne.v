(** * C122: records read or written one by one *)
From Coq Require Import String.
From Verif Require Import Read Write Spec WSpec Typing PropDefs MoreDefs OneByOneSpec OneByOneFacts Examples.
Import ListNotations.
Open Scope string_scope.
Open Scope list_scope.
Open Scope Z_scope.

(** A message that ends in an array or a vector of records can be read in parts: the fields before
    it, then each record by a cast of its own, as many as those fields say. *)
Theorem C122_apart : forall c pre gs id t, let fs := f_app pre (FCons id t CNone FNil) in
  wf fs = true -> record_type t = Some gs -> forall bs vs rest, Forall byte_ok bs ->
  rmem (struct_cast c fs) bs = (Ok vs, rest) ->
  exists vp wss mid, vs = vp ++ [VSeq (map VRec wss)] /\ count_is c (mk_env pre vp) t (length wss) /\
    rmem (struct_cast c pre) bs = (Ok vp, mid) /\
    rmem (read_msgs c (repeat gs (length wss))) mid = (Ok wss, rest).
Proof. exact apart_one. Qed.
Print Assumptions C122_apart.

(** And back: what was read in parts is what one cast reads. *)
Theorem C122_joined : forall c pre gs id t, let fs := f_app pre (FCons id t CNone FNil) in
  wf fs = true -> record_type t = Some gs -> forall bs vp wss mid rest, Forall byte_ok bs ->
  count_is c (mk_env pre vp) t (length wss) ->
  rmem (struct_cast c pre) bs = (Ok vp, mid) ->
  rmem (read_msgs c (repeat gs (length wss))) mid = (Ok wss, rest) ->
  rmem (struct_cast c fs) bs = (Ok (vp ++ [VSeq (map VRec wss)]), rest).
Proof. exact joined. Qed.
Print Assumptions C122_joined.

(** A message that was written is the fields before the records, as [emitted] says, and what the
    casts of the records write, one after the other. *)
Theorem C122_written : forall c pre gs id t, let fs := f_app pre (FCons id t CNone FNil) in
  wf fs = true -> record_type t = Some gs -> forall vp wss out, typed fs = true -> length vp = f_len pre ->
  has_fields fs (vp ++ [VSeq (map VRec wss)]) ->
  wmem (stream_cast c fs (vp ++ [VSeq (map VRec wss)])) = (Ok tt, out) ->
  exists tl, out = enc_fields (c_wire c) pre (firstn (f_len pre) (emitted c fs (vp ++ [VSeq (map VRec wss)]))) ++ tl /\
    wmem (write_msgs c (map (fun ws => (gs, ws)) wss)) = (Ok tt, tl).
Proof. exact written_one. Qed.
Print Assumptions C122_written.

(** ** Names, each with its length *)

Definition ob_rec : fields :=
  FCons "m" (fixed u8) CNone (FCons "s" (FVar (TScalar u8) (LenField "m") None) CNone FNil).
Definition ob_pre : fields := FCons "n" (fixed u16) CNone FNil.
Definition ob_ty : fty := FVecRec ob_rec 32 (LenField "n") (Some 100).
Definition ob : fields := f_app ob_pre (FCons "names" ob_ty CNone FNil).
Definition ob_vs : list (list val) := [[VZ 1; VSeq [VZ 65]]; [VZ 2; VSeq [VZ 66; VZ 67]]].

Example C122_case : wf ob = true /\ typed ob = true /\ record_type ob_ty = Some ob_rec /\
  rmem (struct_cast be64 ob) [0; 2; 1; 65; 2; 66; 67; 9] = (Ok ([VZ 2] ++ [VSeq (map VRec ob_vs)]), [9]) /\
  count_is be64 (mk_env ob_pre [VZ 2]) ob_ty (length ob_vs) /\
  rmem (struct_cast be64 ob_pre) [0; 2; 1; 65; 2; 66; 67; 9] = (Ok [VZ 2], [1; 65; 2; 66; 67; 9]) /\
  rmem (read_msgs be64 (repeat ob_rec 2)) [1; 65; 2; 66; 67; 9] = (Ok ob_vs, [9]) /\
  has_fields ob ([VZ 2] ++ [VSeq (map VRec ob_vs)]) /\
  wmem (stream_cast be64 ob ([VZ 2] ++ [VSeq (map VRec ob_vs)])) = (Ok tt, [0; 2; 1; 65; 2; 66; 67]) /\
  wmem (write_msgs be64 (map (fun ws => (ob_rec, ws)) ob_vs)) = (Ok tt, [1; 65; 2; 66; 67]).
Proof.
  split; [reflexivity|]. split; [reflexivity|]. split; [reflexivity|]. split; [vm_compute; reflexivity|].
  split; [|split; [vm_compute; reflexivity|]; split; [vm_compute; reflexivity|]; split; [has_it|];
    split; vm_compute; reflexivity].
  split; [exists 2; split; reflexivity | intros H; discriminate H].
Qed.

(** Read in parts there is no ceiling: with one record more than it allows, the parts can be read
    and the message cannot. *)
Definition ob_tight : fields := f_app ob_pre (FCons "names" (FVecRec ob_rec 32 (LenField "n") (Some 1)) CNone FNil).

Example C122_ceiling : wf ob_tight = true /\
  fst (rmem (struct_cast be64 ob_tight) [0; 2; 1; 65; 2; 66; 67; 9]) = Err (ExcessiveLength, "names") /\
  rmem (read_msgs be64 (repeat ob_rec 2)) [1; 65; 2; 66; 67; 9] = (Ok ob_vs, [9]).
Proof. vm_compute. repeat split. Qed.
