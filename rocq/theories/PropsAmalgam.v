(** * C94: scripts/amalgam.py, which makes the single header *)
From Verif Require Import AmalgamSpec AmalgamFacts ConformanceAmalgam.
Local Open Scope string_scope.

(** It terminates for every source, with an output unless the entry file is missing. *)
Theorem C94_terminates : forall src e, NoDup (map fst src) ->
  exists o, amalgam src e = Some o /\ (o = Bad <-> ~ In e (map fst src)).
Proof. exact amalgam_total. Qed.
Print Assumptions C94_terminates.

(** Without cyclic includes: exactly the files needed, each once, each after those it
    includes, each with its code. *)
Theorem C94_single : forall src e std bs, NoDup (map fst src) -> acyclic src ->
  amalgam src e = Some (Single std bs) ->
  NoDup (map fst bs) /\ (forall f, In f (map fst bs) <-> needs src e f) /\
  in_order src (map fst bs) /\ (forall f c, In (f, c) bs -> c = code src f).
Proof. exact amalgam_acyclic. Qed.
Print Assumptions C94_single.

(** Including the single header gives the code that including the entry file gives, file
    by file; the files may come in another order, in which each still comes after those
    it includes. *)
Theorem C94_preprocessed : forall src, NoDup (map fst src) -> includes_first src -> acyclic src ->
  forall e g out std bs, pre src [] e g out -> amalgam src e = Some (Single std bs) ->
  exists order, out = flat_map (code src) order /\ Permutation order (map fst bs) /\ in_order src order.
Proof. exact pre_amalgam. Qed.
Print Assumptions C94_preprocessed.

(** The standard headers of all files of the directory, needed or not, sorted, each once. *)
Theorem C94_std : forall src e std bs, amalgam src e = Some (Single std bs) ->
  StronglySorted (fun a b => String.compare a b = Lt) std /\
  forall h, In h std <-> exists f ls, In (f, ls) src /\ In (LStd h) ls.
Proof. exact amalgam_std. Qed.
Print Assumptions C94_std.

(** With cyclic includes, which include guards allow, files are lost: all those on a cycle,
    since each of them counts as included by way of itself. *)
Theorem C94_cycle_lost : forall src e std bs f, NoDup (map fst src) ->
  amalgam src e = Some (Single std bs) -> by_way src f f -> f <> e -> ~ In f (map fst bs).
Proof. exact amalgam_lost. Qed.
Print Assumptions C94_cycle_lost.

Definition looped : source :=
  [("all", [LInc "a"]); ("a", [LInc "b"; LCode "A"]); ("b", [LInc "a"; LCode "B"])].

Theorem C94_cycle_refuted : exists src e f std bs g out, NoDup (map fst src) /\
  amalgam src e = Some (Single std bs) /\ needs src e f /\ ~ In f (map fst bs) /\
  pre src [] e g out /\ out <> [] /\ flat_map snd bs = [].
Proof.
  exists looped, "all", "a", [], [("all", [])], ["b"; "a"; "all"], ["B"; "A"].
  split; [repeat constructor; simpl; intuition discriminate|]. split; [vm_compute; reflexivity|].
  split; [apply rt_step; exists [LInc "a"]; split; [left; auto|split; [left; auto|right; left; auto]]|].
  split; [simpl; intuition discriminate|]. split; [|split; [discriminate|reflexivity]].
  eapply pre_open; [intros []|left; reflexivity|].
  change ["B"; "A"] with (["B"; "A"] ++ [])%list. eapply pre_inc; [|constructor].
  eapply pre_open; [simpl; intuition discriminate|right; left; reflexivity|].
  change ["B"; "A"] with (["B"] ++ ["A"])%list. eapply pre_inc; [|constructor; constructor].
  eapply pre_open; [simpl; intuition discriminate|right; right; left; reflexivity|].
  change ["B"] with ([] ++ ["B"])%list. eapply pre_inc; [|constructor; constructor].
  apply pre_again. simpl; auto.
Qed.
Print Assumptions C94_cycle_refuted.

(** The files of the repository meet the hypotheses; the order is that of
    single_header/s2s.hpp.  Without their code, which does not matter here. *)
Example C94_case : NoDup (map fst s2s_include) /\ acyclic s2s_include /\ includes_first s2s_include /\
  amalgam s2s_include "s2s.hpp" = Some (Single s2s_std (map (fun f => (f, [])) s2s_order)) /\
  length s2s_include = 61%nat /\ length s2s_order = 59%nat.
Proof.
  split; [|split; [|split; [|split; [exact s2s_single_header|split; reflexivity]]]].
  - assert (H : once [] (map fst s2s_include) = map fst s2s_include) by (vm_compute; reflexivity).
    rewrite <- H. clear H. apply once_nodup.
  - apply (climbs_acyclic (fun f => pos f (s2s_order ++ ["lib/containers/static_array.hpp"; "lib/memory/bit.hpp"]))).
    vm_compute. reflexivity.
  - apply no_late_firsts. vm_compute. reflexivity.
Qed.
