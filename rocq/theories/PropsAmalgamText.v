(** * C100: the text of the single header *)
From Verif Require AmalgamHeaderFacts AmalgamMoveFacts.
From Verif Require Import AmalgamText AmalgamTextSpec.
Local Open Scope list_scope.

(** Which lines the two expressions match, and what they take out. *)
Theorem C100_expressions : forall l n, (inc_line l = Some n <-> quoted l n) /\ (std_line l = Some n <-> angled l n).
Proof. exact (fun l n => conj (AmalgamHeaderFacts.inc_line_iff l n) (AmalgamHeaderFacts.std_line_iff l n)). Qed.
Print Assumptions C100_expressions.

(** The substitutions over a whole text remove exactly these lines, blank ones aside,
    although they may match across lines: if no include runs on. *)
Theorem C100_removed : forall t ls, text_lines t ls -> Forall (fun l => ~ runs_on l) ls ->
  exists ls' r, text_lines (without_includes t) ls' /\ keeps says ls r /\ keeps (fun l => ~ blank l) ls' r.
Proof. exact AmalgamHeaderFacts.removed. Qed.
Print Assumptions C100_removed.

Definition of (ls : list string) : str := join (map s ls).

Example C100_removed_case : exists t ls, text_lines t ls /\ Forall (fun l => ~ runs_on l) ls /\
  lines (without_includes t) = map s ["#ifndef A"; " "; "int a;"; " "; "int b;"; " "]%string.
Proof.
  pose (ls := map s ["#ifndef A"; ""; "  #include ""b.hpp"" "; " "; "#include <array>"; "int a;";
                     "#include ""c.hpp"""; ""; "int b;"; "#include <bit>"]%string).
  exists (join ls), ls. split; [|split; [|vm_compute; reflexivity]].
  - apply AmalgamTextFacts.text_lines_eq. vm_compute. reflexivity.
  - apply Forall_forall. intros l H. apply AmalgamTextFacts.tidy_ok. revert l H. apply forallb_forall. vm_compute. reflexivity.
Qed.

(** Where one runs on, code between quotes that do not belong together is lost. *)
Theorem C100_run_on_refuted : exists t ls l, text_lines t ls /\ In l ls /\ says l /\
  forall ls', text_lines (without_includes t) ls' -> ~ In l ls'.
Proof.
  pose (ls := map s ["/* use"; "#include "" */"; "int x;"; "// """]%string).
  exists (join ls), ls, (s "int x;"). split; [|split; [|split]].
  - apply AmalgamTextFacts.text_lines_eq. vm_compute. reflexivity.
  - unfold ls. simpl. tauto.
  - apply AmalgamHeaderFacts.saysb_iff. vm_compute. reflexivity.
  - intros ls' H. apply AmalgamTextFacts.text_lines_eq in H. subst ls'. vm_compute. intuition discriminate.
Qed.
Print Assumptions C100_run_on_refuted.

(** The file an include is taken for is the one found by walking the directories, although
    the one is computed from the text of the name only. *)
Theorem C100_paths : forall d dir n q,
  names d dir n q <-> finds d dir (string_of_list_ascii n) = true /\ abspath dir (string_of_list_ascii n) = q.
Proof. exact AmalgamHeaderFacts.names_iff. Qed.
Print Assumptions C100_paths.

(** It ends; it gives up unless the entry file is named by its absolute path. *)
Theorem C100_entry : forall base d x, sound d -> exists o, amalgamate base d x = Some o /\
  (o = Exit1 <-> ~ exists p, In p (map fst d) /\ looked_at base p /\ x = absolute p).
Proof. exact AmalgamHeaderFacts.entry_iff. Qed.
Print Assumptions C100_entry.

(** The whole single header: the standard headers of all files looked at, sorted; then
    every file needed, once, after those it includes, with its lines except for includes,
    between two comments with its name. *)
Theorem C100_header : forall base d e, sound d -> acyclic d -> In e (map fst d) ->
  (forall p, needs d e p -> looked_at base p) ->
  (forall p t ls l, needs d e p -> In (p, t) d -> text_lines t ls -> In l ls -> ~ runs_on l) ->
  exists order std bs out ls, amalgamate base d (absolute e) = Some (Wrote out) /\ text_lines out ls /\
    NoDup order /\ (forall p, In p order <-> needs d e p) /\
    (forall l a r b, order = l ++ a :: r -> direct d a b -> In b l) /\
    StronglySorted (fun a b => String.compare a b = Lt) std /\
    (forall h, In h std <-> exists p t ls l, In (p, t) d /\ looked_at base p /\ text_lines t ls /\ In l ls /\ angled l (s h)) /\
    Forall2 (block_of d base) order bs /\
    keeps (fun l => ~ blank l) ls (map (fun h => s "#include <" ++ s h ++ s ">") std ++ concat bs).
Proof. exact AmalgamHeaderFacts.header. Qed.
Print Assumptions C100_header.

(** The same text whatever the order in which the files are found. *)
Theorem C100_any_order : forall base d d' x, sound d -> Permutation d d' ->
  amalgamate base d x = amalgamate base d' x.
Proof. exact AmalgamHeaderFacts.any_order. Qed.
Print Assumptions C100_any_order.

(** The same text wherever the directory is, unless an include leads out of it. *)
Theorem C100_moved : forall base base' d e, sound d -> closed d ->
  amalgamate base (below base d) (absolute (base ++ e)) = amalgamate base' (below base' d) (absolute (base' ++ e)).
Proof. exact AmalgamMoveFacts.moved. Qed.
Print Assumptions C100_moved.

(** The names in the comments: the way to the file from the directory. *)
Theorem C100_shown : forall base p, exists w, way base p w /\ shown base p = slashed w.
Proof. exact AmalgamMoveFacts.comments. Qed.
Print Assumptions C100_shown.

Local Open Scope string_scope.
Definition small : files :=
  [(["w"; "include"; "lib"; "b.hpp"], of ["#ifndef B"; "#include <array>"; "#include ""../c.hpp"""; "struct b {};"; "#endif"]);
   (["w"; "include"; "a.hpp"], of ["#include ""lib/b.hpp"""; "#include ""./lib/../c.hpp"""; "#include <bit>"; "struct a {};"]);
   (["w"; "include"; "c.hpp"], of ["struct c {};"; ""])].
Local Close Scope string_scope.

Local Ltac sound_disk :=
  split; [repeat constructor; simpl; intuition discriminate|];
  simpl; intros p H; repeat (destruct H as [<-|H]); try (destruct H; fail);
  (split; [discriminate|repeat constructor; try discriminate; simpl; intuition discriminate]).

Definition tidy_disk (d : files) : bool := forallb (fun f => forallb AmalgamTextFacts.tidy (lines (snd f))) d.
Lemma tidy_disk_ok d : tidy_disk d = true -> forall p t ls l, In (p, t) d -> text_lines t ls -> In l ls -> ~ runs_on l.
Proof.
  intros T p t ls l I Tl Hl. apply AmalgamTextFacts.text_lines_eq in Tl. subst ls. apply AmalgamTextFacts.tidy_ok.
  unfold tidy_disk in T. rewrite forallb_forall in T. specialize (T _ I). cbn [snd] in T.
  rewrite forallb_forall in T. auto.
Qed.

(** A directory that meets the hypotheses, and the header. *)
Example C100_case : let base := ["w"; "include"]%string in let e := ["w"; "include"; "a.hpp"]%string in
  sound small /\ acyclic small /\ In e (map fst small) /\
  (forall p, needs small e p -> looked_at base p) /\
  (forall p t ls l, needs small e p -> In (p, t) small -> text_lines t ls -> In l ls -> ~ runs_on l) /\
  amalgamate base small "/w/include/a.hpp" = Some (Wrote (of
    ["#include <array>"; "#include <bit>"; "";
     "// Begin c.hpp"; "struct c {};"; ""; "// End c.hpp"; "";
     "// Begin lib/b.hpp"; "#ifndef B"; " "; "struct b {};"; "#endif"; "// End lib/b.hpp"; "";
     "// Begin a.hpp"; " "; "struct a {};"; "// End a.hpp"; ""]%string)).
Proof.
  cbv zeta. assert (S : sound small) by sound_disk. split; [exact S|]. split; [|split; [|split; [|split]]].
  - apply (AmalgamHeaderFacts.climbs_acyclic small
      (fun p => match last p "" with "c.hpp" => 0%nat | "b.hpp" => 1%nat | _ => 2%nat end)%string); [exact S|vm_compute; reflexivity].
  - simpl. tauto.
  - intros p H. apply AmalgamHeaderFacts.needs_files in H; [|simpl; tauto]. apply AmalgamHeaderFacts.scanned_iff.
    simpl in H. repeat (destruct H as [<-|H]); try (vm_compute; reflexivity). destruct H.
  - intros p t ls l _. apply (tidy_disk_ok small). vm_compute. reflexivity.
  - vm_compute. reflexivity.
Qed.

Local Open Scope string_scope.
Definition relative : files :=
  [(["lib"; "b.hpp"], of ["#include ""../c.hpp"""; "int b;"]); (["a.hpp"], of ["#include ""lib/./b.hpp"""; "int a;"]);
   (["c.hpp"], of ["int c;"])].
Definition outward : files := [(["a.hpp"], of ["#include ""../v/b.hpp"""; "int a;"]); (["b.hpp"], of ["int b;"])].
Local Close Scope string_scope.

Example C100_moved_case : sound relative /\ closed relative /\
  amalgamate [] (below [] relative) "/a.hpp" = Some (Wrote (of
    [""; "// Begin c.hpp"; "int c;"; "// End c.hpp"; ""; "// Begin lib/b.hpp"; " "; "int b;"; "// End lib/b.hpp"; "";
     "// Begin a.hpp"; " "; "int a;"; "// End a.hpp"; ""]%string)).
Proof.
  split; [sound_disk|]. split; [apply AmalgamMoveFacts.closedb_ok; vm_compute; reflexivity|vm_compute; reflexivity].
Qed.

(** One that leads out and back in names the place. *)
Theorem C100_moved_refuted : exists base base' d e, sound d /\ sound (below base d) /\ sound (below base' d) /\
  In e (map fst d) /\
  amalgamate base (below base d) (absolute (base ++ e)) <> amalgamate base' (below base' d) (absolute (base' ++ e)).
Proof.
  exists ["u"]%string, ["v"]%string, outward, ["a.hpp"]%string. split; [sound_disk|]. split; [sound_disk|].
  split; [sound_disk|]. split; [left; reflexivity|]. vm_compute. discriminate.
Qed.
Print Assumptions C100_moved_refuted.

Local Open Scope string_scope.
Definition inline : files :=
  [(["w"; "a.hpp"], of ["#include ""b.inl"""; "int a;"]);
   (["w"; "b.inl"], of ["#include <array>"; "#include ""c.hpp"""; "int b;"]);
   (["w"; "c.hpp"], of ["int c;"])].
Definition noted : files :=
  [(["w"; "a.hpp"], of ["#include ""b.hpp"" // the b"; "int a;"]); (["w"; "b.hpp"], of ["int b;"])].
Local Close Scope string_scope.

(** A file that is needed but not looked at, since its name has another ending, is put in
    without what it includes: neither the files nor the standard headers. *)
Theorem C100_ending_refuted : exists base d e p t l out, sound d /\ acyclic d /\
  (forall p t ls l, In (p, t) d -> text_lines t ls -> In l ls -> ~ runs_on l) /\ looked_at base e /\
  needs d e p /\ In (p, t) d /\ text_lines t [l] /\ says l /\
  amalgamate base d (absolute e) = Some (Wrote out) /\
  forall ls, text_lines out ls -> ~ In l ls /\ forall k h, In k ls -> ~ angled k h.
Proof.
  assert (S : sound inline) by sound_disk.
  exists ["w"]%string, inline, ["w"; "a.hpp"]%string, ["w"; "c.hpp"]%string, (s "int c;"), (s "int c;").
  exists (of [""; "// Begin b.inl"; " "; "int b;"; "// End b.inl"; ""; "// Begin a.hpp"; " "; "int a;"; "// End a.hpp"; ""]%string).
  split; [exact S|]. split; [|split; [|split; [|split; [|split; [|split; [|split; [|split]]]]]]].
  - apply (AmalgamHeaderFacts.climbs_acyclic inline
      (fun p => match last p "" with "c.hpp" => 0%nat | "b.inl" => 1%nat | _ => 2%nat end)%string); [exact S|vm_compute; reflexivity].
  - apply tidy_disk_ok. vm_compute. reflexivity.
  - apply AmalgamHeaderFacts.scanned_iff. vm_compute. reflexivity.
  - apply rt_trans with ["w"; "b.inl"]%string; apply rt_step, AmalgamHeaderFacts.direct_iff; auto.
    + exists (of ["#include ""b.inl"""; "int a;"]%string), (s "#include ""b.inl"""), (s "b.inl").
      split; [left; reflexivity|]. split; [left; vm_compute; reflexivity|]. vm_compute. auto.
    + exists (of ["#include <array>"; "#include ""c.hpp"""; "int b;"]%string), (s "#include ""c.hpp"""), (s "c.hpp").
      split; [right; left; reflexivity|]. split; [right; left; vm_compute; reflexivity|]. vm_compute. auto.
  - simpl. tauto.
  - apply AmalgamTextFacts.text_lines_eq. vm_compute. reflexivity.
  - apply AmalgamHeaderFacts.saysb_iff. vm_compute. reflexivity.
  - vm_compute. reflexivity.
  - intros ls H. apply AmalgamTextFacts.text_lines_eq in H. subst ls. split; [vm_compute; intuition discriminate|].
    intros k h K Q. apply AmalgamHeaderFacts.std_line_iff in Q.
    assert (G : forallb (fun k => match std_line k with Some _ => false | None => true end)
                 (lines (of [""; "// Begin b.inl"; " "; "int b;"; "// End b.inl"; ""; "// Begin a.hpp"; " "; "int a;"; "// End a.hpp"; ""]%string)) = true)
      by (vm_compute; reflexivity).
    rewrite forallb_forall in G. specialize (G k K). rewrite Q in G. discriminate.
Qed.
Print Assumptions C100_ending_refuted.

(** An include followed by a comment is not seen: it stays in the header, and the file is
    not put in. *)
Theorem C100_comment_refuted : exists base d e dir l n p k r out, sound d /\
  e = dir ++ ["a.hpp"%string] /\ In (e, join [l; k]) d /\ l = s "#include " ++ [dquote] ++ n ++ [dquote] ++ s " // " ++ r /\
  names d dir n p /\ looked_at base e /\ looked_at base p /\
  amalgamate base d (absolute e) = Some (Wrote out) /\
  forall ls, text_lines out ls -> In l ls /\ ~ In (s "int b;") ls /\ In (p, s "int b;") d.
Proof.
  exists ["w"]%string, noted, ["w"; "a.hpp"]%string, ["w"]%string, (s "#include ""b.hpp"" // the b"), (s "b.hpp"), ["w"; "b.hpp"]%string,
    (s "int a;"), (s "the b"), (of [""; "// Begin a.hpp"; "#include ""b.hpp"" // the b"; "int a;"; "// End a.hpp"; ""]%string).
  split; [sound_disk|]. split; [reflexivity|]. split; [left; reflexivity|]. split; [reflexivity|].
  split; [apply AmalgamHeaderFacts.names_iff; vm_compute; auto|].
  split; [apply AmalgamHeaderFacts.scanned_iff; vm_compute; reflexivity|].
  split; [apply AmalgamHeaderFacts.scanned_iff; vm_compute; reflexivity|]. split; [vm_compute; reflexivity|].
  intros ls H. apply AmalgamTextFacts.text_lines_eq in H. subst ls.
  split; [right; right; left; reflexivity|]. split; [vm_compute; intuition discriminate|right; left; reflexivity].
Qed.
Print Assumptions C100_comment_refuted.
